(* The operations of all families act as site maps; relations between them. *)
From Verif Require Import AuxN SpecC SpecBits SpecDigits SpecMaps SpecSymm SpecOps SpecFermi SpecChain SpecProj M_bitcount M_benes M_maps M_symm M_fmap M_bits1d SpecChain1d P_next P_boson P_bitcount P_maps P_period P_fermion P_fmap P_fmap2 P_fmap3 P_fmap4 P_square P_bits1d P_bits1d2 P_bits1d3.
Local Open Scope nat_scope.

Lemma at_most_fits w k : at_most w k <-> fits w k. Proof. destruct w; reflexivity. Qed.
Lemma less_than_below w k : less_than w k <-> below w k. Proof. destruct w; reflexivity. Qed.
Lemma op_shift_acts w k L x : (- Z.of_nat L <= x)%Z -> shift_fits w k L x -> acts (fermionic k) (levels k) (sites k L) (shift_map k L x) (op_shift w k L x).
Proof.
  intros Hx [[HL HF] HS]. destruct k as [[|]|b|]; cbn [fermionic levels sites shift_map op_shift].
  - apply hcp_shift_acts; try assumption. left. apply less_than_below, HF.
  - apply hcp_shift_acts; try assumption. destruct HS as [HS|HS]; [left; apply less_than_below, HS|right]. split; [apply at_most_fits, HF|auto].
  - destruct HF as [HB HF]. apply boson_shift_acts; assumption.
  - apply at_most_fits in HF. apply spf_both_acts; try assumption; [apply shift_perm, HL|apply shift_no, HL|]. apply hcp_shift_acts; try assumption. left. apply (two_below w L); assumption.
Qed.
Lemma op_flip_acts w k L : states_fit w k L -> acts (fermionic k) (levels k) (sites k L) (flip_map k L) (op_flip w k L).
Proof.
  intros [HL HF]. destruct k as [[|]|b|]; cbn [fermionic levels sites flip_map op_flip].
  - apply less_than_below in HF. apply hcp_flip_acts; [assumption|apply below_fits; assumption|auto].
  - apply at_most_fits in HF. apply hcp_flip_acts; [assumption|assumption|congruence].
  - destruct HF as [HB HF]. apply boson_flip_acts; assumption.
  - apply at_most_fits in HF. pose proof (two_below w L HL HF). apply spf_both_acts; try assumption; [apply flip_perm|apply flip_no|]. apply hcp_flip_acts; [assumption|apply below_fits; assumption|auto].
Qed.
Lemma op_inv_acts w k L : states_fit w k L -> has_inversion k -> acts (fermionic k) (levels k) (sites k L) (inv_map k L) (op_inv w k L).
Proof.
  intros [HL HF] HI. destruct k as [[|]|b|]; cbn [fermionic levels sites inv_map op_inv].
  - destruct HI.
  - apply hcp_inv_acts.
  - destruct HF as [HB HF]. apply boson_inv_all_acts; assumption.
  - apply at_most_fits in HF. apply spf_inv_acts; assumption.
Qed.
Lemma op_invA_acts w k L : states_fit w k L -> has_sublattices k -> acts (fermionic k) (levels k) (sites k L) (chain_inv L (from_right L 0)) (op_invA w k L).
Proof.
  intros [HL HF] HI. destruct k as [[|]|b|]; cbn [fermionic levels sites op_invA]; try destruct HI.
  - apply hcp_sub_acts.
  - destruct HF as [HB HF]. apply boson_A_acts; assumption.
Qed.
Lemma op_invB_acts w k L : states_fit w k L -> has_sublattices k -> acts (fermionic k) (levels k) (sites k L) (chain_inv L (from_right L 1)) (op_invB w k L).
Proof.
  intros [HL HF] HI. destruct k as [[|]|b|]; cbn [fermionic levels sites op_invB]; try destruct HI.
  - apply hcp_sub_acts.
  - destruct HF as [HB HF]. apply boson_B_acts; assumption.
Qed.
Lemma shift_map_perm k L x : 1 <= L -> signed_perm (sites k L) (shift_map k L x) /\ no_inversion (shift_map k L x).
Proof. intros HL. destruct k; cbn [sites shift_map]; (split; [|]); try apply shift_perm; try apply shift_no; try apply both_perm; try apply both_no; try apply shift_perm; try apply shift_no; exact HL. Qed.
Lemma flip_map_perm k L : signed_perm (sites k L) (flip_map k L) /\ no_inversion (flip_map k L).
Proof. destruct k; cbn [sites flip_map]; (split; [|]); try apply flip_perm; try apply flip_no; try apply both_perm; try apply both_no; try apply flip_perm; try apply flip_no. Qed.
Lemma inv_map_perm k L : signed_perm (sites k L) (inv_map k L). Proof. destruct k; cbn [sites inv_map]; try apply inv_perm. apply exch_perm. Qed.

(* ---- words ---- *)
Section Rel.
Variables (fermi : bool) (B : N) (n : nat).
Hypothesis HB : (2 <= B)%N.
Definition good (m : list Z) (f : op) : Prop := acts fermi B n m f /\ signed_perm n m /\ (fermi = true -> no_inversion m).
Lemma run_cons f fs x : run_ops (f :: fs) x = match f x with Some y => run_ops fs y | None => None end.
Proof. unfold run_ops. cbn [fold_left]. destruct (f x) as [y|]; [reflexivity|]. induction fs as [|g fs IH]; [reflexivity|exact IH]. Qed.
Lemma good_plain ms fs : fermi = false -> Forall2 good ms fs -> forall s sg, (s < B ^ N.of_nat n)%N -> run_ops fs (s, sg) = Some (run_maps B n ms s, sg) .
Proof.
  intros F. induction 1 as [|m f ms fs (A & P & _) _ IH]; intros s sg Hs; [reflexivity|]. rewrite run_cons. destruct (A s sg Hs) as (t & M & ->). rewrite F, Z.mul_1_r.
  rewrite IH by apply M. f_equal. f_equal. cbn [run_maps fold_left]. unfold run_maps at 1. f_equal. exact (moved_unique B n m s _ _ HB P M (boson_map_bits_moved B n m s HB P)).
Qed.
Lemma good_fermi ms fs : fermi = true -> B = 2%N -> Forall2 good ms fs -> forall ml, (forall m, In m ms -> In m ml) -> exists ds, Forall (fun d => In (nth d ml []) ms) ds /\
  (forall i, Wtg ml ds i = fst (walk ms (i, false))) /\
  forall s b sg, (s < B ^ N.of_nat n)%N -> run_ops fs (s, (sg * zs b)%Z) = Some (Wst n ml ds s, (sg * zs (xorb b (Wsg n ml ds s)))%Z).
Proof.
  intros F EB H ml. assert (G : forall ms0, (forall m, In m ms -> In m ms0) -> (forall m, In m ms0 -> In m ml) -> exists ds, Forall (fun d => In (nth d ml []) ms0) ds /\
  (forall i, Wtg ml ds i = fst (walk ms (i, false))) /\
  forall s b sg, (s < B ^ N.of_nat n)%N -> run_ops fs (s, (sg * zs b)%Z) = Some (Wst n ml ds s, (sg * zs (xorb b (Wsg n ml ds s)))%Z)).
  2:{ intros I. apply G; auto. }
  induction H as [|m f ms fs (A & P & NI) _ IH]; intros ms0 I0 I.
  - exists []. split; [constructor|]. split; [reflexivity|]. intros s b sg Hs. cbn [Wst Wsg]. rewrite xorb_false_r. reflexivity.
  - specialize (NI F). destruct (IH ms0 ltac:(intros; apply I0; right; assumption) I) as (ds & D1 & D2 & D3). destruct (In_nth ml m [] (I m (I0 m (or_introl eq_refl)))) as (d & Hd & Ed). exists (d :: ds). split; [constructor; [rewrite Ed; apply I0; left; reflexivity|exact D1]|]. split.
    + intros i. cbn [Wtg walk fold_left]. rewrite D2, Ed. unfold step. cbn [fst snd xorb]. f_equal. f_equal. destruct (flips (nth i m 0%Z)) eqn:Fl; [|reflexivity].
      destruct (Nat.lt_ge_cases i (length m)) as [Hl|Hl]; [rewrite (NI _ (nth_In m 0%Z Hl)) in Fl; discriminate|rewrite nth_overflow in Fl by exact Hl; discriminate].
    + intros s b sg Hs. rewrite run_cons. destruct (A s (sg * zs b)%Z Hs) as (t & M & ->). rewrite F. cbn [Wst Wsg]. rewrite Ed. subst B.
      assert (T : t = hcb_map_bits n m s) by (exact (moved_unique 2 n m s _ _ HB P M (hcb_map_bits_moved n m s P))). subst t.
      assert (S : neg_one_pow (crossings n m s) = zs (sgnb n m s)).
      { rewrite sgnb_spec. unfold neg_one_pow, zs. assert (O : odd_inverted n m s = 0). { unfold odd_inverted. replace (filter _ (seq 0 n)) with (@nil nat); [reflexivity|]. symmetry. induction (seq 0 n) as [|k l IHl]; [reflexivity|]. cbn [filter]. rewrite (fl_no m NI k). exact IHl. } rewrite O, Nat.add_0_r. reflexivity. }
      rewrite S, <- Z.mul_assoc, zs_mul, D3 by apply M. rewrite xorb_assoc. reflexivity.
Qed.
Lemma run_rel ms fs ms' fs' : (fermi = true -> B = 2%N) -> Forall2 good ms fs -> Forall2 good ms' fs' -> (forall j, j < n -> walk ms (j, false) = walk ms' (j, false)) ->
  forall s sg, (s < B ^ N.of_nat n)%N -> exists y, run_ops fs (s, sg) = Some y /\ run_ops fs' (s, sg) = Some y /\ (fst y < B ^ N.of_nat n)%N.
Proof.
  intros HF H H' E s sg Hs.
  assert (Q : forall ms fs, Forall2 good ms fs -> forall m, In m ms -> signed_perm n m /\ (fermi = true -> no_inversion m)).
  { clear. induction 1 as [|m f ms fs (A & P & NI) _ IH]; intros x I; [destruct I|]. destruct I as [<-|I]; auto. }
  destruct (Bool.bool_dec fermi true) as [F|F].
  - destruct (good_fermi ms fs F (HF F) H (ms ++ ms') ltac:(intros; apply in_or_app; auto)) as (ds & D1 & D2 & D3).
    destruct (good_fermi ms' fs' F (HF F) H' (ms ++ ms') ltac:(intros; apply in_or_app; auto)) as (ds' & D1' & D2' & D3').
    specialize (D3 s false sg Hs). specialize (D3' s false sg Hs). cbn [zs] in D3, D3'. rewrite Z.mul_1_r in D3, D3'. rewrite (HF F) in *. set (ml := ms ++ ms') in *.
    assert (W : Wst n ml ds s = Wst n ml ds' s /\ Wsg n ml ds s = Wsg n ml ds' s).
    { apply (words_orbitals n ml (fun d => In (nth d ml []) ms \/ In (nth d ml []) ms')); [|eapply Forall_impl; [|exact D1]; auto|eapply Forall_impl; [|exact D1']; auto| |exact Hs].
      - intros d [I|I]; (split; [apply (Q _ _ H _ I) || apply (Q _ _ H' _ I)|apply (Q _ _ H _ I) || apply (Q _ _ H' _ I); exact F]).
      - intros i Hi. rewrite D2, D2', E by exact Hi. reflexivity. }
    destruct W as [W1 W2]. rewrite D3, D3', W1, W2. eexists. split; [reflexivity|]. split; [reflexivity|]. cbn [fst]. apply (Wst_lt n ml (fun d => In (nth d ml []) ms')); [|exact D1'|exact Hs].
    intros d I. split; apply (Q _ _ H' _ I). exact F.
  - apply Bool.not_true_is_false in F. rewrite (good_plain ms fs F H s sg Hs), (good_plain ms' fs' F H' s sg Hs). rewrite (walk_states B HB n ms ms'); [|intros m I; apply (Q _ _ H m I)|intros m I; apply (Q _ _ H' m I)|exact E|exact Hs].
    eexists. split; [reflexivity|]. split; [reflexivity|]. cbn [fst]. apply run_lt; [exact HB|intros m I; apply (Q _ _ H' m I)|exact Hs].
Qed.
Lemma run_id ms fs : (fermi = true -> B = 2%N) -> Forall2 good ms fs -> (forall j, j < n -> walk ms (j, false) = (j, false)) ->
  forall s sg, (s < B ^ N.of_nat n)%N -> run_ops fs (s, sg) = Some (s, sg).
Proof. intros HF H E s sg Hs. destruct (run_rel ms fs [] [] HF H ltac:(constructor) ltac:(exact E) s sg Hs) as (y & E1 & E2 & _). rewrite E1. symmetry. exact E2. Qed.
End Rel.
