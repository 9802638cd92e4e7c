(* Composition of fermionic maps without inversions: signs multiply, periods and commutation carry over from the orbitals. *)
From Verif Require Import AuxN SpecC SpecBits SpecDigits SpecMaps SpecSymm SpecOps SpecFermi SpecProj M_bitcount M_benes M_maps M_symm M_fmap M_ops M_opstr P_next P_boson P_maps P_period P_symm P_symminst P_symopinst P_ops P_mat P_fermion P_fmap P_fmap2.
Local Open Scope nat_scope.

Section Comp.
Variables (n : nat) (mlist : list (list Z)) (D : nat -> Prop).
Hypothesis HP : forall d, D d -> signed_perm n (nth d mlist []) /\ no_inversion (nth d mlist []).
Notation mp d := (nth d mlist []).
Fixpoint Wst (ds : list nat) (s : N) : N := match ds with [] => s | d :: ds' => Wst ds' (hcb_map_bits n (mp d) s) end.
Fixpoint Wsg (ds : list nat) (s : N) : bool := match ds with [] => false | d :: ds' => xorb (sgnb n (mp d) s) (Wsg ds' (hcb_map_bits n (mp d) s)) end.
Fixpoint Wtg (ds : list nat) (i : nat) : nat := match ds with [] => i | d :: ds' => Wtg ds' (target (nth i (mp d) 0%Z)) end.
Definition zs (b : bool) : Z := if b then (-1)%Z else 1%Z.
Lemma sapply_W ds : forall s b, sapply (fermion_smap n mlist) ds (s, zs b) = (Wst ds s, zs (xorb b (Wsg ds s))).
Proof.
  induction ds as [|d ds IH]; intros s b; cbn [sapply fold_left Wst Wsg]; [rewrite xorb_false_r; reflexivity|].
  unfold sact at 2. cbn [fst snd]. unfold fermion_smap at 2 3. rewrite fermion_map_eq. cbn [fst snd]. fold (zs (sgnb n (mp d) s)).
  replace (zs b * zs (sgnb n (mp d) s))%Z with (zs (xorb b (sgnb n (mp d) s))) by (destruct b, (sgnb n (mp d) s); reflexivity).
  unfold sapply in IH. rewrite IH, xorb_assoc. reflexivity.
Qed.
Lemma Wtg_lt ds : Forall D ds -> forall i, i < n -> Wtg ds i < n.
Proof. induction 1 as [|d ds Hd _ IH]; intros i Hi; cbn [Wtg]; [exact Hi|]. apply IH, signed_perm_lt; [apply HP, Hd|exact Hi]. Qed.
Lemma Wst_lt ds : Forall D ds -> forall s, (s < 2 ^ N.of_nat n)%N -> (Wst ds s < 2 ^ N.of_nat n)%N.
Proof. induction 1 as [|d ds Hd _ IH]; intros s Hs; cbn [Wst]; [exact Hs|]. apply IH, U_lt, HP, Hd. Qed.
Lemma W_flip ds : Forall D ds -> forall i s, i < n -> (s < 2 ^ N.of_nat n)%N ->
  Wst ds (flipo n i s) = flipo n (Wtg ds i) (Wst ds s) /\
  Wsg ds (flipo n i s) = xorb (Wsg ds s) (xorb (behind n s i) (behind n (Wst ds s) (Wtg ds i))).
Proof.
  induction 1 as [|d ds Hd _ IH]; intros i s Hi Hs; cbn [Wst Wsg Wtg].
  - split; [reflexivity|]. rewrite xorb_nilpotent. reflexivity.
  - destruct (HP d Hd) as [Hp NI]. rewrite (U_flip n (mp d) Hp i s Hi Hs). destruct (IH _ _ (signed_perm_lt n (mp d) i Hp Hi) (U_lt n (mp d) Hp s)) as [E1 E2].
    split; [exact E1|]. rewrite E2, (sgnb_flip n (mp d) Hp s i Hi), (behind_U n (mp d) Hp s i Hi).
    pose proof (eta_no n (mp d) NI i) as Z. unfold eta in Z. pose proof (fl_no (mp d) NI i) as F. rewrite F in Z |- *. cbn [andb] in Z |- *. rewrite xorb_false_l in Z |- *. rewrite Z.
    set (a := sgnb _ _ _). set (b := Wsg _ _). set (x := behind n s i). set (y := before _ _ _ _). set (z := behind _ _ _). destruct a, b, x, y, z; reflexivity.
Qed.
Lemma occ_zero k : occ n 0 k = false. Proof. unfold occ, occupied. apply N.bits_0. Qed.
Lemma U_zero d : D d -> hcb_map_bits n (mp d) 0 = 0%N.
Proof.
  intros Hd. destruct (HP d Hd) as [Hp NI]. apply (occ_ext n); [apply U_lt, Hp|pose proof (pow2_pos (N.of_nat n)); lia|]. intros k Hk. rewrite occ_zero.
  assert (X : exists j, j < n /\ target (nth j (mp d) 0%Z) = k).
  { pose proof (Permutation_in k (Permutation_sym (tg_perm n (mp d) Hp))) as Q. rewrite in_seq in Q. specialize (Q ltac:(lia)). apply in_map_iff in Q. destruct Q as (j & E & Hj). apply in_seq in Hj. exists j. split; [lia|exact E]. }
  destruct X as (j & Hj & <-). rewrite (occ_U n (mp d) Hp 0 j Hj), occ_zero, (fl_no (mp d) NI). reflexivity.
Qed.
Lemma W_zero ds : Forall D ds -> Wst ds 0 = 0%N /\ Wsg ds 0 = false.
Proof.
  induction 1 as [|d ds Hd _ [E1 E2]]; [split; reflexivity|]. cbn [Wst Wsg]. rewrite (U_zero d Hd), E1, E2. split; [reflexivity|]. rewrite xorb_false_r. unfold sgnb.
  rewrite !bsum_false; [reflexivity| |]; intros k _; rewrite occ_zero; reflexivity.
Qed.
(* every state is built from the vacuum by filling orbitals *)
Lemma state_ind (P : N -> Prop) : P 0%N -> (forall i s, i < n -> (s < 2 ^ N.of_nat n)%N -> P s -> P (flipo n i s)) -> forall s, (s < 2 ^ N.of_nat n)%N -> P s.
Proof.
  intros H0 HS. assert (G : forall k, k <= n -> forall s, (s < 2 ^ N.of_nat k)%N -> P s).
  { induction k as [|k IH]; intros Hk s Hs; [replace s with 0%N by (cbn in Hs; lia); exact H0|].
    destruct (N.testbit s (N.of_nat k)) eqn:E.
    - rewrite <- (flipp_flipp k s). replace k with (n - 1 - (n - 1 - k)) by lia. fold (flipo n (n - 1 - k) (flipp (n - 1 - (n - 1 - k)) s)).
      assert (X : (flipp k s < 2 ^ N.of_nat k)%N).
      { apply lt_pow2_bits. intros i Hi. unfold flipp. rewrite N.lxor_spec, N.pow2_bits_eqb. destruct (N.eqb_spec (N.of_nat k) i) as [<-|Ne]; [rewrite E; reflexivity|].
        rewrite (testbit_small s (N.of_nat (S k)) i) by (assumption || lia). reflexivity. }
      replace (n - 1 - (n - 1 - k)) with k by lia. apply HS; [lia| |apply IH; [lia|exact X]].
      eapply N.lt_le_trans; [exact X|]. apply N.pow_le_mono_r; lia.
    - apply IH; [lia|]. apply lt_pow2_bits. intros i Hi. destruct (N.eq_dec i (N.of_nat k)) as [->|Ne]; [exact E|]. apply (testbit_small s (N.of_nat (S k))); [exact Hs|lia]. }
  intros s Hs. apply (G n); [lia|exact Hs].
Qed.
Lemma words_orbitals ds ds' : Forall D ds -> Forall D ds' -> (forall i, i < n -> Wtg ds i = Wtg ds' i) ->
  forall s, (s < 2 ^ N.of_nat n)%N -> Wst ds s = Wst ds' s /\ Wsg ds s = Wsg ds' s.
Proof.
  intros H H' E. apply state_ind.
  - destruct (W_zero ds H) as [-> ->], (W_zero ds' H') as [-> ->]. split; reflexivity.
  - intros i s Hi Hs [I1 I2]. destruct (W_flip ds H i s Hi Hs) as [-> ->], (W_flip ds' H' i s Hi Hs) as [-> ->]. rewrite I1, I2, (E i Hi). split; reflexivity.
Qed.
Lemma words_states ds ds' : Forall D ds -> Forall D ds' -> (forall s, (s < 2 ^ N.of_nat n)%N -> Wst ds s = Wst ds' s) -> forall i, i < n -> Wtg ds i = Wtg ds' i.
Proof.
  intros H H' E i Hi. assert (P0 : (0 < 2 ^ N.of_nat n)%N) by (pose proof (pow2_pos (N.of_nat n)); lia).
  assert (F : (flipo n i 0 < 2 ^ N.of_nat n)%N) by (apply flipp_lt; [lia|exact P0]).
  pose proof (E _ F) as X. rewrite (proj1 (W_flip ds H i 0%N Hi P0)), (proj1 (W_flip ds' H' i 0%N Hi P0)), (proj1 (W_zero ds H)), (proj1 (W_zero ds' H')) in X.
  pose proof (Wtg_lt ds H i Hi) as L. pose proof (Wtg_lt ds' H' i Hi) as L'. pose proof (occ_flip n (Wtg ds i) 0 (Wtg ds i) L L) as O1. rewrite X, occ_flip in O1 by assumption.
  rewrite occ_zero, Nat.eqb_refl, !xorb_false_l in O1. apply Nat.eqb_eq in O1. exact O1.
Qed.
Lemma words_equal ds ds' : Forall D ds -> Forall D ds' -> (forall s, (s < 2 ^ N.of_nat n)%N -> Wst ds s = Wst ds' s) ->
  forall s, (s < 2 ^ N.of_nat n)%N -> sapply (fermion_smap n mlist) ds (s, 1%Z) = sapply (fermion_smap n mlist) ds' (s, 1%Z).
Proof.
  intros H H' E s Hs. destruct (words_orbitals ds ds' H H' (words_states ds ds' H H' E) s Hs) as [E1 E2]. change 1%Z with (zs false). rewrite !sapply_W, E1, E2. reflexivity.
Qed.
End Comp.

Lemma sapply_repeat ms d p x : sapply ms (repeat d p) x = Nat.iter p (sact ms d) x.
Proof. revert x. induction p as [|p IH]; intros x; [reflexivity|]. rewrite iter_succ_r. cbn [repeat]. rewrite <- IH. reflexivity. Qed.
Lemma Wst_repeat n mlist d p s : Wst n mlist (repeat d p) s = Nat.iter p (hcb_map_bits n (nth d mlist [])) s.
Proof. revert s. induction p as [|p IH]; intros s; [reflexivity|]. rewrite iter_succ_r. cbn [repeat Wst]. apply IH. Qed.
Lemma fermion_good_maps n mlist pers : accepted n mlist pers -> (forall d, d < length pers -> no_inversion (nth d mlist [])) ->
  (forall d e s, d < length pers -> e < length pers -> (s < 2 ^ N.of_nat n)%N ->
     hcb_map_bits n (nth d mlist []) (hcb_map_bits n (nth e mlist []) s) = hcb_map_bits n (nth e mlist []) (hcb_map_bits n (nth d mlist []) s)) ->
  good_maps (fun s => (s < 2 ^ N.of_nat n)%N) (length pers) pers (fermion_smap n mlist).
Proof.
  intros HA NI HC. assert (SP : forall d, d < length pers -> signed_perm n (nth d mlist [])) by (intros d; apply accepted_perm; exact HA).
  assert (HP : forall d, d < length pers -> signed_perm n (nth d mlist []) /\ no_inversion (nth d mlist [])) by (intros d Hd; split; [apply SP|apply NI]; exact Hd).
  constructor; [reflexivity| | | | |].
  - intros d Hd. destruct HA as [_ HA]. destruct (HA d Hd) as [L [f Hf]]. apply process_map_accepts in Hf. apply Hf.
  - intros d s Hd Hs. unfold fermion_smap. rewrite fermion_map_eq. apply U_lt, SP, Hd.
  - intros d s Hd Hs. unfold fermion_smap. rewrite fermion_map_eq. cbn [snd]. destruct (sgnb n (nth d mlist []) s); tauto.
  - intros d s Hd Hs. rewrite <- sapply_repeat. rewrite (words_equal n mlist (fun d => d < length pers) HP (repeat d (nth d pers 0)) []); [reflexivity| |constructor| |exact Hs].
    + apply Forall_forall. intros x Hx. apply repeat_spec in Hx. subst x. exact Hd.
    + intros t Ht. rewrite Wst_repeat. cbn [Wst]. destruct HA as [_ HA]. destruct (HA d Hd) as [L [f Hf]]. apply process_map_accepts in Hf. rewrite L in Hf. destruct Hf as (_ & _ & S3).
      apply (S3 2%N); [lia| |exact Ht]. intros u _. apply hcb_map_bits_moved, SP, Hd.
  - intros d e s Hd He Hs. change (sapply (fermion_smap n mlist) [e; d] (s, 1%Z) = sapply (fermion_smap n mlist) [d; e] (s, 1%Z)).
    apply (words_equal n mlist (fun d => d < length pers) HP); [repeat constructor; assumption|repeat constructor; assumption| |exact Hs].
    intros t Ht. cbn [Wst]. apply HC; assumption.
Qed.
