(* Bosonic and spinful bit operations; relations between the operations. *)
From Verif Require Import AuxN SpecC SpecBits SpecDigits SpecMaps SpecSymm SpecOps SpecFermi SpecChain SpecProj M_bitcount M_benes M_maps M_fmap M_bits1d P_next P_boson P_bitcount P_maps P_period P_fermion P_fmap P_fmap2 P_fmap3 P_fmap4 P_square P_bits1d P_bits1d2.
Local Open Scope nat_scope.

(* ---- bosons ---- *)
Definition bfits (w : btype) (B : N) (L : nat) : Prop := match width w with Some b => (B ^ N.of_nat L <= 2 ^ N.of_nat b)%N | None => True end.
Lemma bwrap_small w B L x : bfits w B L -> (x < B ^ N.of_nat L)%N -> wrap w x = x.
Proof. unfold bfits, wrap. destruct w; cbn [width]; intros H Hx; [| |reflexivity]; apply N.mod_small; eapply N.lt_le_trans; [exact Hx|exact H|exact Hx|exact H]. Qed.
Section Boson.
Variables (w : btype) (B : N) (L : nat) (m : list Z) (body : nat -> N -> option N) (s : N).
Hypothesis HB : (2 <= B)%N.
Hypothesis HF : bfits w B L.
Hypothesis Hm : signed_perm L m.
Hypothesis Hbody : forall i, i < L -> body i (digit B s i) = Some (wrap w (snd (entry B L m s (L - 1 - i)) * B ^ N.of_nat (fst (entry B L m s (L - 1 - i)))))%N.
Lemma bloop_sum : forall cnt i v, cnt + i = L ->
  bloop w B body cnt i (wrap w v) (s / B ^ N.of_nat i)%N = Some (wrap w (v + psum B (map (fun i => entry B L m s (L - 1 - i)) (seq i cnt)))).
Proof.
  induction cnt as [|c IH]; intros i v Hi; cbn [bloop seq map psum]; [rewrite N.add_0_r; reflexivity|].
  change ((s / B ^ N.of_nat i) mod B)%N with (digit B s i). rewrite (Hbody i) by lia. rewrite wrap_add. destruct (entry B L m s (L - 1 - i)) as [q u]. cbn [fst snd].
  replace (s / B ^ N.of_nat i / B)%N with (s / B ^ N.of_nat (S i))%N. 2:{ rewrite Nat2N.inj_succ, N.pow_succ_r', (N.mul_comm B), <- N.div_div; [reflexivity| |lia]. apply N.pow_nonzero. lia. }
  rewrite IH by lia. do 2 f_equal. lia.
Qed.
Lemma brun_moved sg : exists t, moved B L m s t /\ brun w B L body (s, sg) = Some (t, (sg * 1)%Z).
Proof.
  exists (psum B (map (entry B L m s) (seq 0 L))). split; [apply entries_moved; assumption|]. unfold brun. cbn [fst snd].
  pose proof (bloop_sum L 0 0%N ltac:(lia)) as E. change (N.of_nat 0) with 0%N in E. rewrite N.pow_0_r, N.div_1_r in E. assert (W0 : wrap w 0 = 0%N) by (destruct w; reflexivity). rewrite W0 in E. rewrite E. do 2 f_equal.
  rewrite N.add_0_l. rewrite <- (map_map (fun i => L - 1 - i) (entry B L m s)). rewrite (psum_perm B HB _ _ (Permutation_map (entry B L m s) (rev_perm_seq L))).
  apply (bwrap_small w B L _ HF). apply (entries_moved B HB L m s Hm).
Qed.
End Boson.
Lemma digit_site B L s i : i < L -> site_val B L s (L - 1 - i) = digit B s i.
Proof. intros H. unfold site_val. f_equal. lia. Qed.
Lemma boson_shift_acts w B L x : (2 <= B)%N -> bfits w B L -> 1 <= L -> (- Z.of_nat L <= x)%Z -> acts false B L (chain_shift L x) (boson_shift w B L x).
Proof.
  intros HB HF HL Hx s sg Hs. destruct (mod_nat L x HL) as (p & Hp & E). apply brun_moved; [assumption|assumption|apply shift_perm; exact HL|]. intros i Hi.
  unfold entry. rewrite (shift_nth L x p _ E) by lia. rewrite target_nat, flips_nat. cbn [fst snd]. rewrite digit_site by exact Hi.
  rewrite (rem_nat L (Z.of_nat i + x) ((i + p) mod L) HL); [|lia|]. 2:{ rewrite Z.add_mod, E, Nat2Z.inj_mod, Nat2Z.inj_add by lia. rewrite (Z.mod_small (Z.of_nat i)) by lia. reflexivity. }
  destruct (Z.ltb_spec (Z.of_nat ((i + p) mod L)) 0); [lia|]. unfold Mj. rewrite Nat2Z.id. do 4 f_equal. f_equal. unfold rot. destruct (Nat.ltb_spec (L - 1 - i) p).
  - replace (i + p) with (i + p - L + 1 * L) by lia. rewrite Nat.mod_add by lia. rewrite Nat.mod_small by lia. lia.
  - rewrite Nat.mod_small by lia. lia.
Qed.
Lemma boson_flip_acts w B L : (2 <= B)%N -> bfits w B L -> acts false B L (chain_flip L) (boson_fliplr w B L).
Proof.
  intros HB HF s sg Hs. apply brun_moved; [assumption|assumption|apply flip_perm|]. intros i Hi.
  unfold entry. rewrite flip_nth by lia. rewrite target_nat, flips_nat. cbn [fst snd]. rewrite digit_site by exact Hi. unfold Mj. do 4 f_equal. lia.
Qed.
Lemma boson_inv_acts w B L p : (2 <= B)%N -> bfits w B L ->
  acts false B L (chain_inv L p) (brun w B L (fun i d => if p (L - 1 - i) then Some (wrap w ((B - d - 1) * Mj B i)) else Some (wrap w (d * Mj B i)))).
Proof.
  intros HB HF s sg Hs. apply brun_moved; [assumption|assumption|apply inv_perm|]. intros i Hi.
  unfold entry. rewrite inv_target, inv_flips by lia. cbn [fst snd]. rewrite digit_site by exact Hi. unfold Mj. replace (L - 1 - (L - 1 - i)) with i by lia. destruct (p (L - 1 - i)); [|reflexivity].
  do 3 f_equal. pose proof (digit_lt B HB s i). lia.
Qed.
Lemma acts_ext fermi B n m f g : (forall s sg, (s < B ^ N.of_nat n)%N -> f (s, sg) = g (s, sg)) -> acts fermi B n m f -> acts fermi B n m g.
Proof. intros E H s sg Hs. destruct (H s sg Hs) as (t & M & F). exists t. rewrite <- E by exact Hs. auto. Qed.
Lemma bloop_ext w B body body' : forall cnt i v s, (forall j d, i <= j < i + cnt -> body j d = body' j d) -> bloop w B body cnt i v s = bloop w B body' cnt i v s.
Proof.
  induction cnt as [|c IH]; intros i v s H; [reflexivity|]. cbn [bloop]. rewrite H by lia. destruct (body' i (s mod B)%N); [|reflexivity]. apply IH. intros; apply H; lia.
Qed.
Lemma brun_ext w B L body body' Is : (forall j d, j < L -> body j d = body' j d) -> brun w B L body Is = brun w B L body' Is.
Proof. intros H. unfold brun. rewrite (bloop_ext w B body body'); [reflexivity|]. intros. apply H. lia. Qed.
Lemma boson_inv_all_acts w B L : (2 <= B)%N -> bfits w B L -> acts false B L (chain_inv L (fun _ => true)) (boson_flip_all w B L).
Proof. intros HB HF. exact (boson_inv_acts w B L (fun _ => true) HB HF). Qed.
Lemma from_right_idx L r i : i < L -> from_right L r (L - 1 - i) = (i mod 2 =? r). Proof. intros H. unfold from_right. do 2 f_equal. lia. Qed.
Lemma boson_A_acts w B L : (2 <= B)%N -> bfits w B L -> acts false B L (chain_inv L (from_right L 0)) (boson_flip_A w B L).
Proof. intros HB HF. refine (acts_ext _ _ _ _ _ _ _ (boson_inv_acts w B L (from_right L 0) HB HF)). intros s sg _. apply brun_ext. intros j d Hj. rewrite from_right_idx by exact Hj. reflexivity. Qed.
Lemma boson_B_acts w B L : (2 <= B)%N -> bfits w B L -> acts false B L (chain_inv L (from_right L 1)) (boson_flip_B w B L).
Proof. intros HB HF. refine (acts_ext _ _ _ _ _ _ _ (boson_inv_acts w B L (from_right L 1) HB HF)). intros s sg _. apply brun_ext. intros j d Hj. rewrite from_right_idx by exact Hj. reflexivity. Qed.

(* ---- two species ---- *)
Section Two.
Variables (w : btype) (L : nat) (I : N).
Lemma two_below : 1 <= L -> fits w (2 * L) -> below w L. Proof. intros HL HF. apply (fits_below w (2 * L)); [exact HF|lia]. Qed.
Lemma right_lt : (N.land I (Imax L) < 2 ^ N.of_nat L)%N. Proof. rewrite N.land_comm. apply land_lt, Imax_lt. Qed.
Lemma left_lt : (I < 2 ^ N.of_nat (2 * L))%N -> (N.shiftr I (N.of_nat L) < 2 ^ N.of_nat L)%N.
Proof. intros HI. apply shiftr_lt. replace (N.of_nat L + N.of_nat L)%N with (N.of_nat (2 * L)) by lia. exact HI. Qed.
Lemma occ_left k : k < L -> occ L (N.shiftr I (N.of_nat L)) k = occ (2 * L) I k.
Proof. intros H. unfold occ, occupied. rewrite N.shiftr_spec'. f_equal. lia. Qed.
Lemma occ_right k : k < L -> occ L (N.land I (Imax L)) k = occ (2 * L) I (L + k).
Proof. intros H. unfold occ, occupied. rewrite N.land_spec, Imax_bit. destruct (Nat.ltb_spec (L - 1 - k) L); [|lia]. rewrite andb_true_r. do 2 f_equal. lia. Qed.
Lemma join_lt a b : (a < 2 ^ N.of_nat L)%N -> (b < 2 ^ N.of_nat L)%N -> (a + N.shiftl b (N.of_nat L) < 2 ^ N.of_nat (2 * L))%N.
Proof.
  intros Ha Hb. rewrite N.shiftl_mul_pow2. replace (N.of_nat (2 * L)) with (N.of_nat L + N.of_nat L)%N by lia. rewrite N.pow_add_r. set (P := (2 ^ N.of_nat L)%N) in *. clearbody P.
  apply N.lt_le_trans with (P + b * P)%N; [lia|]. replace (P + b * P)%N with ((b + 1) * P)%N by lia. apply N.mul_le_mono_r. lia.
Qed.
Lemma join_wrap a b : fits w (2 * L) -> (a < 2 ^ N.of_nat L)%N -> (b < 2 ^ N.of_nat L)%N -> wrap w (a + wrap w (N.shiftl b (N.of_nat L))) = (a + N.shiftl b (N.of_nat L))%N.
Proof.
  intros HF Ha Hb. pose proof (join_lt a b Ha Hb) as J. rewrite (wrap_small w (2 * L) (N.shiftl b (N.of_nat L)) HF) by lia. apply (wrap_small w (2 * L) _ HF J).
Qed.
Lemma join_occ a b k : (a < 2 ^ N.of_nat L)%N -> k < 2 * L -> occ (2 * L) (a + N.shiftl b (N.of_nat L)) k = if k <? L then occ L b k else occ L a (k - L).
Proof.
  intros Ha Hk. unfold occ, occupied. rewrite N.shiftl_mul_pow2, (N.mul_comm b), testbit_split by exact Ha. destruct (Nat.ltb_spec k L), (N.ltb_spec (N.of_nat (2 * L - 1 - k)) (N.of_nat L)); try lia; f_equal; lia.
Qed.
Lemma moved_occ n m s t j : moved 2 n m s t -> no_inversion m -> length m = n -> j < n -> occ n t (target (nth j m 0%Z)) = occ n s j.
Proof.
  intros [_ M] NI Hl Hj. specialize (M j Hj). assert (F : flips (nth j m 0%Z) = false) by (apply NI, nth_In; lia). rewrite F in M. unfold site_val in M. rewrite !digit2 in M. unfold occ, occupied.
  destruct (N.testbit t _), (N.testbit s _); cbn in M; congruence.
Qed.
Lemma both_moved m tl tr : signed_perm L m -> no_inversion m -> moved 2 L m (N.shiftr I (N.of_nat L)) tl -> moved 2 L m (N.land I (Imax L)) tr ->
  moved 2 (2 * L) (both_species L m) I (tr + N.shiftl tl (N.of_nat L)).
Proof.
  intros P NI Ml Mr. pose proof (signed_perm_length L m P) as Ln. assert (Hl : (tl < 2 ^ N.of_nat L)%N) by apply Ml. assert (Hr : (tr < 2 ^ N.of_nat L)%N) by apply Mr. apply moved_bits; [apply join_lt; assumption|].
  intros j Hj. assert (F : flips (nth j (both_species L m) 0%Z) = false) by (apply (both_no L m NI), nth_In; unfold both_species; rewrite app_length, map_length; lia). rewrite F, xorb_false_r.
  rewrite both_target by assumption. assert (TL : forall i, i < L -> target (nth i m 0%Z) < L) by (intros i Hi; apply signed_perm_lt; assumption).
  rewrite join_occ; [|exact Hr|destruct (Nat.ltb_spec j L); [pose proof (TL j ltac:(lia)); lia|pose proof (TL (j - L) ltac:(lia)); lia]]. destruct (Nat.ltb_spec j L).
  - destruct (Nat.ltb_spec (target (nth j m 0%Z)) L); [|pose proof (TL j ltac:(lia)); lia]. rewrite (moved_occ L m _ tl j Ml NI Ln ltac:(lia)). apply occ_left. lia.
  - destruct (Nat.ltb_spec (target (nth (j - L) m 0%Z) + L) L); [lia|]. replace (target (nth (j - L) m 0%Z) + L - L) with (target (nth (j - L) m 0%Z)) by lia. rewrite (moved_occ L m _ tr (j - L) Mr NI Ln ltac:(lia)). rewrite occ_right by lia. f_equal. lia.
Qed.
Lemma both_sign m : signed_perm L m -> no_inversion m ->
  (neg_one_pow (crossings L m (N.shiftr I (N.of_nat L))) * neg_one_pow (crossings L m (N.land I (Imax L))) = neg_one_pow (crossings (2 * L) (both_species L m) I))%Z.
Proof.
  intros P NI. pose proof (signed_perm_length L m P) as Ln. rewrite !cpar_crossings by (try apply both_no; exact NI). rewrite zs_mul. f_equal. symmetry.
  rewrite (cpar_ext (2 * L) _ (fun k => if k <? L then target (nth k m 0%Z) else target (nth (k - L) m 0%Z) + L) _ (occ (2 * L) I)); [|intros k Hk; apply both_target; assumption|reflexivity].
  rewrite (cpar_both L (fun k => target (nth k m 0%Z))) by (intros k Hk; apply signed_perm_lt; assumption). f_equal; apply cpar_ext; try reflexivity; intros k Hk; symmetry; [apply occ_left|apply occ_right]; exact Hk.
Qed.
End Two.
Lemma spf_both_acts w L m f : 1 <= L -> fits w (2 * L) -> signed_perm L m -> no_inversion m -> acts true 2 L m f -> acts true 2 (2 * L) (both_species L m) (spf_both w L f).
Proof.
  intros HL HF P NI A s sg Hs. unfold spf_both. rewrite (below_ok w L (two_below w L HL HF)).
  destruct (A _ sg (left_lt L s Hs)) as (tl & Ml & ->). destruct (A _ (sg * neg_one_pow (crossings L m (N.shiftr s (N.of_nat L))))%Z (right_lt L s)) as (tr & Mr & ->).
  exists (tr + N.shiftl tl (N.of_nat L))%N. split; [apply both_moved; assumption|]. rewrite (join_wrap w L _ _ HF); [|apply Mr|apply Ml]. do 2 f_equal. rewrite <- Z.mul_assoc. f_equal. apply both_sign; assumption.
Qed.
Lemma spf_inv_acts w L : 1 <= L -> fits w (2 * L) -> acts true 2 (2 * L) (swap_species L) (spf_flip_all w L).
Proof.
  intros HL HF s sg Hs. unfold spf_flip_all. pose proof (two_below w L HL HF) as B. rewrite (below_ok w L B), !(bcount_ok w _ L B).
  exists (N.shiftr s (N.of_nat L) + N.shiftl (N.land s (Imax L)) (N.of_nat L))%N. pose proof (left_lt L s Hs) as Hl. pose proof (right_lt L s) as Hr. split.
  - apply moved_bits; [apply join_lt; assumption|]. intros j Hj. rewrite exch_nth, target_nat, flips_nat, xorb_false_r by exact Hj. rewrite join_occ; [|exact Hl|apply rot_lt; lia]. unfold rot.
    destruct (Nat.ltb_spec j L).
    + destruct (Nat.ltb_spec (j + 2 * L - L) L); [lia|]. rewrite occ_left by lia. f_equal. lia.
    + destruct (Nat.ltb_spec (j - L) L); [|lia]. rewrite occ_right by lia. f_equal. lia.
  - rewrite (join_wrap w L _ _ HF) by assumption. do 3 f_equal. rewrite (cpar_crossings (2 * L) _ s (exch_no L)), zs_bool. f_equal.
    rewrite (cpar_ext (2 * L) _ (rot (2 * L) L) _ (occ (2 * L) s)); [|intros k Hk; rewrite exch_nth by exact Hk; apply target_nat|reflexivity]. rewrite cpar_rot by lia. unfold both_odd. rewrite !odd_of_nat, !particles_bsum.
    replace (2 * L - L) with L by lia. f_equal; rewrite bsum_rev; apply bsum_ext; intros k Hk; apply in_seq in Hk; [apply (occ_left L s k)|apply (occ_right L s k)]; lia.
Qed.
