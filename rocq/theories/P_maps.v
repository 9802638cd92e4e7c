From Verif Require Import AuxN SpecDigits SpecMaps M_benes M_maps P_benes P_boson P_next M_next.
Local Open Scope N_scope.

(* ---------- sums of digits at given positions ---------- *)
Section Base.
Variable B : N.
Hypothesis HB : 2 <= B.

Lemma digit_ext n : forall s t, s < B ^ N.of_nat n -> t < B ^ N.of_nat n ->
  (forall i, (i < n)%nat -> digit B s i = digit B t i) -> s = t.
Proof.
  induction n as [|n IH]; intros s t Hs Ht H.
  - cbn [N.of_nat] in *. rewrite N.pow_0_r in *. lia.
  - destruct (low_digit B HB s n Hs) as (Es & Ls & _). destruct (low_digit B HB t n Ht) as (Et & Lt & _).
    rewrite Es, Et. rewrite (H 0%nat) by lia. f_equal. f_equal. apply IH; try assumption.
    intros i Hi. rewrite !digit_shift by assumption. apply H. lia.
Qed.

Fixpoint psum (l : list (nat * N)) : N :=
  match l with [] => 0 | (p, v) :: l' => v * B ^ N.of_nat p + psum l' end.

Lemma psum_app l1 l2 : psum (l1 ++ l2) = psum l1 + psum l2.
Proof. induction l1 as [|[p v] l1 IH]; cbn [app psum]; [reflexivity|]. rewrite IH. lia. Qed.

Lemma psum_perm l1 l2 : Permutation l1 l2 -> psum l1 = psum l2.
Proof.
  induction 1 as [|[p v] l1 l2 _ IH|[p v] [p' v'] l|l1 l2 l3 _ IH1 _ IH2]; cbn [psum]; try lia.
Qed.

Lemma psum_sorted n : forall l, map fst l = seq 0 n -> (forall p v, In (p, v) l -> v < B) ->
  psum l < B ^ N.of_nat n /\ forall p v, In (p, v) l -> digit B (psum l) p = v.
Proof.
  induction n as [|n IH]; intros l Hm Hv.
  - destruct l; [|discriminate]. cbn. split; [apply N.lt_0_1|tauto].
  - rewrite seq_S in Hm. cbn [Nat.add] in Hm.
    destruct (exists_last (l := l)) as (l0 & [p0 v0] & ->); [intros ->; destruct (seq 0 n); discriminate|].
    rewrite map_app in Hm. cbn [map fst] in Hm. apply app_inj_tail in Hm. destruct Hm as [Hm ->].
    destruct (IH l0 Hm) as [H1 H2]; [intros; eapply Hv; apply in_or_app; left; eassumption|].
    assert (Hv0 : v0 < B) by (eapply Hv; apply in_or_app; right; left; reflexivity).
    rewrite psum_app. cbn [psum]. rewrite N.add_0_r, (N.mul_comm v0).
    split.
    + rewrite powS. assert (B ^ N.of_nat n * (v0 + 1) <= B ^ N.of_nat n * B) by (apply N.mul_le_mono_l; lia). lia.
    + intros p v Hi. rewrite digit_split by assumption. apply in_app_or in Hi. destruct Hi as [Hi|[E|[]]].
      * assert (Hp : In p (map fst l0)) by (apply in_map_iff; exists (p, v); split; [reflexivity|assumption]).
        rewrite Hm in Hp. apply in_seq in Hp. replace (p <? n)%nat with true by (symmetry; apply Nat.ltb_lt; lia).
        apply H2; assumption.
      * injection E as <- <-. rewrite Nat.ltb_irrefl, Nat.sub_diag. apply digit_small; assumption.
Qed.

Lemma psum_digits n l : Permutation (map fst l) (seq 0 n) -> (forall p v, In (p, v) l -> v < B) ->
  psum l < B ^ N.of_nat n /\ forall p v, In (p, v) l -> digit B (psum l) p = v.
Proof.
  intros Hp Hv. apply Permutation_sym in Hp. apply Permutation_map_inv in Hp. destruct Hp as (l' & Hm & Hl).
  destruct (psum_sorted n l') as [H1 H2].
  - symmetry; assumption.
  - intros p v Hi. apply (Hv p). eapply Permutation_in; [apply Permutation_sym|]; eassumption.
  - rewrite (psum_perm _ _ Hl). split; [assumption|]. intros p v Hi. apply H2. eapply Permutation_in; eassumption.
Qed.
End Base.

Lemma signed_perm_length n m : signed_perm n m -> length m = n.
Proof. intros H. apply Permutation_length in H. rewrite map_length, seq_length in H. assumption. Qed.

Lemma signed_perm_lt n m j : signed_perm n m -> (j < n)%nat -> (target (nth j m 0%Z) < n)%nat.
Proof.
  intros H Hj. pose proof (signed_perm_length n m H) as L.
  assert (In (target (nth j m 0%Z)) (seq 0 n)).
  { eapply Permutation_in; [exact H|]. apply in_map, nth_In. lia. }
  apply in_seq in H0. lia.
Qed.

(* pairs (position, value) written by the loop over sites cnt-1 .. 0, s shifted accordingly *)
Definition entry (B : N) (n : nat) (m : list Z) (s : N) (j : nat) : nat * N :=
  ((n - 1 - target (nth j m 0%Z))%nat,
   if flips (nth j m 0%Z) then B - 1 - site_val B n s j else site_val B n s j).

Lemma NoDup_map_in {A C} (f : A -> C) l :
  (forall x y, In x l -> In y l -> f x = f y -> x = y) -> NoDup l -> NoDup (map f l).
Proof.
  induction l as [|a l IH]; intros Hf H; [constructor|]. inversion H; subst. cbn [map]. constructor.
  - rewrite in_map_iff. intros (y & E & Hy). apply Hf in E; [|right; assumption|left; reflexivity]. congruence.
  - apply IH; [|assumption]. intros x y Hx Hy. apply Hf; right; assumption.
Qed.

Lemma rev_perm_seq n : Permutation (map (fun i => n - 1 - i)%nat (seq 0 n)) (seq 0 n).
Proof.
  apply NoDup_Permutation.
  - apply NoDup_map_in; [|apply seq_NoDup].
    intros x y Hx Hy. apply in_seq in Hx. apply in_seq in Hy. lia.
  - apply seq_NoDup.
  - intros x. rewrite in_map_iff. split.
    + intros (y & <- & Hy). apply in_seq in Hy. apply in_seq. lia.
    + intros Hx. apply in_seq in Hx. exists (n - 1 - x)%nat. split; [lia|]. apply in_seq. lia.
Qed.

Lemma entries_perm B n m s : signed_perm n m ->
  Permutation (map fst (map (entry B n m s) (seq 0 n))) (seq 0 n).
Proof.
  intros H. pose proof (signed_perm_length n m H) as L. rewrite map_map. unfold entry. cbn [fst].
  apply Permutation_trans with (map (fun i => n - 1 - i)%nat (map target m)).
  - rewrite map_map. rewrite <- (map_map (fun j => nth j m 0%Z) (fun z => n - 1 - target z)%nat).
    replace (map (fun j => nth j m 0%Z) (seq 0 n)) with m; [apply Permutation_refl|].
    rewrite <- L. clear. induction m as [|x m IH]; [reflexivity|]. cbn [length seq map nth].
    f_equal. rewrite <- seq_shift, map_map. exact IH.
  - eapply Permutation_trans; [apply Permutation_map, H|]. apply rev_perm_seq.
Qed.

Lemma pos_neg n z : (z < 0)%Z -> (Z.to_nat (- z - 1) < n)%nat -> Z.to_N (z + Z.of_nat n) = N.of_nat (n - 1 - Z.to_nat (- z - 1)).
Proof. lia. Qed.
Lemma pos_nonneg n z : (0 <= z)%Z -> (Z.to_nat z < n)%nat -> Z.to_N (Z.of_nat n - z - 1) = N.of_nat (n - 1 - Z.to_nat z).
Proof. lia. Qed.

Lemma boson_loop_sum B (HB : 2 <= B) n m s : signed_perm n m -> forall cnt ss, (cnt <= n)%nat ->
  boson_map_loop B (Z.of_nat n) m cnt ss (s / B ^ N.of_nat (n - cnt)) =
  ss + psum B (map (entry B n m s) (seq 0 cnt)).
Proof.
  intros Hm. induction cnt as [|i IH]; intros ss Hc; [cbn; lia|].
  cbn [boson_map_loop]. rewrite seq_S, map_app, psum_app. cbn [map Nat.add psum].
  assert (D : (s / B ^ N.of_nat (n - S i)) mod B = site_val B n s i).
  { unfold site_val, digit. do 3 f_equal. lia. }
  assert (Q : s / B ^ N.of_nat (n - S i) / B = s / B ^ N.of_nat (n - i)).
  { replace (n - i)%nat with (S (n - S i)) by lia. rewrite powS. rewrite (N.mul_comm B).
    pose proof (Bpos B HB (n - S i)). rewrite N.div_div by lia. reflexivity. }
  rewrite Q, IH by lia. rewrite D. unfold entry. set (z := nth i m 0%Z).
  pose proof (signed_perm_lt n m i Hm ltac:(lia)) as Ht. fold z in Ht.
  assert (Hd : site_val B n s i < B) by (apply digit_lt; assumption).
  unfold flips. unfold target in *. destruct (Z.ltb_spec z 0) as [L|L].
  - rewrite pos_neg by assumption. replace (B - site_val B n s i - 1) with (B - 1 - site_val B n s i) by (clear; lia). ring.
  - rewrite pos_nonneg by assumption. ring.
  - assumption.
Qed.

Lemma entries_moved B (HB : 2 <= B) n m s : signed_perm n m ->
  moved B n m s (psum B (map (entry B n m s) (seq 0 n))).
Proof.
  intros Hm. destruct (psum_digits B HB n _ (entries_perm B n m s Hm)) as [H1 H2].
  { intros p v Hi. apply in_map_iff in Hi. destruct Hi as (j & E & Hj). unfold entry in E. injection E as _ <-.
    assert (site_val B n s j < B) by (apply digit_lt; assumption).
    destruct (flips _); lia. }
  split; [assumption|]. intros j Hj.
  unfold site_val at 1. apply H2. apply in_map_iff. exists j. split; [reflexivity|]. apply in_seq. lia.
Qed.

Lemma boson_map_bits_moved B n m s : 2 <= B -> signed_perm n m -> moved B n m s (boson_map_bits B n m s).
Proof.
  intros HB Hm. unfold boson_map_bits.
  pose proof (boson_loop_sum B HB n m s Hm n 0 (Nat.le_refl n)) as E.
  rewrite Nat.sub_diag in E. cbn [N.of_nat] in E. rewrite N.pow_0_r, N.div_1_r in E. rewrite E, N.add_0_l.
  apply entries_moved; assumption.
Qed.

Lemma moved_unique B n m s t t' : 2 <= B -> signed_perm n m -> moved B n m s t -> moved B n m s t' -> t = t'.
Proof.
  intros HB Hm [H1 H2] [H1' H2']. apply (digit_ext B HB n); try assumption. intros i Hi.
  (* some site has target n-1-i *)
  assert (In (n - 1 - i)%nat (map target m)).
  { eapply Permutation_in; [apply Permutation_sym, Hm|]. apply in_seq. lia. }
  apply in_map_iff in H. destruct H as (z & Ez & Hz). apply (In_nth _ _ 0%Z) in Hz. destruct Hz as (j & Hj & Ej).
  rewrite (signed_perm_length n m Hm) in Hj. specialize (H2 j Hj). specialize (H2' j Hj). rewrite Ej, Ez in *.
  unfold site_val at 1 in H2. unfold site_val at 1 in H2'. replace (n - 1 - (n - 1 - i))%nat with i in * by lia. congruence.
Qed.

(* ---------- spin-1/2: bits ---------- *)
Lemma digit2 s i : digit 2 s i = N.b2n (N.testbit s (N.of_nat i)).
Proof. unfold digit. rewrite <- N.testbit_spec'. reflexivity. Qed.

Lemma hcb_index_loop_spec n m : signed_perm n m -> forall k j index inv, (j + k = n)%nat ->
  let r := hcb_index_loop (Z.of_nat n) m k j index inv in
  (forall p, fst r p = if (p <? N.of_nat k) then Some (N.of_nat (n - 1 - target (nth (n - 1 - N.to_nat p) m 0%Z))) else index p) /\
  (forall p, N.testbit (snd r) p = xorb (N.testbit inv p) ((p <? N.of_nat k) && flips (nth (n - 1 - N.to_nat p) m 0%Z))).
Proof.
  intros Hm. induction k as [|k IH]; intros j index inv Hjk r.
  - subst r. cbn. split; intros p; [destruct p; reflexivity|]. destruct p; cbn; rewrite xorb_false_r; reflexivity.
  - pose proof (signed_perm_lt n m j Hm ltac:(lia)) as Ht.
    set (z := nth j m 0%Z) in *.
    assert (Hbj : Z.to_N (Z.of_nat n - Z.of_nat j - 1) = N.of_nat k) by lia.
    assert (Hz : (n - 1 - N.to_nat (N.of_nat k))%nat = j) by lia.
    assert (Hlt : forall p, (p <? N.of_nat (S k)) = (p =? N.of_nat k) || (p <? N.of_nat k)).
    { intros p. destruct (N.ltb_spec p (N.of_nat (S k))), (N.eqb_spec p (N.of_nat k)), (N.ltb_spec p (N.of_nat k)); lia || reflexivity. }
    subst r. cbn [hcb_index_loop]. fold z. rewrite Hbj. unfold target, flips in *.
    destruct (Z.ltb_spec z 0) as [L|L].
    + destruct (IH (S j) (upd index (N.of_nat k) (Some (Z.to_N (Z.of_nat n + z)))) (N.lxor inv (N.shiftl 1 (N.of_nat k)))) as [IH1 IH2]; [lia|].
      split; intros p; [rewrite IH1|rewrite IH2]; rewrite Hlt.
      * destruct (N.eqb_spec p (N.of_nat k)) as [->|Ne]; cbn [orb].
        -- rewrite N.ltb_irrefl, upd_eq, Hz. fold z. replace (z <? 0)%Z with true by (symmetry; apply Z.ltb_lt; assumption).
           f_equal. lia.
        -- rewrite upd_neq by assumption. reflexivity.
      * change (N.shiftl 1 (N.of_nat k)) with (bit (N.of_nat k)). rewrite N.lxor_spec, testbit_bit.
        destruct (N.eqb_spec p (N.of_nat k)) as [->|Ne]; cbn [orb andb].
        -- rewrite N.ltb_irrefl, Hz. fold z. replace (z <? 0)%Z with true by (symmetry; apply Z.ltb_lt; assumption).
           cbn. rewrite xorb_false_r. reflexivity.
        -- rewrite xorb_false_r. reflexivity.
    + destruct (IH (S j) (upd index (N.of_nat k) (Some (Z.to_N (Z.of_nat n - z - 1)))) inv) as [IH1 IH2]; [lia|].
      split; intros p; [rewrite IH1|rewrite IH2]; rewrite Hlt.
      * destruct (N.eqb_spec p (N.of_nat k)) as [->|Ne]; cbn [orb].
        -- rewrite N.ltb_irrefl, upd_eq, Hz. fold z. replace (z <? 0)%Z with false by (symmetry; apply Z.ltb_ge; assumption).
           f_equal. lia.
        -- rewrite upd_neq by assumption. reflexivity.
      * destruct (N.eqb_spec p (N.of_nat k)) as [->|Ne]; cbn [orb andb]; [|reflexivity].
        rewrite N.ltb_irrefl, Hz. fold z. replace (z <? 0)%Z with false by (symmetry; apply Z.ltb_ge; assumption).
        cbn. reflexivity.
Qed.

Lemma nth_perm_inj n m i j : signed_perm n m -> (i < n)%nat -> (j < n)%nat ->
  target (nth i m 0%Z) = target (nth j m 0%Z) -> i = j.
Proof.
  intros Hm Hi Hj E. pose proof (signed_perm_length n m Hm) as L.
  assert (ND : NoDup (map target m)) by (eapply Permutation_NoDup; [apply Permutation_sym, Hm|apply seq_NoDup]).
  rewrite (NoDup_nth _ (target 0%Z)) in ND. apply ND; [rewrite map_length; lia|rewrite map_length; lia|].
  rewrite !map_nth. assumption.
Qed.

Lemma hcb_map_state_moved ld n m s : (n <= 2 ^ ld)%nat -> signed_perm n m -> s < 2 ^ N.of_nat n ->
  exists t, hcb_map_state ld n m s = Some t /\ moved 2 n m s t.
Proof.
  intros Hn Hm Hs. unfold hcb_map_state, hcb_index.
  destruct (hcb_index_loop_spec n m Hm n 0 empty_arr 0) as [I1 I2]; [lia|].
  destruct (hcb_index_loop (Z.of_nat n) m n 0 empty_arr 0) as [index inv]. cbn [fst snd] in I1, I2.
  assert (Hi : forall p v, index p = Some v -> (N.to_nat p < n)%nat /\ v = N.of_nat (n - 1 - target (nth (n - 1 - N.to_nat p) m 0%Z))).
  { intros p v H. rewrite I1 in H. destruct (N.ltb_spec p (N.of_nat n)); [|discriminate]. injection H as <-. split; [lia|reflexivity]. }
  destruct (benes_ok ld index) as (net & E & Fw & Un & _).
  { intros i j v H1 H2. apply Hi in H1. apply Hi in H2. destruct H1 as [H1 E1], H2 as [H2 E2].
    pose proof (signed_perm_lt n m (n - 1 - N.to_nat i) Hm ltac:(lia)).
    pose proof (signed_perm_lt n m (n - 1 - N.to_nat j) Hm ltac:(lia)).
    assert (n - 1 - N.to_nat i = n - 1 - N.to_nat j)%nat by (apply (nth_perm_inj n m); try assumption; lia). lia. }
  { intros i v H. apply Hi in H. destruct H as [H ->]. lia. }
  rewrite E. eexists. split; [reflexivity|].
  assert (Hx : forall p, N.testbit (N.lxor s inv) p = xorb (N.testbit s p) ((p <? N.of_nat n) && flips (nth (n - 1 - N.to_nat p) m 0%Z))).
  { intros p. rewrite N.lxor_spec, I2, N.bits_0, xorb_false_l. reflexivity. }
  split.
  - apply lt_pow2_bits. intros v Hv. destruct (Un v) as (p & Hp & Eb).
    { intros p Hp. apply Hi in Hp. destruct Hp as [Hp ->]. lia. }
    rewrite Eb, Hx. rewrite I1 in Hp. destruct (N.ltb_spec p (N.of_nat n)) as [L|L]; [discriminate|].
    rewrite (testbit_small s (N.of_nat n) p) by assumption. reflexivity.
  - intros j Hj. unfold site_val. rewrite !digit2.
    assert (Hp : index (N.of_nat (n - 1 - j)) = Some (N.of_nat (n - 1 - target (nth j m 0%Z)))).
    { rewrite I1. replace (N.of_nat (n - 1 - j) <? N.of_nat n) with true by (symmetry; apply N.ltb_lt; lia).
      rewrite Nat2N.id. do 5 f_equal. lia. }
    rewrite (Fw _ _ _ Hp), Hx.
    replace (N.of_nat (n - 1 - j) <? N.of_nat n) with true by (symmetry; apply N.ltb_lt; lia). cbn [andb].
    rewrite Nat2N.id. replace (n - 1 - (n - 1 - j))%nat with j by lia.
    destruct (flips (nth j m 0%Z)), (N.testbit s (N.of_nat (n - 1 - j))); reflexivity.
Qed.

(* the direct bit loop: a sum of disjoint bits *)
Lemma lxor_add_disjoint a v p : (N.testbit a p = false \/ v = 0) -> v <= 1 -> N.lxor a (N.shiftl v p) = a + v * 2 ^ p.
Proof.
  intros H Hv. rewrite <- N.shiftl_mul_pow2. symmetry. apply N.add_nocarry_lxor.
  apply N_bits_ext; intro i. rewrite N.land_spec, N.bits_0.
  assert (E : v = 0 \/ v = 1) by lia. destruct E as [->| ->].
  - rewrite N.shiftl_0_l, N.bits_0. apply andb_false_r.
  - change (N.shiftl 1 p) with (bit p). rewrite testbit_bit. destruct (N.eqb_spec i p) as [->|]; [|apply andb_false_r].
    destruct H as [H|H]; [rewrite H; reflexivity|lia].
Qed.

(* free positions of a partial digit sum hold 0 *)
Lemma psum2_free l p : NoDup (map fst l) -> ~ In p (map fst l) -> (forall q v, In (q, v) l -> v <= 1) ->
  N.testbit (psum 2 l) (N.of_nat p) = false.
Proof.
  revert p. induction l as [|[q v] l IH]; intros p ND Hp Hv; cbn [psum]; [apply N.bits_0|].
  cbn [map fst] in ND, Hp. inversion ND; subst.
  rewrite N.add_comm, <- (lxor_add_disjoint (psum 2 l) v (N.of_nat q)).
  - rewrite N.lxor_spec, IH; [|assumption|intros X; apply Hp; right; assumption|intros; eapply Hv; right; eassumption].
    rewrite xorb_false_l. assert (E : v = 0 \/ v = 1) by (specialize (Hv q v (or_introl eq_refl)); lia).
    destruct E as [->| ->]; [rewrite N.shiftl_0_l; apply N.bits_0|].
    change (N.shiftl 1 (N.of_nat q)) with (bit (N.of_nat q)). rewrite testbit_bit. apply N.eqb_neq.
    intros X. apply Hp. left. lia.
  - left. apply IH; [assumption|assumption|intros; eapply Hv; right; eassumption].
  - apply (Hv q v). left; reflexivity.
Qed.

Lemma NoDup_app_r {A} (l1 l2 : list A) : NoDup (l1 ++ l2) -> NoDup l2.
Proof. induction l1 as [|x l1 IH]; intros H; [assumption|]. cbn in H. inversion H; subst. apply IH; assumption. Qed.

Lemma NoDup_app_l {A} (l1 l2 : list A) : NoDup (l1 ++ l2) -> NoDup l1.
Proof.
  induction l1 as [|x l1 IH]; intros H; [constructor|]. cbn in H. inversion H; subst.
  constructor; [intros X; apply H2, in_or_app; left; assumption|apply IH; assumption].
Qed.

Lemma hcb_map_bits_moved n m s : signed_perm n m -> moved 2 n m s (hcb_map_bits n m s).
Proof.
  intros Hm.
  assert (G : forall cnt ss, (cnt <= n)%nat ->
     ss = psum 2 (map (entry 2 n m s) (seq cnt (n - cnt))) ->
     hcb_map_loop (Z.of_nat n) m cnt ss (s / 2 ^ N.of_nat (n - cnt)) = psum 2 (map (entry 2 n m s) (seq 0 n))).
  { induction cnt as [|i IH]; intros ss Hc Hss; [cbn [hcb_map_loop]; rewrite Hss, Nat.sub_0_r; reflexivity|].
    cbn [hcb_map_loop].
    assert (Q : N.shiftr (s / 2 ^ N.of_nat (n - S i)) 1 = s / 2 ^ N.of_nat (n - i)).
    { rewrite N.shiftr_div_pow2, N.pow_1_r. rewrite N.div_div; [|apply N.pow_nonzero; lia|lia].
      f_equal. replace (n - i)%nat with (S (n - S i)) by lia. rewrite powS. apply N.mul_comm. }
    rewrite Q. apply IH; [lia|].
    assert (D : N.land (s / 2 ^ N.of_nat (n - S i)) 1 = site_val 2 n s i).
    { change 1 with (N.ones 1) at 1. rewrite N.land_ones, N.pow_1_r. unfold site_val, digit. do 3 f_equal. lia. }
    rewrite D. set (z := nth i m 0%Z).
    replace (n - i)%nat with (S (n - S i)) by lia. cbn [seq map psum]. rewrite <- Hss.
    unfold entry at 1. fold z.
    pose proof (signed_perm_lt n m i Hm ltac:(lia)) as Ht. fold z in Ht.
    assert (Hd : site_val 2 n s i < 2) by (apply digit_lt; lia).
    assert (Hfree : N.testbit ss (N.of_nat (n - 1 - target z)) = false).
    { rewrite Hss. pose proof (entries_perm 2 n m s Hm) as Hp.
      assert (ND : NoDup (map fst (map (entry 2 n m s) (seq 0 n)))) by (eapply Permutation_NoDup; [apply Permutation_sym, Hp|apply seq_NoDup]).
      replace n with (i + S (n - S i))%nat in ND at 2 by lia. rewrite seq_app, !map_app in ND.
      apply NoDup_app_r in ND. cbn [Nat.add seq map] in ND. inversion ND; subst.
      apply psum2_free; [assumption| |].
      - assumption.
      - intros q v Hi. apply in_map_iff in Hi. destruct Hi as (j & E & _). unfold entry in E. apply (f_equal snd) in E. cbn [snd] in E. rewrite <- E. clear E.
        assert (site_val 2 n s j < 2) by (apply digit_lt; lia). destruct (flips _); lia. }
    unfold flips. unfold target in *. destruct (Z.ltb_spec z 0) as [L|L].
    - rewrite Z.add_comm, pos_neg by assumption.
      assert (E : N.lxor (site_val 2 n s i) 1 = 2 - 1 - site_val 2 n s i).
      { assert (X : site_val 2 n s i = 0 \/ site_val 2 n s i = 1) by lia. destruct X as [->| ->]; reflexivity. }
      rewrite E, lxor_add_disjoint; [ring|left; assumption|clear - Hd; lia].
    - rewrite pos_nonneg by assumption.
      rewrite lxor_add_disjoint; [ring|left; assumption|clear - Hd; lia]. }
  unfold hcb_map_bits. specialize (G n 0 (Nat.le_refl n)). rewrite Nat.sub_diag in G. cbn [N.of_nat] in G.
  rewrite N.pow_0_r, N.div_1_r in G. rewrite G by reflexivity. apply entries_moved; [lia|assumption].
Qed.

Lemma hcb_map_state_bits ld n m s : (n <= 2 ^ ld)%nat -> signed_perm n m -> s < 2 ^ N.of_nat n ->
  hcb_map_state ld n m s = Some (hcb_map_bits n m s).
Proof.
  intros Hn Hm Hs. destruct (hcb_map_state_moved ld n m s Hn Hm Hs) as (t & E & Ht). rewrite E. f_equal.
  apply (moved_unique 2 n m s); [lia|assumption|assumption|apply hcb_map_bits_moved; assumption].
Qed.
