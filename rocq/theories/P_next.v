From Verif Require Import AuxN SpecBits SpecSector M_next P_bitcount.
Local Open Scope N_scope.

(* ------------- popcount and splitting ------------- *)
Lemma particles_split a x n m : a < 2 ^ N.of_nat n ->
  particles (a + 2 ^ N.of_nat n * x) (n + m) = (particles a n + particles x m)%nat.
Proof.
  intros Ha. unfold particles. rewrite count_upto_app. f_equal.
  - apply count_upto_ext. intros i Hi. unfold occupied. rewrite testbit_split by assumption.
    destruct (N.ltb_spec (N.of_nat i) (N.of_nat n)); [reflexivity|lia].
  - apply count_upto_ext. intros i Hi. unfold occupied. rewrite testbit_split by assumption.
    destruct (N.ltb_spec (N.of_nat (n + i)) (N.of_nat n)); [lia|]. f_equal. lia.
Qed.

Lemma particles_0 n : particles 0 n = 0%nat.
Proof.
  unfold particles. induction n as [|n IH]; cbn [count_upto]; [reflexivity|].
  rewrite IH. unfold occupied. rewrite N.bits_0. reflexivity.
Qed.

Lemma particles_ones n : particles (2 ^ N.of_nat n - 1) n = n.
Proof.
  unfold particles.
  assert (H : forall m, (m <= n)%nat -> count_upto (occupied (2 ^ N.of_nat n - 1)) m = m).
  { induction m as [|m IH]; intros Hm; cbn [count_upto]; [reflexivity|]. rewrite IH by lia.
    unfold occupied. rewrite N.sub_1_r, <- N.ones_equiv, N.ones_spec_low by lia. reflexivity. }
  apply H; lia.
Qed.

Lemma particles_extend s n m : s < 2 ^ N.of_nat n -> particles s (n + m) = particles s n.
Proof.
  intros H. replace s with (s + 2 ^ N.of_nat n * 0) at 1 by lia. rewrite particles_split by assumption.
  rewrite particles_0. lia.
Qed.

Lemma particles_1 n : (1 <= n)%nat -> particles 1 n = 1%nat.
Proof. intros H. replace n with (1 + (n - 1))%nat by lia. rewrite particles_extend; [reflexivity|cbn; lia]. Qed.

Lemma pow2_nat_S n : 2 ^ N.of_nat (S n) = 2 * 2 ^ N.of_nat n.
Proof. rewrite Nat2N.inj_succ, N.pow_succ_r'. reflexivity. Qed.

(* top bit decomposition *)
Lemma top_bit s n : s < 2 ^ N.of_nat (S n) ->
  (s < 2 ^ N.of_nat n /\ particles s (S n) = particles s n) \/
  (exists s', s' < 2 ^ N.of_nat n /\ s = s' + 2 ^ N.of_nat n /\ particles s (S n) = S (particles s' n)).
Proof.
  intros H. rewrite pow2_nat_S in H.
  destruct (N.lt_ge_cases s (2 ^ N.of_nat n)) as [L|L].
  - left. split; [assumption|]. replace (S n) with (n + 1)%nat by lia. apply particles_extend; assumption.
  - right. exists (s - 2 ^ N.of_nat n). split; [lia|]. split; [lia|].
    replace s with ((s - 2 ^ N.of_nat n) + 2 ^ N.of_nat n * 1) at 1 by lia.
    replace (S n) with (n + 1)%nat by lia. rewrite particles_split by lia. rewrite particles_1 by lia. lia.
Qed.

Lemma particles_lower n : forall s, s < 2 ^ N.of_nat n -> 2 ^ N.of_nat (particles s n) <= s + 1.
Proof.
  induction n as [|n IH]; intros s H.
  - cbn in H. assert (s = 0) by lia. subst. cbn. lia.
  - destruct (top_bit s n H) as [[Hs E]|(s' & Hs & E1 & E)]; rewrite E.
    + apply IH; assumption.
    + specialize (IH s' Hs). rewrite pow2_nat_S.
      pose proof (particles_le s' n).
      assert (2 ^ N.of_nat (particles s' n) <= 2 ^ N.of_nat n) by (apply N.pow_le_mono_r; lia). lia.
Qed.

Lemma particles_upper n : forall s, s < 2 ^ N.of_nat n ->
  s + 2 ^ N.of_nat (n - particles s n) <= 2 ^ N.of_nat n.
Proof.
  induction n as [|n IH]; intros s H.
  - cbn in *. assert (s = 0) by lia. subst. cbn. lia.
  - destruct (top_bit s n H) as [[Hs E]|(s' & Hs & E1 & E)]; rewrite E.
    + pose proof (particles_le s n). replace (S n - particles s n)%nat with (S (n - particles s n))%nat by lia.
      specialize (IH s Hs). rewrite !pow2_nat_S.
      assert (2 ^ N.of_nat (n - particles s n) <= 2 ^ N.of_nat n) by (apply N.pow_le_mono_r; lia). lia.
    + specialize (IH s' Hs). cbn [Nat.sub]. rewrite pow2_nat_S. lia.
Qed.

(* ------------- shape of a non-zero state: 2^a(2^b-1) + 2^(a+b+1) h ------------- *)
Lemma shape s : s <> 0 -> exists a b h : N, s = 2 ^ a * (2 ^ (b + 1) - 1) + 2 ^ (a + b + 2) * h.
Proof.
  induction s as [s IH] using (well_founded_induction N.lt_wf_0). intros Hs.
  destruct (N.even s) eqn:Ev.
  - apply N.even_spec in Ev. destruct Ev as [s' E].
    destruct (IH s') as (a & b & h & E'); [lia|lia|].
    exists (a + 1), b, h. rewrite E, E'.
    replace (a + 1 + b + 2) with (a + b + 2 + 1) by lia. rewrite !(N.pow_add_r 2 _ 1), !N.pow_1_r.
    lia.
  - assert (Od : N.odd s = true) by (rewrite <- N.negb_even, Ev; reflexivity).
    apply N.odd_spec in Od. destruct Od as [s' E].
    destruct (N.eq_dec s' 0) as [Z|NZ].
    { exists 0, 0, 0. rewrite E, Z. reflexivity. }
    destruct (N.even s') eqn:Ev'.
    + apply N.even_spec in Ev'. destruct Ev' as [h E']. exists 0, 0, h. rewrite E, E'.
      change (2 ^ 0 * (2 ^ (0 + 1) - 1)) with 1. change (2 ^ (0 + 0 + 2)) with 4. lia.
    + destruct (IH s') as (a & b & h & E'); [lia|assumption|].
      assert (a = 0).
      { destruct (N.eq_dec a 0) as [Z|NZa]; [assumption|exfalso].
        assert (N.even s' = true); [|congruence].
        apply N.even_spec. replace a with (1 + (a - 1)) in E' by lia.
        replace (1 + (a - 1) + b + 2) with (1 + (a - 1 + b + 2)) in E' by lia.
        rewrite !(N.pow_add_r 2 1), N.pow_1_r in E'.
        exists (2 ^ (a - 1) * (2 ^ (b + 1) - 1) + 2 ^ (a - 1 + b + 2) * h). rewrite E'. ring. }
      subst a. exists 0, (b + 1), h. rewrite E, E'.
      rewrite N.pow_0_r, !N.mul_1_l. rewrite !N.add_0_l.
      replace (b + 1 + 2) with (b + 2 + 1) by lia.
      rewrite (N.pow_add_r 2 (b + 1) 1), (N.pow_add_r 2 (b + 2) 1), !N.pow_1_r.
      pose proof (pow2_pos (b + 1)). lia.
Qed.

(* lowest set bit *)
Lemma low_bit w a x : 2 ^ a * (1 + 2 * x) < 2 ^ w ->
  N.land (2 ^ a * (1 + 2 * x)) (neg_w w (2 ^ a * (1 + 2 * x))) = 2 ^ a.
Proof.
  intros H. pose proof (pow2_pos a) as Hp. pose proof (pow2_pos w) as Hw.
  set (s := 2 ^ a * (1 + 2 * x)) in *.
  assert (Hs : s <> 0) by (unfold s; nia).
  unfold neg_w. rewrite (N.mod_small s) by assumption. rewrite N.mod_small by lia.
  assert (E : 2 ^ w - s = N.ldiff (N.ones w) (s - 1)).
  { rewrite <- N.sub_nocarry_ldiff.
    - rewrite N.ones_equiv. lia.
    - apply N_bits_ext; intro i. rewrite N.ldiff_spec, N.bits_0.
      destruct (N.lt_ge_cases i w) as [L|L].
      + rewrite N.ones_spec_low by assumption. apply andb_false_r.
      + rewrite (testbit_small (s - 1) w i) by lia. reflexivity. }
  rewrite E.
  assert (Es : s = 0 + 2 ^ a * (1 + 2 * x)) by reflexivity.
  assert (Es1 : s - 1 = (2 ^ a - 1) + 2 ^ a * (2 * x)) by (unfold s; nia).
  assert (Ep : 2 ^ a = 0 + 2 ^ a * 1) by lia.
  apply N_bits_ext; intro i. rewrite N.land_spec, N.ldiff_spec, Es1.
  rewrite Es at 1. rewrite Ep at 4. rewrite !testbit_split by lia.
  destruct (N.ltb_spec i a) as [L|L]; [rewrite N.bits_0; reflexivity|].
  destruct (N.eq_dec i a) as [->|Ne].
  - rewrite N.sub_diag. rewrite !N.bit0_odd.
    replace (1 + 2 * x) with (2 * x + 1) by lia.
    rewrite N.odd_add, !N.odd_mul. change (N.odd 2) with false. change (N.odd 1) with true.
    cbn [andb xorb negb]. rewrite N.ones_spec_low; [reflexivity|].
    apply (N.pow_lt_mono_r_iff 2); [lia|]. unfold s in H. nia.
  - replace (i - a) with (N.succ (i - a - 1)) by lia.
    replace (1 + 2 * x) with (2 * x + 1) by lia.
    rewrite N.testbit_odd_succ, N.testbit_even_succ by lia.
    rewrite (testbit_small 1 1 (N.succ (i - a - 1))) by (reflexivity || lia).
    destruct (N.testbit x (i - a - 1)); rewrite ?andb_false_r; reflexivity.
Qed.

Lemma lor_disjoint_add a x n : a < 2 ^ n -> N.lor (2 ^ n * x) a = a + 2 ^ n * x.
Proof.
  intros H. apply N_bits_ext; intro i. rewrite N.lor_spec.
  replace (2 ^ n * x) with (0 + 2 ^ n * x) at 1 by lia.
  pose proof (pow2_pos n). rewrite !testbit_split by lia.
  destruct (N.ltb_spec i n) as [L|L]; [rewrite N.bits_0; reflexivity|].
  rewrite (testbit_small a n i) by assumption. apply orb_false_r.
Qed.

(* arithmetic used by the closed form, with powers abstracted *)
Lemma pos_succ x : 0 < x -> exists y, x = y + 1.
Proof. intros H. exists (x - 1). lia. Qed.
Ltac desub A y H := destruct (pos_succ A H) as [y ->]; clear H.

Lemma nc_es A B h : 0 < A -> 0 < B -> A * (2 * B - 1) + 4 * (A * B) * h = A * (1 + 2 * ((B - 1) + B * 2 * h)).
Proof.
  intros HA HB. desub B y HB. replace (2 * (y + 1) - 1) with (2 * y + 1) by lia.
  replace (y + 1 - 1) with y by lia. ring.
Qed.
Lemma nc_pos A x : 0 < A -> A * (1 + x) <> 0.
Proof. intros H. apply N.neq_mul_0. lia. Qed.
Lemma nc_lt A B h W : 0 < A -> 0 < B -> 2 * (A * B) + 4 * (A * B) * h + B <= W -> A * (2 * B - 1) + 4 * (A * B) * h < W.
Proof.
  intros HA HB H. assert (A * (2 * B - 1) <= A * (2 * B)) by (apply N.mul_le_mono_l; lia).
  replace (A * (2 * B)) with (2 * (A * B)) in H0 by ring. lia.
Qed.
Lemma nc_pred A x : 0 < A -> A * (1 + x) - 1 = (A - 1) + A * x.
Proof. intros HA. desub A y HA. rewrite N.mul_add_distr_l. lia. Qed.
Lemma nc_lor A B h : 0 < A -> 0 < B ->
  (A - 1) + A * (1 + 2 * ((B - 1) + B * 2 * h)) + 1 = 2 * (A * B) + 4 * (A * B) * h.
Proof.
  intros HA HB. desub A x HA. desub B y HB. replace (x + 1 - 1) with x by lia. replace (y + 1 - 1) with y by lia. ring.
Qed.
Lemma nc_bb A B : 0 < A -> 0 < B -> B - 1 < 2 * (A * B).
Proof. intros HA HB. assert (1 * B <= A * B) by (apply N.mul_le_mono_r; lia). lia. Qed.

(* closed form of one step *)
Lemma next_closed w a b h : 2 ^ (a + b + 1) + 2 ^ (a + b + 2) * h + 2 ^ b <= 2 ^ w ->
  next_state_pcon w (2 ^ a * (2 ^ (b + 1) - 1) + 2 ^ (a + b + 2) * h)
  = 2 ^ (a + b + 1) + 2 ^ (a + b + 2) * h + (2 ^ b - 1).
Proof.
  intros Hw.
  pose proof (pow2_pos a) as Pa. pose proof (pow2_pos b) as Pb.
  assert (E2 : 2 ^ (a + b + 2) = 4 * (2 ^ a * 2 ^ b)) by (rewrite !N.pow_add_r; change (2 ^ 2) with 4; ring).
  assert (E1 : 2 ^ (a + b + 1) = 2 * (2 ^ a * 2 ^ b)) by (rewrite !N.pow_add_r; change (2 ^ 1) with 2; ring).
  assert (Eb : 2 ^ (b + 1) = 2 * 2 ^ b) by (rewrite N.pow_add_r; change (2 ^ 1) with 2; ring).
  set (s := 2 ^ a * (2 ^ (b + 1) - 1) + 2 ^ (a + b + 2) * h).
  assert (Es : s = 2 ^ a * (1 + 2 * ((2 ^ b - 1) + 2 ^ b * 2 * h))).
  { unfold s. rewrite E2, Eb. apply nc_es; assumption. }
  assert (Hs0 : s <> 0) by (rewrite Es; apply nc_pos; assumption).
  assert (Hsw : s < 2 ^ w).
  { unfold s. rewrite Eb, E2. apply nc_lt; [assumption|assumption|]. rewrite E1, E2 in Hw. exact Hw. }
  unfold next_state_pcon. rewrite (proj2 (N.eqb_neq _ _) Hs0).
  assert (Hs1 : s - 1 = (2 ^ a - 1) + 2 ^ a * (2 * ((2 ^ b - 1) + 2 ^ b * 2 * h))) by (rewrite Es; apply nc_pred; assumption).
  assert (Elor : N.lor s (s - 1) + 1 = 2 ^ (a + b + 1) + 2 ^ (a + b + 2) * h).
  { assert (X : N.lor s (s - 1) = (2 ^ a - 1) + 2 ^ a * (1 + 2 * ((2 ^ b - 1) + 2 ^ b * 2 * h))).
    { apply N_bits_ext; intro i. rewrite N.lor_spec, Hs1. rewrite Es.
      replace (2 ^ a * (1 + 2 * (2 ^ b - 1 + 2 ^ b * 2 * h))) with (0 + 2 ^ a * (1 + 2 * (2 ^ b - 1 + 2 ^ b * 2 * h))) at 1 by lia.
      rewrite !testbit_split by lia.
      destruct (N.ltb_spec i a) as [L|L]; [rewrite N.bits_0; reflexivity|].
      destruct (N.eq_dec i a) as [->|Ne].
      - rewrite N.sub_diag, !N.bit0_odd, N.odd_add, !N.odd_mul. reflexivity.
      - replace (i - a) with (N.succ (i - a - 1)) by lia.
        replace (1 + 2 * (2 ^ b - 1 + 2 ^ b * 2 * h)) with (2 * (2 ^ b - 1 + 2 ^ b * 2 * h) + 1) by lia.
        rewrite N.testbit_odd_succ, N.testbit_even_succ by lia. apply orb_diag. }
    rewrite X, E1, E2. apply nc_lor; assumption. }
  rewrite Elor.
  set (t := 2 ^ (a + b + 1) + 2 ^ (a + b + 2) * h).
  assert (Et : t = 2 ^ (a + b + 1) * (1 + 2 * h)) by (unfold t; rewrite E1, E2; ring).
  assert (Htw : t < 2 ^ w) by (unfold t in *; lia).
  rewrite (N.mod_small t) by assumption.
  assert (L1 : N.land t (neg_w w t) = 2 ^ (a + b + 1)).
  { rewrite Et. apply low_bit. rewrite <- Et. assumption. }
  assert (L2 : N.land s (neg_w w s) = 2 ^ a).
  { rewrite Es. apply low_bit. rewrite <- Es. assumption. }
  rewrite L1, L2.
  replace (2 ^ (a + b + 1)) with (2 ^ (b + 1) * 2 ^ a) by (rewrite <- N.pow_add_r; f_equal; lia).
  rewrite N.div_mul by lia.
  rewrite N.shiftr_div_pow2, N.pow_1_r. rewrite Eb. rewrite (N.mul_comm 2), N.div_mul by lia.
  assert (Ed : dec_w w (2 ^ b) = 2 ^ b - 1).
  { unfold dec_w. replace (2 ^ b + 2 ^ w - 1) with (2 ^ b - 1 + 1 * 2 ^ w) by (pose proof (pow2_pos w); lia).
    rewrite N.mod_add by (apply N.pow_nonzero; lia). apply N.mod_small. lia. }
  rewrite Ed, Et. rewrite lor_disjoint_add.
  - rewrite <- Et. lia.
  - rewrite E1. apply nc_bb; assumption.
Qed.

Lemma nn_lo A B : 0 < A -> 0 < B -> A * (2 * B - 1) < 4 * (A * B).
Proof.
  intros HA HB. desub B y HB. replace (2 * (y + 1) - 1) with (2 * y + 1) by lia.
  rewrite !N.mul_add_distr_l, !N.mul_assoc, !(N.mul_comm _ 2), <- !N.mul_assoc. lia.
Qed.
Lemma nn_nx A B : 0 < A -> 0 < B -> 2 * (A * B) + (B - 1) < 4 * (A * B).
Proof. intros HA HB. assert (1 * B <= A * B) by (apply N.mul_le_mono_r; lia). lia. Qed.
Lemma nn_step A B : 0 < A -> 0 < B -> A * (2 * B - 1) < 2 * (A * B) + (B - 1).
Proof.
  intros HA HB. desub B y HB. replace (2 * (y + 1) - 1) with (2 * y + 1) by lia.
  rewrite !N.mul_add_distr_l, !N.mul_assoc, !(N.mul_comm _ 2), <- !N.mul_assoc. lia.
Qed.
Lemma nn_ge Q lo ul h uh : lo < Q -> ul < Q -> lo + Q * h < ul + Q * uh -> h <= uh.
Proof.
  intros H1 H2 H3. destruct (N.le_gt_cases h uh) as [Hc|Hc]; [assumption|exfalso].
  assert (Q * (uh + 1) <= Q * h) by (apply N.mul_le_mono_l; lia). lia.
Qed.
Lemma nn_far Q nx ul h uh : nx < Q -> h < uh -> nx + Q * h <= ul + Q * uh.
Proof. intros H1 H2. assert (Q * (h + 1) <= Q * uh) by (apply N.mul_le_mono_l; lia). lia. Qed.

Lemma next_is_next w n k s : N.of_nat n <= w -> in_sector n k s ->
  (exists u, in_sector n k u /\ s < u) -> is_next (in_sector n k) s (next_state_pcon w s).
Proof.
  intros Hnw [Hs Hk] (u0 & [Hu0 Hku0] & Hsu0).
  assert (Hs0 : s <> 0).
  { intros ->. rewrite particles_0 in Hk. subst k.
    pose proof (particles_lower n u0 Hu0) as _.
    assert (H1 : forall m, u0 < 2 ^ N.of_nat m -> particles u0 m <> 0%nat \/ u0 = 0).
    { clear -Hsu0. induction m as [|m IH]; intros Hm; [cbn in Hm; right; lia|].
      destruct (top_bit u0 m Hm) as [[Hs E]|(s' & Hs & E1 & E)]; rewrite E; [apply IH; assumption|left; lia]. }
    destruct (H1 n Hu0); lia. }
  destruct (shape s Hs0) as (a & b & h & E).
  pose proof (pow2_pos a) as Pa. pose proof (pow2_pos b) as Pb.
  assert (E2 : 2 ^ (a + b + 2) = 4 * (2 ^ a * 2 ^ b)) by (rewrite !N.pow_add_r; change (2 ^ 2) with 4; ring).
  assert (E1 : 2 ^ (a + b + 1) = 2 * (2 ^ a * 2 ^ b)) by (rewrite !N.pow_add_r; change (2 ^ 1) with 2; ring).
  assert (Eb : 2 ^ (b + 1) = 2 * 2 ^ b) by (rewrite N.pow_add_r; change (2 ^ 1) with 2; ring).
  (* the number of sites reaches bit a+b+1: otherwise s would be the last state *)
  set (na := N.to_nat a). set (nb := N.to_nat b).
  set (q := (na + nb + 2)%nat).
  assert (Eq : 2 ^ N.of_nat q = 2 ^ (a + b + 2)) by (f_equal; unfold q, na, nb; lia).
  set (lo := 2 ^ a * (2 ^ (b + 1) - 1)) in *.
  assert (Hlo : lo < 2 ^ N.of_nat q) by (rewrite Eq, E2; unfold lo; rewrite Eb; apply nn_lo; assumption).
  assert (Plo : forall m, particles lo (q + m) = (nb + 1)%nat).
  { intros m. rewrite particles_extend by assumption.
    unfold lo. replace (2 ^ a * (2 ^ (b + 1) - 1)) with (0 + 2 ^ N.of_nat na * (2 ^ N.of_nat (nb + 1) - 1)).
    2:{ unfold na. rewrite N2Nat.id. replace (N.of_nat (nb + 1)) with (b + 1) by (unfold nb; lia). lia. }
    replace q with (na + (nb + 2))%nat by (unfold q; lia).
    rewrite particles_split by apply pow2_pos. rewrite particles_0.
    replace (nb + 2)%nat with ((nb + 1) + 1)%nat by lia.
    rewrite particles_extend; [rewrite particles_ones; lia|]. pose proof (pow2_pos (N.of_nat (nb + 1))). lia. }
  set (nx := 2 ^ (a + b + 1) + (2 ^ b - 1)).
  assert (Hnx : nx < 2 ^ N.of_nat q) by (rewrite Eq, E2; unfold nx; rewrite E1; apply nn_nx; assumption).
  assert (Pnx : particles nx q = (nb + 1)%nat).
  { unfold nx. replace (2 ^ (a + b + 1) + (2 ^ b - 1)) with ((2 ^ b - 1) + 2 ^ N.of_nat (na + nb + 1) * 1).
    2:{ replace (N.of_nat (na + nb + 1)) with (a + b + 1) by (unfold na, nb; lia). lia. }
    replace q with ((na + nb + 1) + 1)%nat by (unfold q; lia).
    rewrite particles_split.
    2:{ replace (N.of_nat (na + nb + 1)) with (a + b + 1) by (unfold na, nb; lia). rewrite E1; apply nc_bb; assumption. }
    rewrite (particles_1 1) by lia.
    replace (na + nb + 1)%nat with (nb + (na + 1))%nat by lia. rewrite particles_extend.
    2:{ replace (N.of_nat nb) with b by (unfold nb; lia). lia. }
    replace (2 ^ b - 1) with (2 ^ N.of_nat nb - 1) by (unfold nb; rewrite N2Nat.id; reflexivity).
    rewrite particles_ones. lia. }
  (* every candidate above s is at least nx + 2^q h *)
  assert (Min : forall u, in_sector n k u -> s < u -> nx + 2 ^ N.of_nat q * h <= u).
  { intros u [Hu Hku] Hsu.
    set (m := (n + q)%nat).
    assert (Hu' : u = u mod 2 ^ N.of_nat q + 2 ^ N.of_nat q * (u / 2 ^ N.of_nat q)).
    { pose proof (N.div_mod u (2 ^ N.of_nat q)). pose proof (pow2_pos (N.of_nat q)). lia. }
    set (ul := u mod 2 ^ N.of_nat q) in *. set (uh := u / 2 ^ N.of_nat q) in *.
    assert (Hul : ul < 2 ^ N.of_nat q) by (apply N.mod_lt, N.pow_nonzero; lia).
    assert (Ecmp : s = lo + 2 ^ N.of_nat q * h) by (rewrite Eq; exact E).
    assert (Hge : h <= uh).
    { apply (nn_ge (2 ^ N.of_nat q) lo ul); try assumption. rewrite <- Ecmp, <- Hu'. assumption. }
    destruct (N.eq_dec uh h) as [Eh|Nh].
    2:{ rewrite Hu'. apply nn_far; [assumption|]. clear -Hge Nh. clearbody uh. lia. }
    rewrite Eh in Hu'.
    assert (Hpul : particles ul q = (nb + 1)%nat).
    { assert (Pu : particles u (q + n) = k) by (rewrite Nat.add_comm, particles_extend; assumption).
      assert (Ps : particles s (q + n) = k) by (rewrite Nat.add_comm, particles_extend; assumption).
      rewrite Hu', particles_split in Pu by assumption.
      rewrite Ecmp, particles_split in Ps by assumption.
      specialize (Plo 0%nat). rewrite Nat.add_0_r in Plo. clear -Pu Ps Plo. lia. }
    assert (Hulo : lo < ul).
    { rewrite Ecmp, Hu' in Hsu. clear -Hsu. clearbody lo ul. lia. }
    assert (Htop : 2 ^ (a + b + 1) <= ul).
    { destruct (N.le_gt_cases (2 ^ (a + b + 1)) ul) as [Hc|Hc]; [assumption|exfalso].
      assert (Hc' : ul < 2 ^ N.of_nat (na + nb + 1)).
      { replace (N.of_nat (na + nb + 1)) with (a + b + 1) by (unfold na, nb; lia). assumption. }
      pose proof (particles_upper _ _ Hc') as Hup.
      assert (Hp1 : particles ul (na + nb + 1) = (nb + 1)%nat).
      { replace q with ((na + nb + 1) + 1)%nat in Hpul by (unfold q; lia).
        rewrite particles_extend in Hpul by assumption. assumption. }
      rewrite Hp1 in Hup. replace (na + nb + 1 - (nb + 1))%nat with na in Hup by (clear; lia).
      replace (N.of_nat (na + nb + 1)) with (a + b + 1) in Hup by (unfold na, nb; lia).
      replace (N.of_nat na) with a in Hup by (unfold na; lia).
      rewrite E1 in Hup. unfold lo in Hulo. rewrite Eb in Hulo. clear -Hup Hulo Pa Pb. revert Hup Hulo Pa Pb. generalize (2 ^ a), (2 ^ b). clear. intros; nia. }
    set (v := ul - 2 ^ (a + b + 1)).
    assert (Hv : v < 2 ^ N.of_nat (na + nb + 1)).
    { replace (N.of_nat (na + nb + 1)) with (a + b + 1) by (unfold na, nb; lia).
      unfold v. rewrite Eq, E2 in Hul. rewrite E1. clear -Hul. lia. }
    assert (Pv : particles v (na + nb + 1) = nb).
    { assert (Ev : ul = v + 2 ^ N.of_nat (na + nb + 1) * 1).
      { replace (N.of_nat (na + nb + 1)) with (a + b + 1) by (unfold na, nb; lia). unfold v. clear -Htop. clearbody ul. lia. }
      rewrite Ev in Hpul. replace q with ((na + nb + 1) + 1)%nat in Hpul by (unfold q; lia).
      rewrite particles_split in Hpul by assumption. rewrite (particles_1 1) in Hpul by (clear; lia). clear -Hpul. lia. }
    pose proof (particles_lower _ _ Hv) as Hlow. rewrite Pv in Hlow.
    replace (N.of_nat nb) with b in Hlow by (unfold nb; lia).
    rewrite Hu'. unfold nx, v in *. clear -Hlow Htop. clearbody ul. lia. }
  assert (Hnext : next_state_pcon w s = nx + 2 ^ N.of_nat q * h).
  { rewrite E, Eq. unfold lo. rewrite next_closed; [unfold nx; clear; lia|].
    pose proof (Min u0 (conj Hu0 Hku0) Hsu0) as Hm. rewrite Eq in Hm. unfold nx in Hm.
    assert (u0 + 1 <= 2 ^ w).
    { assert (2 ^ N.of_nat n <= 2 ^ w) by (apply N.pow_le_mono_r; [discriminate|assumption]). clear -H Hu0. lia. }
    clear -H Hm. lia. }
  rewrite Hnext. split; [|split].
  - split.
    + eapply N.le_lt_trans; [apply (Min u0); [split; assumption|assumption]|assumption].
    + assert (P1 : particles (nx + 2 ^ N.of_nat q * h) (q + n) = k).
      { assert (Ps : particles s (q + n) = k) by (rewrite Nat.add_comm, particles_extend; assumption).
        rewrite E, <- Eq, particles_split in Ps by assumption.
        rewrite particles_split by assumption. rewrite Pnx.
        specialize (Plo 0%nat). rewrite Nat.add_0_r in Plo. clear -Ps Plo. lia. }
      rewrite Nat.add_comm, particles_extend in P1; [assumption|].
      eapply N.le_lt_trans; [apply (Min u0); [split; assumption|assumption]|assumption].
  - rewrite E, Eq. unfold nx, lo. rewrite Eb, E1. apply N.add_lt_mono_r. apply nn_step; assumption.
  - exact Min.
Qed.

(* ------------- enumeration ------------- *)
Lemma visited_lists (P : N -> Prop) (next : N -> N) :
  (forall s, P s -> (exists u, P u /\ s < u) -> is_next P s (next s)) ->
  forall l, StronglySorted N.lt l -> (forall x, In x l -> P x) ->
  (forall x y, In x l -> P y -> x < y -> In y l) ->
  forall s, hd_error l = Some s -> visited next (length l) s = l.
Proof.
  intros Hnext. induction l as [|x l IH]; intros Hs HP Hup s Hhd; [discriminate|].
  cbn in Hhd. injection Hhd as <-. cbn [length visited]. f_equal.
  inversion Hs as [|? ? Hs' Hall E1]; subst.
  destruct l as [|y l']; [reflexivity|].
  assert (Hxy : x < y) by (rewrite Forall_forall in Hall; apply Hall; left; reflexivity).
  assert (Ey : next x = y).
  { destruct (Hnext x) as (Hp & Hlt & Hmin).
    - apply HP; left; reflexivity.
    - exists y. split; [apply HP; right; left; reflexivity|assumption].
    - assert (Hin : In (next x) (x :: y :: l')) by (apply (Hup x); [left; reflexivity|assumption|assumption]).
      assert (next x <= y) by (apply Hmin; [apply HP; right; left; reflexivity|assumption]).
      destruct Hin as [Hin|[Hin|Hin]]; [lia|congruence|].
      inversion Hs' as [|? ? ? Hall2 E1]; subst. rewrite Forall_forall in Hall2. specialize (Hall2 _ Hin). lia. }
  rewrite Ey. apply IH; try assumption.
  - intros z Hz; apply HP; right; assumption.
  - intros z v Hz Hv Hlt. assert (Hin : In v (x :: y :: l')) by (apply (Hup z); [right|..]; assumption).
    destruct Hin as [Hin|Hin]; [|assumption]. subst v.
    rewrite Forall_forall in Hall. specialize (Hall z Hz). lia.
  - reflexivity.
Qed.

Lemma hd_least (l : list N) s0 : StronglySorted N.lt l -> In s0 l -> (forall x, In x l -> s0 <= x) -> hd_error l = Some s0.
Proof.
  intros Hs Hin Hmin. destruct l as [|x l]; [destruct Hin|]. cbn. f_equal.
  destruct Hin as [Hin|Hin]; [assumption|].
  inversion Hs as [|? ? ? Hall E1]; subst. rewrite Forall_forall in Hall. specialize (Hall _ Hin).
  specialize (Hmin x (or_introl eq_refl)). lia.
Qed.

(* the sector as an explicit list *)
Fixpoint sector_list (n k : nat) : list N :=
  match n with
  | O => match k with O => [0] | S _ => [] end
  | S n' => sector_list n' k ++ match k with O => [] | S k' => map (fun s => s + 2 ^ N.of_nat n') (sector_list n' k') end
  end.

Lemma StronglySorted_app {A} (R : A -> A -> Prop) (l1 l2 : list A) :
  StronglySorted R l1 -> StronglySorted R l2 -> (forall x y, In x l1 -> In y l2 -> R x y) ->
  StronglySorted R (l1 ++ l2).
Proof.
  induction 1 as [|x l1 Hs IH Hall]; intros H2 H12; [exact H2|].
  cbn. constructor.
  - apply IH; [assumption|]. intros a b Ha Hb; apply H12; [right|]; assumption.
  - apply Forall_app. split; [assumption|]. apply Forall_forall. intros y Hy. apply H12; [left; reflexivity|assumption].
Qed.

Lemma StronglySorted_map {A B} (R : A -> A -> Prop) (R' : B -> B -> Prop) (f : A -> B) l :
  (forall x y, R x y -> R' (f x) (f y)) -> StronglySorted R l -> StronglySorted R' (map f l).
Proof.
  intros Hf. induction 1 as [|x l Hs IH Hall]; cbn; constructor; [assumption|].
  apply Forall_map. eapply Forall_impl; [|exact Hall]. intros y Hy; apply Hf; assumption.
Qed.

Lemma sector_list_ok n : forall k, lists_increasing (in_sector n k) (sector_list n k) /\ length (sector_list n k) = binom n k.
Proof.
  induction n as [|n IH]; intros k.
  - destruct k as [|k]; cbn.
    + split; [|reflexivity]. split; [repeat constructor|]. intros s. unfold in_sector; cbn. split.
      * intros [<-|[]]. split; [lia|reflexivity].
      * intros [H _]. left. lia.
    + split; [|reflexivity]. split; [constructor|]. intros s. unfold in_sector; cbn. split; [intros []|intros [_ H]; discriminate].
  - assert (Key : forall s, in_sector (S n) k s <->
        in_sector n k s \/ exists k' s', k = S k' /\ in_sector n k' s' /\ s = s' + 2 ^ N.of_nat n).
    { intros s. split.
      - intros [Hs Hk]. destruct (top_bit s n Hs) as [[Hs1 E]|(s' & Hs1 & E1 & E)].
        + left. split; [assumption|lia].
        + right. exists (particles s' n), s'. repeat split; [lia|assumption|assumption].
      - intros [[Hs Hk]|(k' & s' & -> & [Hs Hk] & ->)].
        + split; [rewrite pow2_nat_S; lia|]. replace (S n) with (n + 1)%nat by lia. rewrite particles_extend; assumption.
        + split; [rewrite pow2_nat_S; lia|].
          replace (s' + 2 ^ N.of_nat n) with (s' + 2 ^ N.of_nat n * 1) by lia.
          replace (S n) with (n + 1)%nat by lia. rewrite particles_split by assumption. rewrite particles_1 by lia. lia. }
    destruct (IH k) as [[Hs1 Hin1] Hl1].
    destruct k as [|k]; cbn [sector_list].
    + rewrite app_nil_r. split.
      * split; [assumption|]. intros s. rewrite Hin1, Key. split; [auto|]. intros [H|(k' & _ & Hk & _)]; [assumption|discriminate].
      * rewrite Hl1. destruct n; reflexivity.
    + destruct (IH k) as [[Hs2 Hin2] Hl2]. split.
      * split.
        -- apply StronglySorted_app; [assumption| |].
           ++ eapply StronglySorted_map; [|exact Hs2]. intros x y Hxy; cbn. lia.
           ++ intros x y Hx Hy. apply Hin1 in Hx. apply in_map_iff in Hy. destruct Hy as (z & <- & Hz). destruct Hx. lia.
        -- intros s. rewrite in_app_iff, Hin1, Key, in_map_iff. split.
           ++ intros [H|(x & <- & Hx)]; [auto|]. right. exists k, x. repeat split; apply Hin2 in Hx; destruct Hx; assumption.
           ++ intros [H|(k' & s' & Hk & Hs' & ->)]; [auto|]. right. injection Hk as <-. exists s'. split; [reflexivity|apply Hin2; assumption].
      * rewrite app_length, map_length, Hl1, Hl2. cbn [binom]. lia.
Qed.

Lemma s0_pcon_val k : s0_pcon k = 2 ^ N.of_nat k - 1.
Proof.
  unfold s0_pcon. induction k as [|k IH]; [reflexivity|].
  rewrite seq_S, fold_left_app. cbn [fold_left]. rewrite IH. rewrite N.shiftl_1_l, Nat.add_0_l, pow2_nat_S.
  pose proof (pow2_pos (N.of_nat k)). lia.
Qed.

Lemma pcon_enumeration w n k : N.of_nat n <= w -> (k <= n)%nat ->
  lists_increasing (in_sector n k) (visited (next_state_pcon w) (binom n k) (s0_pcon k)).
Proof.
  intros Hw Hk. destruct (sector_list_ok n k) as [[Hs Hin] Hl].
  rewrite <- Hl. rewrite (visited_lists (in_sector n k)); [split; assumption| | | | |].
  - intros s Hss Hex. apply next_is_next; assumption.
  - assumption.
  - intros x Hx. apply Hin; assumption.
  - intros x y _ Hy _. apply Hin; assumption.
  - apply hd_least; [assumption| |].
    + apply Hin. rewrite s0_pcon_val. split.
      * assert (2 ^ N.of_nat k <= 2 ^ N.of_nat n) by (apply N.pow_le_mono_r; lia). pose proof (pow2_pos (N.of_nat k)). lia.
      * replace n with (k + (n - k))%nat by lia. rewrite particles_extend by (pose proof (pow2_pos (N.of_nat k)); lia).
        apply particles_ones.
    + intros x Hx. apply Hin in Hx. destruct Hx as [Hx Hkx]. rewrite s0_pcon_val.
      pose proof (particles_lower _ _ Hx) as Hlow. rewrite Hkx in Hlow. lia.
Qed.
