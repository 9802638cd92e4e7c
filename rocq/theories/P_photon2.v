(* Proofs: the projector of the conserving photon basis, its dimension, coherent states. *)
From Verif Require Import AuxN SpecC SpecSector SpecTensor SpecPhoton M_ops M_opstr M_symop M_tensor M_photon P_hdim P_tensor P_tensor2 P_photon.
Local Open Scope nat_scope.

Lemma fold_min xs : forall x, (forall y, In y (x :: xs) -> (fold_left Z.min xs x <= y)%Z) /\ In (fold_left Z.min xs x) (x :: xs).
Proof.
  induction xs as [|z xs IH]; intros x; cbn [fold_left].
  - split; [intros y [<-|[]]; lia|left; reflexivity].
  - destruct (IH (Z.min x z)) as [H1 H2]. split.
    + intros y [<-|[<-|Hy]]; [specialize (H1 (Z.min x z) (or_introl eq_refl)); lia|specialize (H1 (Z.min x z) (or_introl eq_refl)); lia|apply H1; right; exact Hy].
    + destruct H2 as [<-|H2]; [|right; right; exact H2]. destruct (Z.min_spec x z) as [[_ ->]|[_ ->]]; [left|right; left]; reflexivity.
Qed.
Lemma fold_max xs : forall x, (forall y, In y (x :: xs) -> (y <= fold_left Z.max xs x)%Z) /\ In (fold_left Z.max xs x) (x :: xs).
Proof.
  induction xs as [|z xs IH]; intros x; cbn [fold_left].
  - split; [intros y [<-|[]]; lia|left; reflexivity].
  - destruct (IH (Z.max x z)) as [H1 H2]. split.
    + intros y [<-|[<-|Hy]]; [specialize (H1 (Z.max x z) (or_introl eq_refl)); lia|specialize (H1 (Z.max x z) (or_introl eq_refl)); lia|apply H1; right; exact Hy].
    + destruct H2 as [<-|H2]; [|right; right; exact H2]. destruct (Z.max_spec x z) as [[_ ->]|[_ ->]]; [right; left|left]; reflexivity.
Qed.
Lemma combine_map {X A B} (f : X -> A) (g : X -> B) l : combine (map f l) (map g l) = map (fun x => (f x, g x)) l.
Proof. induction l as [|x l IH]; [reflexivity|]. cbn. rewrite IH. reflexivity. Qed.
Lemma conserved_proj_spec ns Nph P1 : ns <> [] -> Forall (fun n => 0 <= n <= Z.of_nat Nph)%Z ns ->
  exists P, conserved_proj ns Nph P1 = Some P /\ forall i j, j < length ns -> P i j = if (nth j ns 0 =? Z.of_nat (i mod S Nph))%Z then P1 (i / S Nph) j else C0.
Proof.
  intros Hne HF. destruct ns as [|x xs]; [congruence|]. rewrite Forall_forall in HF. unfold conserved_proj.
  destruct (fold_min xs x) as [Lo1 Lo2]. destruct (fold_max xs x) as [Hi1 Hi2]. set (lo := fold_left Z.min xs x) in *. set (hi := fold_left Z.max xs x) in *.
  pose proof (HF lo Lo2) as Blo. pose proof (HF hi Hi2) as Bhi. pose proof (Lo1 hi Hi2) as Ble.
  set (K := seq 0 (Z.to_nat (hi - lo + 1))).
  assert (EA : all_some (map (np_index (S Nph)) (map (fun k => (lo + Z.of_nat k)%Z) K)) = Some (map (fun k => Z.to_nat lo + k) K)).
  { rewrite map_map. apply all_some_map. intros k Hk. apply in_seq in Hk. replace (lo + Z.of_nat k)%Z with (Z.of_nat (Z.to_nat lo + k)) by lia. apply np_index_ok. lia. }
  rewrite EA. eexists. split; [reflexivity|]. intros i j Hj. rewrite combine_map, Csum_map. cbn [fst snd].
  pose proof (nth_In (x :: xs) 0%Z Hj) as Hin. set (nj := nth j (x :: xs) 0%Z) in *. pose proof (Lo1 nj Hin). pose proof (Hi1 nj Hin).
  rewrite (Csum_single K _ (Z.to_nat (nj - lo)) (seq_NoDup _ _)).
  - replace (lo + Z.of_nat (Z.to_nat (nj - lo)))%Z with nj by lia. rewrite Z.eqb_refl.
    replace (nj =? Z.of_nat (i mod S Nph))%Z with (i mod S Nph =? Z.to_nat lo + Z.to_nat (nj - lo)) by (apply eq_true_iff_eq; rewrite Nat.eqb_eq, Z.eqb_eq; lia).
    destruct (_ =? _); ring.
  - unfold K. apply in_seq. lia.
  - intros k Hk Nk. rewrite (proj2 (Z.eqb_neq nj _)) by lia. ring.
Qed.
Lemma conserved_isometry ns Nph P1 m P : ns <> [] -> Forall (fun n => 0 <= n <= Z.of_nat Nph)%Z ns -> isometry m (length ns) P1 ->
  conserved_proj ns Nph P1 = Some P -> isometry (m * S Nph) (length ns) P.
Proof.
  intros Hne HF HI E. destruct (conserved_proj_spec ns Nph P1 Hne HF) as (P' & E' & HP). rewrite E in E'. injection E' as <-. intros j k Hj Hk. rewrite Csum_seq_prod.
  assert (HD : forall i p, p < S Nph -> (i * S Nph + p) / S Nph = i /\ (i * S Nph + p) mod S Nph = p).
  { intros i p Hp. split; [rewrite Nat.div_add_l by lia; rewrite Nat.div_small by lia; lia|rewrite Nat.add_comm, Nat.mod_add by lia; apply Nat.mod_small; lia]. }
  rewrite Forall_forall in HF. pose proof (HF _ (nth_In ns 0%Z Hj)) as Bj. pose proof (HF _ (nth_In ns 0%Z Hk)) as Bk.
  destruct (Z.eq_dec (nth j ns 0%Z) (nth k ns 0%Z)) as [Ejk|Njk].
  - rewrite <- (HI j k Hj Hk). apply Csum_ext. intros i _. rewrite (Csum_single _ _ (Z.to_nat (nth j ns 0%Z)) (seq_NoDup _ _)).
    + rewrite !HP by assumption. destruct (HD i (Z.to_nat (nth j ns 0%Z))) as [-> ->]; [lia|]. rewrite <- Ejk. rewrite Z2Nat.id by lia. rewrite Z.eqb_refl. reflexivity.
    + apply in_seq. lia.
    + intros p Hp Np. apply in_seq in Hp. rewrite !HP by assumption. destruct (HD i p) as [-> ->]; [lia|]. rewrite (proj2 (Z.eqb_neq (nth j ns 0%Z) _)) by lia. apply C_eq; cbn; ring.
  - rewrite (proj2 (Nat.eqb_neq j k)) by congruence. apply Csum_zero. intros i _. apply Csum_zero. intros p Hp. apply in_seq in Hp. rewrite !HP by assumption. destruct (HD i p) as [-> ->]; [lia|].
    destruct (Z.eqb_spec (nth j ns 0%Z) (Z.of_nat p)); destruct (Z.eqb_spec (nth k ns 0%Z) (Z.of_nat p)); try lia; apply C_eq; cbn; ring.
Qed.

(* ---- dimension ---- *)
Local Open Scope R_scope.
Lemma poch_S x k : pochhammer x (S k) = pochhammer x k * IZR (x + Z.of_nat k).
Proof.
  unfold pochhammer. rewrite seq_S, fold_right_app. cbn [fold_right Nat.add].
  assert (G : forall l a, fold_right (fun i acc => IZR (x + Z.of_nat i) * acc) a l = fold_right (fun i acc => IZR (x + Z.of_nat i) * acc) 1 l * a).
  { induction l as [|y l IH]; intros a; cbn [fold_right]; [ring|]. rewrite IH. ring. }
  rewrite G. ring.
Qed.
Lemma poch_1 k : pochhammer 1 k = INR (fact k).
Proof. induction k as [|k IH]; [reflexivity|]. rewrite poch_S, IH. cbn [fact]. change (fact k + k * fact k)%nat with (S k * fact k)%nat. rewrite mult_INR. rewrite (INR_IZR_INZ (S k)). rewrite Nat2Z.inj_succ. unfold Z.succ. rewrite (Z.add_comm 1). ring. Qed.
Lemma binom_above n : forall k, (n < k)%nat -> binom n k = 0%nat.
Proof. induction n as [|n IH]; intros [|k] H; try lia; cbn; [reflexivity|]. rewrite !IH by lia. reflexivity. Qed.
Lemma binom_absorb n : forall k, (binom n (S k) * S k = binom n k * (n - k))%nat.
Proof.
  induction n as [|n IH]; intros k; [destruct k; reflexivity|]. destruct k as [|k].
  - cbn [binom]. rewrite binom_0_r. specialize (IH 0%nat). rewrite binom_0_r in IH. lia.
  - cbn [binom]. pose proof (IH k) as H1. pose proof (IH (S k)) as H2. cbn [Nat.sub].
    destruct (Nat.le_gt_cases n k) as [G|G].
    + replace (n - k)%nat with 0%nat in * by lia. nia.
    + replace (n - S k)%nat with (n - k - 1)%nat in H2 by lia. nia.
Qed.
Lemma term_binom N t k : (t < N)%nat -> (k <= N - t)%nat ->
  INR (binom N (t + 1)) * (pochhammer 1 k * pochhammer (1 - Z.of_nat N + Z.of_nat t) k / (pochhammer (2 + Z.of_nat t) k * INR (fact k)) * (-1) ^ k) = INR (binom N (t + 1 + k)).
Proof.
  intros Ht. rewrite poch_1.
  assert (Hc : forall k, pochhammer (2 + Z.of_nat t) k <> 0).
  { clear k. induction k as [|k IH]; [cbn; lra|]. rewrite poch_S. apply Rmult_integral_contrapositive. split; [exact IH|]. apply not_0_IZR. lia. }
  induction k as [|k IH]; intros Hk.
  - rewrite Nat.add_0_r. cbn. field.
  - specialize (IH ltac:(lia)). rewrite !poch_S. replace (t + 1 + S k)%nat with (S (t + 1 + k)) by lia.
    apply (Rmult_eq_reg_r (INR (S (t + 1 + k)))); [|apply not_0_INR; lia]. rewrite <- mult_INR, binom_absorb, mult_INR, <- IH. rewrite minus_INR by lia.
    assert (E1 : IZR (2 + Z.of_nat t + Z.of_nat k) = INR (S (t + 1 + k))) by (rewrite INR_IZR_INZ; f_equal; lia).
    assert (E2 : IZR (1 - Z.of_nat N + Z.of_nat t + Z.of_nat k) = - (INR N - INR (t + 1 + k))) by (rewrite !INR_IZR_INZ, <- minus_IZR, <- opp_IZR; f_equal; lia).
    rewrite E1, E2. pose proof (INR_fact_neq_0 k). pose proof (INR_fact_neq_0 (S k)). specialize (Hc k). assert (INR (S (t + 1 + k)) <> 0) by (apply not_0_INR; lia).
    cbn [pow]. field. auto.
Qed.
Lemma list_sum_cons x l : list_sum (x :: l) = (x + list_sum l)%nat. Proof. reflexivity. Qed.
Lemma list_sum_add {X} (f g : X -> nat) l : list_sum (map (fun k => f k + g k)%nat l) = (list_sum (map f l) + list_sum (map g l))%nat.
Proof. induction l as [|x l IH]; [reflexivity|]. cbn [map]. rewrite !list_sum_cons, IH. lia. Qed.
Lemma row_sum N : list_sum (map (binom N) (seq 0 (S N))) = (2 ^ N)%nat.
Proof.
  induction N as [|N IH]; [reflexivity|].
  change (seq 0 (S (S N))) with (0 :: seq 1 (S N))%nat. rewrite <- seq_shift. cbn [map]. rewrite map_map, list_sum_cons. cbn [binom]. rewrite list_sum_add, IH.
  assert (E : S (list_sum (map (fun k => binom N (S k)) (seq 0 (S N)))) = (2 ^ N)%nat).
  { rewrite seq_S, map_app, list_sum_app. cbn [map Nat.add]. rewrite list_sum_cons, (binom_above N (S N)) by lia. rewrite <- IH.
    change (seq 0 (S N)) with (0 :: seq 1 N)%nat. rewrite <- seq_shift. cbn [map]. rewrite map_map, list_sum_cons, binom_0_r. cbn [list_sum fold_right]. lia. }
  rewrite Nat.pow_succ_r'. lia.
Qed.
Lemma dim_sum N t k : (t + k <= N)%nat -> (list_sum (map (binom N) (seq 0 (S t))) + list_sum (map (fun i => binom N (t + 1 + i)) (seq 0 k)) = list_sum (map (binom N) (seq 0 (S t + k))))%nat.
Proof.
  intros _. rewrite seq_app, map_app, list_sum_app. f_equal. cbn [Nat.add]. clear. assert (G : forall s, seq (s + S t) k = map (fun i => t + 1 + i)%nat (seq s k)).
  { induction k as [|k IH]; intros s; [reflexivity|]. cbn [seq map]. f_equal; [lia|]. rewrite <- IH. f_equal. }
  change (S t) with (0 + S t)%nat. rewrite (G 0%nat), map_map. reflexivity.
Qed.
Lemma rsum_INR {X} (f : X -> nat) l : fold_right Rplus 0 (map (fun x => INR (f x)) l) = INR (list_sum (map f l)).
Proof. induction l as [|x l IH]; [reflexivity|]. cbn [map fold_right list_sum]. rewrite IH, plus_INR. reflexivity. Qed.
Lemma rsum_mul {X} c (f : X -> R) l : c * fold_right Rplus 0 (map f l) = fold_right Rplus 0 (map (fun x => c * f x) l).
Proof. induction l as [|x l IH]; cbn [map fold_right]; [ring|]. rewrite <- IH. ring. Qed.
Lemma Hspace_dim_conserved N t Nph : photon_Hspace_dim N (Some t) Nph = Some (INR (list_sum (map (binom N) (seq 0 (S t))))).
Proof.
  assert (P2 : IZR (2 ^ Z.of_nat N) = INR (2 ^ N)) by (rewrite INR_IZR_INZ, Nat2Z.inj_pow; reflexivity).
  unfold photon_Hspace_dim. rewrite P2. f_equal. destruct (Nat.lt_ge_cases t N) as [H|H].
  - unfold hyp2f1_series. rewrite rsum_mul.
    assert (E : fold_right Rplus 0 (map (fun k => INR (binom N (t + 1)) * (pochhammer 1 k * pochhammer (1 - Z.of_nat N + Z.of_nat t) k / (pochhammer (2 + Z.of_nat t) k * INR (fact k)) * (-1) ^ k)) (seq 0 (N - t))) =
                INR (list_sum (map (fun i => binom N (t + 1 + i)) (seq 0 (N - t))))).
    { rewrite <- rsum_INR. f_equal. apply map_ext_in. intros k Hk. apply in_seq in Hk. apply term_binom; lia. }
    rewrite E. rewrite <- (row_sum N). replace (S N) with (S t + (N - t))%nat by lia. rewrite <- dim_sum by lia. rewrite plus_INR. ring.
  - rewrite (binom_above N (t + 1)) by lia. cbn [INR]. rewrite Rmult_0_l, Rminus_0_r. f_equal. rewrite <- (row_sum N).
    replace (S t) with (S N + (t - N))%nat by lia. rewrite seq_app, map_app, list_sum_app.
    assert (Z0 : forall s k, (N < s)%nat -> list_sum (map (binom N) (seq s k)) = 0%nat).
    { clear. intros s k. revert s. induction k as [|k IH]; intros s Hs; [reflexivity|]. cbn [seq map list_sum fold_right]. rewrite (binom_above N s) by lia. apply (IH (S s)). lia. }
    rewrite (Z0 (0 + S N)%nat) by lia. lia.
Qed.

(* ---- coherent states ---- *)
Lemma cumulated_S k : cumulated (S k) = cumulated k + ln (INR (S k)).
Proof. unfold cumulated. rewrite seq_S, fold_left_app. reflexivity. Qed.
Lemma cumulated_fact k : cumulated k = ln (INR (fact k)).
Proof.
  induction k as [|k IH]; [cbn; rewrite ln_1; reflexivity|]. rewrite cumulated_S, IH. cbn [fact]. change (fact k + k * fact k)%nat with (S k * fact k)%nat. rewrite mult_INR, ln_mult; [ring| |]; apply lt_0_INR; [lia|apply lt_O_fact].
Qed.
Lemma coherent_ok a n : 0 < a -> coherent_state a n = map (fun k => Some (coherent a k)) (seq 0 n).
Proof.
  intros Ha. unfold coherent_state. apply map_ext. intros k. destruct (Rlt_dec 0 a); [|contradiction]. f_equal. unfold coherent.
  assert (E : (if (k =? 0)%nat then ln 1 else 1 / 2 * cumulated k) = 1 / 2 * ln (INR (fact k))).
  { destruct (Nat.eqb_spec k 0) as [->|]; [cbn; rewrite ln_1; ring|]. rewrite cumulated_fact. reflexivity. }
  rewrite E. unfold Rminus. rewrite !exp_plus, exp_Ropp. rewrite Rmult_comm with (r1 := ln a).
  rewrite <- (exp_ln (a ^ k)) by (apply pow_lt; exact Ha). rewrite ln_pow by exact Ha. unfold Rdiv. f_equal. f_equal.
  assert (F : 0 < INR (fact k)) by (apply lt_0_INR, lt_O_fact). rewrite <- (exp_ln (sqrt (INR (fact k)))) by (apply sqrt_lt_R0; exact F). f_equal.
  rewrite <- Rpower_sqrt by exact F. unfold Rpower. rewrite ln_exp. field.
Qed.
