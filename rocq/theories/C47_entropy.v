(* C47: entropies, Kullback-Leibler divergence and level statistics. *)
From Verif Require Import AuxN SpecC SpecEntropy M_entropy P_entropy.
From Coq Require Import Lra.
Local Open Scope R_scope.

Definition nonnegative (p : list R) : Prop := Forall (fun x => 0 <= x) p /\ Exists (fun x => 0 < x) p.
Definition entropy (alpha : R) (p : list R) : R := if Req_EM_T alpha 1 then shannon p else renyi alpha p.
Lemma distribution_nonnegative p : distribution p -> nonnegative p.
Proof.
  intros H. split; [apply H|]. pose proof (distribution_support p H) as Hs. destruct (support p) as [|x s] eqn:E; [destruct (Hs eq_refl)|].
  apply Exists_exists. exists x. apply support_in. rewrite E. left. reflexivity.
Qed.
Lemma lattice_value alpha p n : 0 < alpha -> nonnegative p ->
  lattice_entropy alpha p false n = Some (Fin (entropy alpha p)) /\
  ((0 < n)%nat -> lattice_entropy alpha p true n = Some (Fin (entropy alpha p / INR n))).
Proof.
  intros Ha [Hp He]. unfold lattice_entropy, entropy. assert (Hn : (0 < n)%nat -> INR n <> 0) by (intros Hn; apply not_0_INR; lia).
  destruct (Req_EM_T alpha 1) as [E|E]; [rewrite shannon_num; split; [reflexivity|]; intros H; rewrite np_div_fin by exact (Hn H); reflexivity|].
  destruct (Rle_dec 0 alpha); [|lra]. rewrite moment_num by assumption. rewrite np_log_pos by (apply moment_pos, support_pos, He). rewrite np_div_fin by lra.
  split; [reflexivity|]. intros H. rewrite np_div_fin by exact (Hn H). reflexivity.
Qed.
Lemma entropy_bounds alpha p : 0 < alpha -> distribution p -> 0 <= entropy alpha p <= ln (INR (length p)).
Proof.
  intros Ha Hp. unfold entropy. destruct (Req_EM_T alpha 1) as [E|E]; [split; [apply shannon_nonneg, Hp|apply shannon_le, Hp]|].
  split; apply (renyi_bounds p Hp alpha Ha E).
Qed.

(* for every alpha > 0 and every list of eigenvalues (none negative, not all zero) the value is -sum p log p (alpha = 1) and log(sum p^alpha)/(1-alpha) otherwise,
   divided by the number of sites of the subsystem when a density is asked for.  The diagonal ensemble computes the same number.  It lies between 0 and log of the number of
   eigenvalues when they add up to one, and approaches the value for alpha = 1. *)
Theorem C47_renyi_partial alpha p n : 0 < alpha -> nonnegative p ->
  lattice_entropy alpha p false n = Some (Fin (entropy alpha p)) /\
  ((0 < n)%nat -> lattice_entropy alpha p true n = Some (Fin (entropy alpha p / INR n))) /\
  ensemble_entropy alpha p = Some (Fin (entropy alpha p)) /\
  (distribution p -> 0 <= entropy alpha p <= ln (INR (length p))) /\
  (distribution p -> forall e, 0 < e -> exists d, 0 < d /\ forall a, Rabs (a - 1) < d -> Rabs (entropy a p - entropy 1 p) < e).
Proof.
  intros Ha H. destruct (lattice_value alpha p n Ha H) as [H1 H2]. split; [exact H1|]. split; [exact H2|]. split; [|split; [apply entropy_bounds, Ha|]].
  - destruct H as [Hp He]. unfold ensemble_entropy, entropy. destruct (Rlt_dec alpha 0); [lra|]. destruct (Req_EM_T alpha 1) as [E|E]; [rewrite shannon_num; reflexivity|].
    rewrite moment_num by assumption. rewrite np_log_pos by (apply moment_pos, support_pos, He). cbn [np_mul]. do 2 f_equal. unfold renyi, moment. field. lra.
  - intros Hd e He. destruct (renyi_limit p Hd e He) as [d [Hd0 Hl]]. exists d. split; [exact Hd0|]. intros a Had. unfold entropy. destruct (Req_EM_T 1 1) as [_|N]; [|destruct (N eq_refl)].
    destruct (Req_EM_T a 1) as [E|E]; [replace (shannon p - shannon p) with 0 by ring; rewrite Rabs_R0; exact He|]. apply Hl; assumption.
Qed.
Print Assumptions C47_renyi_partial.
(* the bounds are attained: a pure state has entropy 0, equal eigenvalues have log n *)
Theorem C47_renyi_extremes alpha n : 0 < alpha -> (0 < n)%nat ->
  entropy alpha (1 :: repeat 0 (n - 1)) = 0 /\ entropy alpha (repeat (/ INR n) n) = ln (INR n).
Proof.
  intros Ha Hn. assert (Hz : forall k, support (repeat 0 k) = []). { induction k as [|k IH]; [reflexivity|]. cbn [repeat]. rewrite support_cons. destruct (Rlt_dec 0 0); [lra|exact IH]. }
  assert (H1 : support (1 :: repeat 0 (n - 1)) = [1]) by (rewrite support_cons, Hz; destruct (Rlt_dec 0 1); [reflexivity|lra]).
  assert (Hp : 0 < INR n) by (apply lt_0_INR; exact Hn). assert (Hi : 0 < / INR n) by (apply Rinv_0_lt_compat; exact Hp).
  assert (Hc : forall k, support (repeat (/ INR n) k) = repeat (/ INR n) k). { induction k as [|k IH]; [reflexivity|]. cbn [repeat]. rewrite support_cons, IH. destruct (Rlt_dec 0 (/ INR n)); [reflexivity|contradiction]. }
  assert (Hr : forall (f : R -> R) k, Rsum (repeat (/ INR n) k) f = INR k * f (/ INR n)). { intros f. induction k as [|k IH]; [rewrite Rmult_0_l; reflexivity|]. cbn [repeat]. rewrite Rsum_cons, IH, S_INR. ring. }
  unfold entropy. destruct (Req_EM_T alpha 1) as [E|E]; split.
  - unfold shannon. rewrite H1, Rsum_cons, Rsum_nil, ln_1. ring.
  - unfold shannon. rewrite Hc, Hr, ln_Rinv by exact Hp. field. lra.
  - unfold renyi. rewrite H1, Rsum_cons, Rsum_nil. unfold Rpower. rewrite ln_1, Rmult_0_r, exp_0, Rplus_0_r, ln_1. unfold Rdiv. ring.
  - unfold renyi. rewrite Hc, Hr. unfold Rpower. rewrite ln_mult, ln_exp, ln_Rinv by (try apply exp_pos; exact Hp). field. lra.
Qed.
Print Assumptions C47_renyi_extremes.
Theorem C47_renyi_negative_alpha alpha p density n : alpha < 0 -> lattice_entropy alpha p density n = None /\ tensor_entropy alpha p = None /\ ensemble_entropy alpha p = None.
Proof.
  intros Ha. unfold lattice_entropy, tensor_entropy, ensemble_entropy. destruct (Req_EM_T alpha 1); [lra|]. destruct (Rle_dec 0 alpha); [lra|]. destruct (Rlt_dec alpha 0); [|lra]. repeat split.
Qed.
Print Assumptions C47_renyi_negative_alpha.
Example C47_renyi_example : distribution [1/2; 1/4; 0; 1/4] /\ entropy 2 [1/2; 1/4; 0; 1/4] = ln (8 / 3) /\ entropy 1 [1/2; 1/4; 0; 1/4] = 3 / 2 * ln 2.
Proof.
  assert (Hs : support [1/2; 1/4; 0; 1/4] = [1/2; 1/4; 1/4]).
  { rewrite !support_cons. destruct (Rlt_dec 0 (1/2)); [|lra]. destruct (Rlt_dec 0 (1/4)); [|lra]. destruct (Rlt_dec 0 0); [lra|]. reflexivity. }
  split; [|split].
  - split; [repeat (constructor; [lra|]); constructor|]. unfold total, Rsum. cbn [fold_right]. lra.
  - unfold entropy. destruct (Req_EM_T 2 1); [lra|]. unfold renyi. rewrite Hs. unfold Rsum. cbn [fold_right].
    replace 2 with (INR 2) by reflexivity. rewrite !Rpower_pow by (cbn [INR]; lra). cbn [INR pow].
    replace (8 / 3) with (/ (3 / 8)) by field. rewrite ln_Rinv by lra. replace (1 / (1 + 1) * (1 / (1 + 1) * 1) + (1 / 4 * (1 / 4 * 1) + (1 / 4 * (1 / 4 * 1) + 0))) with (3 / 8) by field. field.
  - unfold entropy. destruct (Req_EM_T 1 1) as [_|N]; [|destruct (N eq_refl)]. unfold shannon. rewrite Hs. unfold Rsum. cbn [fold_right].
    replace (1 / 4) with (/ (2 * 2)) by field. replace (1 / 2) with (/ 2) by field. rewrite !ln_Rinv, ln_mult by lra. field.
Qed.

(* alpha = 0 is accepted and counts the zero eigenvalues: log of the dimension instead of log of the rank *)
Theorem C47_renyi_zero_alpha_refuted : exists p n, distribution p /\ renyi 0 p = 0 /\ lattice_entropy 0 p false n = Some (Fin (ln 2)) /\ ensemble_entropy 0 p = Some (Fin (ln 2)) /\ 0 < ln 2.
Proof.
  exists [1; 0], 1%nat. assert (Hn : nansum (map (fun x => np_power x 0) [1; 0]) = Fin 2).
  { rewrite (nansum_fin [1; 0] _ (fun _ => true) (fun _ => 1)); [f_equal; unfold Rsum; cbn [filter fold_right]; lra|]. intros x [<-|[<-|[]]]; unfold np_power.
    - destruct (Rlt_dec 0 1); [|lra]. unfold Rpower. rewrite Rmult_0_l, exp_0. reflexivity.
    - destruct (Rlt_dec 0 0); [lra|]. destruct (Req_EM_T 0 0); [reflexivity|lra]. }
  split; [split; [repeat (constructor; [lra|]); constructor|unfold total, Rsum; cbn [fold_right]; lra]|].
  split; [unfold renyi; rewrite !support_cons; destruct (Rlt_dec 0 1); [|lra]; destruct (Rlt_dec 0 0); [lra|]; unfold Rsum, support; cbn [filter fold_right]; unfold Rpower; rewrite Rmult_0_l, exp_0, Rplus_0_r, ln_1; unfold Rdiv; ring|].
  assert (L2 : np_log (Fin 2) = Fin (ln 2)) by (apply np_log_pos; lra).
  split; [|split; [|rewrite <- ln_1; apply ln_increasing; lra]].
  - unfold lattice_entropy. destruct (Req_EM_T 0 1); [lra|]. destruct (Rle_dec 0 0); [|lra]. rewrite Hn, L2, np_div_fin by lra. do 2 f_equal. field.
  - unfold ensemble_entropy. destruct (Rlt_dec 0 0); [lra|]. destruct (Req_EM_T 0 1); [lra|]. rewrite Hn, L2. cbn [np_mul]. do 2 f_equal. field.
Qed.
Print Assumptions C47_renyi_zero_alpha_refuted.

(* tensor and photon bases: nan for every alpha > 1 and every list of eigenvalues; for alpha < 1 the value is log(sum p^alpha) - log(1 - alpha), which is not zero for a product state *)
Theorem C47_renyi_tensor_refuted alpha p : nonnegative p ->
  (1 < alpha -> tensor_entropy alpha p = Some Nan) /\
  (0 < alpha < 1 -> tensor_entropy alpha p = Some (Fin (ln (Rsum (support p) (fun x => Rpower x alpha)) - ln (1 - alpha)))) /\
  (0 < alpha < 1 -> renyi alpha p = 0 -> tensor_entropy alpha p <> Some (Fin (renyi alpha p))) /\
  (alpha = 1 -> tensor_entropy alpha p = Some (Fin (shannon p))).
Proof.
  intros [Hp He]. assert (Hv : 0 < alpha < 1 -> tensor_entropy alpha p = Some (Fin (ln (Rsum (support p) (fun x => Rpower x alpha)) - ln (1 - alpha)))).
  { intros Ha. unfold tensor_entropy. destruct (Req_EM_T alpha 1) as [E|E]; [lra|]. destruct (Rle_dec 0 alpha); [|lra]. rewrite moment_num by (try assumption; lra). rewrite np_div_fin by lra.
    pose proof (moment_pos alpha p (support_pos p He)) as Hm. rewrite np_log_pos by (apply Rdiv_lt_0_compat; lra). do 2 f_equal.
    unfold Rdiv. rewrite ln_mult by (try exact Hm; apply Rinv_0_lt_compat; lra). rewrite ln_Rinv by lra. reflexivity. }
  split; [|split; [exact Hv|split]].
  - intros Ha. unfold tensor_entropy. destruct (Req_EM_T alpha 1); [lra|]. destruct (Rle_dec 0 alpha); [|lra]. rewrite moment_num by (try assumption; lra). rewrite np_div_fin by lra.
    pose proof (moment_pos alpha p (support_pos p He)) as Hm. unfold np_log. destruct (Rlt_dec (moment alpha p / (1 - alpha)) 0) as [Hl|Hl]; [reflexivity|]. destruct Hl.
    replace (moment alpha p / (1 - alpha)) with (- (moment alpha p / (alpha - 1))) by (field; lra). apply Ropp_lt_gt_0_contravar. apply Rdiv_lt_0_compat; lra.
  - intros Ha Hr. rewrite (Hv Ha). intros Hc. injection Hc as Hc. unfold renyi in Hr, Hc. change (Rsum (support p) (fun x => Rpower x alpha)) with (moment alpha p) in *.
    assert (Hz : ln (moment alpha p) = 0). { unfold Rdiv in Hr. apply Rmult_integral in Hr. destruct Hr as [Hr|Hr]; [exact Hr|]. pose proof (Rinv_0_lt_compat (1 - alpha) ltac:(lra)). lra. }
    rewrite Hr, Hz in Hc. assert (ln (1 - alpha) < 0); [|lra]. rewrite <- ln_1. apply ln_increasing; lra.
  - intros Ha. unfold tensor_entropy. destruct (Req_EM_T alpha 1); [|contradiction]. rewrite shannon_num. reflexivity.
Qed.
Print Assumptions C47_renyi_tensor_refuted.
Example C47_renyi_tensor_example : nonnegative [1; 0] /\ renyi (1/2) [1; 0] = 0.
Proof.
  split; [split; [repeat (constructor; [lra|]); constructor|left; lra]|]. unfold renyi. rewrite !support_cons. destruct (Rlt_dec 0 1); [|lra]. destruct (Rlt_dec 0 0); [lra|].
  unfold Rsum, support. cbn [filter fold_right]. unfold Rpower. rewrite ln_1, Rmult_0_r, exp_0, Rplus_0_r, ln_1. unfold Rdiv. ring.
Qed.

(* ---- pure states: the singular value decomposition ---- *)
Section SVD.
Context (a b k : nat) (v U V : nat -> nat -> C) (lmbda : nat -> R).
Definition decomposition : Prop := forall i m, (i < a)%nat -> (m < b)%nat -> v i m = Csum (seq 0 k) (fun j => U i j * RtoC (lmbda j) * V j m)%C.
Definition orthonormal_U : Prop := forall j l, (j < k)%nat -> (l < k)%nat -> Csum (seq 0 a) (fun i => Cconj (U i j) * U i l)%C = if (j =? l)%nat then C1 else C0.
Definition orthonormal_V : Prop := forall j l, (j < k)%nat -> (l < k)%nat -> Csum (seq 0 b) (fun m => V j m * Cconj (V l m))%C = if (j =? l)%nat then C1 else C0.
End SVD.
Lemma Csum_delta k (f : nat -> C) j : (j < k)%nat -> Csum (seq 0 k) (fun l => f l * (if (j =? l)%nat then C1 else C0))%C = f j.
Proof.
  intros Hj. rewrite (Csum_single (seq 0 k) _ j); [rewrite Nat.eqb_refl; ring|apply seq_NoDup|apply in_seq; lia|].
  intros l Hl Hne. destruct (Nat.eqb_spec j l); [congruence|ring].
Qed.
(* the returned density matrices: rdm_A is the partial trace of |psi><psi| and has the squared singular values as eigenvalues; rdm_B is the complex conjugate of the partial trace
   (for real states the partial trace itself), with the same eigenvalues; the squared singular values of a normalised state are a distribution *)
Theorem C47_svd_partial a b k v U V lmbda : decomposition a b k v U V lmbda -> orthonormal_U a k U -> orthonormal_V b k V ->
  (forall i i', (i < a)%nat -> (i' < a)%nat -> svd_rdm_A k U lmbda i i' = Csum (seq 0 b) (fun m => v i m * Cconj (v i' m))%C) /\
  (forall m m', (m < b)%nat -> (m' < b)%nat -> svd_rdm_B k V lmbda m m' = Cconj (Csum (seq 0 a) (fun i => v i m * Cconj (v i m'))%C)) /\
  (forall i j, (i < a)%nat -> (j < k)%nat -> Csum (seq 0 a) (fun i' => svd_rdm_A k U lmbda i i' * U i' j)%C = (RtoC (lmbda j * lmbda j) * U i j)%C) /\
  (forall m j, (m < b)%nat -> (j < k)%nat -> Csum (seq 0 b) (fun m' => svd_rdm_B k V lmbda m m' * Cconj (V j m'))%C = (RtoC (lmbda j * lmbda j) * Cconj (V j m))%C) /\
  (Csum (seq 0 a) (fun i => Csum (seq 0 b) (fun m => v i m * Cconj (v i m)))%C = C1 -> distribution (map (fun j => lmbda j * lmbda j) (seq 0 k))).
Proof.
  intros D OU OV.
  assert (A : forall i i', (i < a)%nat -> (i' < a)%nat -> svd_rdm_A k U lmbda i i' = Csum (seq 0 b) (fun m => v i m * Cconj (v i' m))%C).
  { intros i i' Hi Hi'. unfold svd_rdm_A. transitivity (Csum (seq 0 k) (fun j => Csum (seq 0 k) (fun l => (U i j * RtoC (lmbda j) * (RtoC (lmbda l) * Cconj (U i' l))) * (if (j =? l)%nat then C1 else C0)))%C).
    - apply Csum_ext. intros j Hj. apply in_seq in Hj. rewrite (Csum_delta k (fun l => U i j * RtoC (lmbda j) * (RtoC (lmbda l) * Cconj (U i' l)))%C j) by lia. apply C_eq; cbn; ring.
    - transitivity (Csum (seq 0 k) (fun j => Csum (seq 0 k) (fun l => Csum (seq 0 b) (fun m => (U i j * RtoC (lmbda j) * V j m) * Cconj (U i' l * RtoC (lmbda l) * V l m)))))%C.
      + apply Csum_ext. intros j Hj. apply Csum_ext. intros l Hl. apply in_seq in Hj, Hl. rewrite <- (OV j l) by lia. rewrite <- Csum_mul_l. apply Csum_ext. intros m _. rewrite !Cconj_mul, Cconj_RtoC. ring.
      + transitivity (Csum (seq 0 k) (fun j => Csum (seq 0 b) (fun m => Csum (seq 0 k) (fun l => (U i j * RtoC (lmbda j) * V j m) * Cconj (U i' l * RtoC (lmbda l) * V l m)))))%C; [apply Csum_ext; intros j _; apply Csum_swap|].
        rewrite Csum_swap. apply Csum_ext. intros m Hm. apply in_seq in Hm. rewrite (D i m), (D i' m) by lia. rewrite Csum_conj. rewrite <- Csum_mul_r. apply Csum_ext. intros j _. rewrite <- Csum_mul_l. reflexivity. }
  assert (B : forall m m', (m < b)%nat -> (m' < b)%nat -> svd_rdm_B k V lmbda m m' = Cconj (Csum (seq 0 a) (fun i => v i m * Cconj (v i m'))%C)).
  { intros m m' Hm Hm'. unfold svd_rdm_B. transitivity (Csum (seq 0 k) (fun j => Csum (seq 0 k) (fun l => (RtoC (lmbda j) * Cconj (V j m) * (RtoC (lmbda l) * V l m')) * (if (j =? l)%nat then C1 else C0)))%C).
    - apply Csum_ext. intros j Hj. apply in_seq in Hj. rewrite (Csum_delta k (fun l => RtoC (lmbda j) * Cconj (V j m) * (RtoC (lmbda l) * V l m'))%C j) by lia. apply C_eq; cbn; ring.
    - transitivity (Csum (seq 0 k) (fun j => Csum (seq 0 k) (fun l => Csum (seq 0 a) (fun i => Cconj (U i j * RtoC (lmbda j) * V j m) * (U i l * RtoC (lmbda l) * V l m')))))%C.
      + apply Csum_ext. intros j Hj. apply Csum_ext. intros l Hl. apply in_seq in Hj, Hl. rewrite <- (OU j l) by lia. rewrite <- Csum_mul_l. apply Csum_ext. intros i _. rewrite !Cconj_mul, Cconj_RtoC. ring.
      + transitivity (Csum (seq 0 k) (fun j => Csum (seq 0 a) (fun i => Csum (seq 0 k) (fun l => Cconj (U i j * RtoC (lmbda j) * V j m) * (U i l * RtoC (lmbda l) * V l m')))))%C; [apply Csum_ext; intros j _; apply Csum_swap|].
        rewrite Csum_swap, Csum_conj. apply Csum_ext. intros i Hi. apply in_seq in Hi. rewrite (D i m), (D i m') by lia. rewrite Cconj_mul, Cconj_invol, Csum_conj. rewrite <- Csum_mul_r. apply Csum_ext. intros j _. rewrite <- Csum_mul_l. reflexivity. }
  split; [exact A|]. split; [exact B|]. split; [|split].
  - intros i j Hi Hj. unfold svd_rdm_A. transitivity (Csum (seq 0 k) (fun l => (U i l * RtoC (lmbda l * lmbda l)) * (if (j =? l)%nat then C1 else C0)))%C; [|rewrite (Csum_delta k (fun l => U i l * RtoC (lmbda l * lmbda l))%C j) by lia; ring].
    transitivity (Csum (seq 0 a) (fun i' => Csum (seq 0 k) (fun l => U i l * RtoC (lmbda l * lmbda l) * (Cconj (U i' l) * U i' j))))%C; [apply Csum_ext; intros i' _; rewrite <- Csum_mul_r; apply Csum_ext; intros l _; ring|].
    rewrite Csum_swap. apply Csum_ext. intros l Hl. apply in_seq in Hl. rewrite Csum_mul_l, (OU l j) by lia. rewrite (Nat.eqb_sym l j). reflexivity.
  - intros m j Hm Hj. unfold svd_rdm_B. transitivity (Csum (seq 0 k) (fun l => (Cconj (V l m) * RtoC (lmbda l * lmbda l)) * (if (j =? l)%nat then C1 else C0)))%C; [|rewrite (Csum_delta k (fun l => Cconj (V l m) * RtoC (lmbda l * lmbda l))%C j) by lia; ring].
    transitivity (Csum (seq 0 b) (fun m' => Csum (seq 0 k) (fun l => Cconj (V l m) * RtoC (lmbda l * lmbda l) * (V l m' * Cconj (V j m')))))%C; [apply Csum_ext; intros m' _; rewrite <- Csum_mul_r; apply Csum_ext; intros l _; ring|].
    rewrite Csum_swap. apply Csum_ext. intros l Hl. apply in_seq in Hl. rewrite Csum_mul_l, (OV l j) by lia. rewrite (Nat.eqb_sym l j). reflexivity.
  - intros Hn. split; [apply Forall_map, Forall_forall; intros j _; apply Rle_0_sqr|]. unfold total. rewrite Rsum_map.
    assert (Hc : Csum (seq 0 k) (fun j => RtoC (lmbda j * lmbda j)) = C1).
    { rewrite <- Hn. transitivity (Csum (seq 0 a) (fun i => svd_rdm_A k U lmbda i i)); [|apply Csum_ext; intros i Hi; apply in_seq in Hi; apply A; lia].
      unfold svd_rdm_A. rewrite Csum_swap. apply Csum_ext. intros j Hj. apply in_seq in Hj. transitivity (Csum (seq 0 a) (fun i => RtoC (lmbda j * lmbda j) * (Cconj (U i j) * U i j)))%C; [rewrite Csum_mul_l, (OU j j), Nat.eqb_refl by lia; ring|apply Csum_ext; intros i _; ring]. }
    apply (f_equal fst) in Hc. rewrite Csum_fst in Hc. exact Hc.
Qed.
Print Assumptions C47_svd_partial.
(* the entropies are those of p = lmbda^2 + eps: they are finite *)
Theorem C47_pure_entropy_partial alpha eps lmbda n : 0 < alpha -> 0 < eps -> lmbda <> [] -> lattice_entropy alpha (p_pure eps lmbda) false n = Some (Fin (entropy alpha (map (fun l => l * l + eps) lmbda))).
Proof.
  intros Ha He Hl. refine (proj1 (lattice_value alpha (p_pure eps lmbda) n Ha _)). split.
  - apply Forall_map, Forall_forall. intros x _. pose proof (Rle_0_sqr x) as H. unfold Rsqr in H. lra.
  - destruct lmbda as [|x l]; [destruct (Hl eq_refl)|]. left. pose proof (Rle_0_sqr x) as H. unfold Rsqr in H. lra.
Qed.
Print Assumptions C47_pure_entropy_partial.
(* the offset eps = 2^-52 of the eigenvalues is not a rounding error: the Renyi entropy of a product state with alpha = 1/52 exceeds log(3/2) although it is zero *)
Theorem C47_offset_refuted : exists lmbda alpha x, distribution (map (fun l => l * l) lmbda) /\ 0 < alpha /\ renyi alpha (map (fun l => l * l) lmbda) = 0 /\
  (forall n, lattice_entropy alpha (p_pure (Rpower 2 (-52)) lmbda) false n = Some (Fin x)) /\ ln (3 / 2) < x.
Proof.
  set (eps := Rpower 2 (-52)). assert (He : 0 < eps) by apply Rpower_pos. exists [1; 0], (1 / 52), (entropy (1 / 52) (map (fun l => l * l + eps) [1; 0])).
  cbn [map]. rewrite Rmult_1_l, Rmult_0_l, Rplus_0_l. split; [split; [repeat (constructor; [lra|]); constructor|unfold total, Rsum; cbn [fold_right]; lra]|]. split; [lra|].
  split; [unfold renyi; rewrite !support_cons; destruct (Rlt_dec 0 1); [|lra]; destruct (Rlt_dec 0 0); [lra|]; unfold Rsum, support; cbn [filter fold_right]; unfold Rpower; rewrite ln_1, Rmult_0_r, exp_0, Rplus_0_r, ln_1; unfold Rdiv; ring|].
  split; [intros n; rewrite (C47_pure_entropy_partial (1 / 52) eps [1; 0] n) by (lra || discriminate); cbn [map]; rewrite Rmult_1_l, Rmult_0_l, Rplus_0_l; reflexivity|].
  unfold entropy. destruct (Req_EM_T (1 / 52) 1); [lra|]. unfold renyi. rewrite !support_cons. destruct (Rlt_dec 0 (1 + eps)); [|lra]. destruct (Rlt_dec 0 eps); [|lra].
  change (support []) with (@nil R). rewrite !Rsum_cons, Rsum_nil, Rplus_0_r.
  assert (E1 : Rpower eps (1 / 52) = / 2). { unfold eps. rewrite Rpower_mult. replace (-52 * (1 / 52)) with (- (1)) by field. rewrite Rpower_Ropp, Rpower_1 by lra. reflexivity. }
  assert (E2 : 1 < Rpower (1 + eps) (1 / 52)). { rewrite <- (Rpower_O (1 + eps)) at 1 by lra. apply Rpower_lt; lra. }
  rewrite E1. assert (Hl : ln (3 / 2) < ln (Rpower (1 + eps) (1 / 52) + / 2)) by (apply ln_increasing; lra).
  assert (H0 : 0 < ln (3 / 2)) by (rewrite <- ln_1; apply ln_increasing; lra).
  apply (Rmult_lt_reg_r (1 - 1 / 52)); [lra|]. unfold Rdiv at 3. rewrite Rmult_assoc, Rinv_l by lra. lra.
Qed.
Print Assumptions C47_offset_refuted.
(* the subsystem without sites (or the complement of all sites) with density=True: minus infinity *)
Theorem C47_empty_subsystem_refuted eps : 0 < eps -> lattice_entropy 1 (p_pure eps [1]) true 0 = Some NInf.
Proof.
  intros He. unfold lattice_entropy. destruct (Req_EM_T 1 1) as [_|N]; [|destruct (N eq_refl)]. rewrite shannon_num. unfold shannon, p_pure. cbn [map]. rewrite support_cons. destruct (Rlt_dec 0 (1 * 1 + eps)); [|lra].
  change (support []) with (@nil R). rewrite Rsum_cons, Rsum_nil, Rplus_0_r, Rmult_1_l. set (y := (1 + eps) * ln (1 + eps)).
  assert (Hy : 0 < y). { apply Rmult_lt_0_compat; [lra|]. rewrite <- ln_1. apply ln_increasing; lra. }
  cbn [INR np_div]. destruct (Req_EM_T 0 0) as [_|N]; [|destruct (N eq_refl)]. destruct (Req_EM_T (- y) 0); [lra|]. destruct (Rlt_dec 0 (- y)); [lra|reflexivity].
Qed.
Print Assumptions C47_empty_subsystem_refuted.
Example C47_svd_example : exists v U V lmbda, decomposition 2 2 2 v U V lmbda /\ orthonormal_U 2 2 U /\ orthonormal_V 2 2 V /\ (Csum (seq 0 2) (fun i => Csum (seq 0 2) (fun m => v i m * Cconj (v i m)))%C = C1) /\ v 0%nat 1%nat = ((0, 3/5)) /\ v 1%nat 0%nat = (4/5, 0).
Proof.
  (* (4|10> + 3i|01>)/5 *)
  exists (fun i m => if (i =? m)%nat then C0 else if (i =? 0)%nat then (0, 3/5) else (4/5, 0)), (fun i j => if (i =? j)%nat then C1 else C0), (fun j m => if (j =? m)%nat then C0 else if (j =? 0)%nat then (0, 1) else C1), (fun j => if (j =? 0)%nat then 3/5 else 4/5).
  split; [|split; [|split; [|split; [|split]]]].
  - intros [|[|i]] [|[|m]] Hi Hm; try lia; apply C_eq; cbn; field.
  - intros [|[|i]] [|[|m]] Hi Hm; try lia; apply C_eq; cbn; field.
  - intros [|[|i]] [|[|m]] Hi Hm; try lia; apply C_eq; cbn; field.
  - apply C_eq; cbn; field.
  - reflexivity.
  - reflexivity.
Qed.

(* ---- KL_div ---- *)
(* accepted arguments have only positive entries and are normalised up to the tolerance; the value is sum p log(p/q), at least the difference of the norms, not negative if the norms agree, and then zero
   exactly for equal distributions *)
Theorem C47_KL tol p q :
  (forall r, KL_div tol p q = Some r -> r = divergence p q /\ - (2 * tol) <= r /\ (total p = total q -> 0 <= r /\ (r = 0 <-> p = q))) /\
  (KL_div tol p q <> None <-> length p = length q /\ Forall (fun x => 0 < x) p /\ Forall (fun x => 0 < x) q /\ Rabs (total p - 1) <= tol /\ Rabs (total q - 1) <= tol).
Proof.
  split.
  - intros r H. destruct (KL_div_some tol p q r H) as (El & H1 & H2 & T1 & T2 & Hr). pose proof (divergence_ge p q El H1 H2) as Hg. rewrite <- Hr in Hg. split; [exact Hr|]. split.
    + pose proof (Rle_abs (- (total p - 1))) as A1. rewrite Rabs_Ropp in A1. pose proof (Rle_abs (total q - 1)) as A2. lra.
    + intros Ht. split; [lra|]. split; [intros H0; apply (divergence_eq p q El H1 H2 Ht); congruence|]. intros <-. rewrite Hr. apply divergence_self, H1.
  - split.
    + destruct (KL_div tol p q) as [r|] eqn:E; [intros _|intros H; destruct (H eq_refl)]. destruct (KL_div_some tol p q r E) as (El & H1 & H2 & T1 & T2 & _). tauto.
    + intros (El & H1 & H2 & T1 & T2). rewrite (KL_div_accepts tol p q El H1 H2 T1 T2). discriminate.
Qed.
Print Assumptions C47_KL.
(* distributions with a vanishing probability are rejected, although the divergence is defined when q is positive (the lines that would treat them are never reached) *)
Theorem C47_KL_zero_refuted tol q : 0 <= tol -> KL_div tol [1; 0] q = None.
Proof.
  intros Ht. destruct (KL_div tol [1; 0] q) as [r|] eqn:E; [|reflexivity]. destruct (KL_div_some _ _ _ _ E) as (_ & H1 & _). inversion H1 as [|? ? _ H2]. inversion H2. lra.
Qed.
Print Assumptions C47_KL_zero_refuted.
Example C47_KL_example : KL_div 0 [1/2; 1/2] [1/4; 3/4] = Some (divergence [1/2; 1/2] [1/4; 3/4]) /\ 0 < divergence [1/2; 1/2] [1/4; 3/4].
Proof.
  assert (H : KL_div 0 [1/2; 1/2] [1/4; 3/4] = Some (divergence [1/2; 1/2] [1/4; 3/4])).
  { apply KL_div_accepts; [reflexivity|repeat (constructor; [lra|]); constructor|repeat (constructor; [lra|]); constructor| |]; unfold total, Rsum; cbn [fold_right]; right; [replace (1 / 2 + (1 / 2 + 0) - 1) with 0 by field|replace (1 / 4 + (3 / 4 + 0) - 1) with 0 by field]; apply Rabs_R0. }
  split; [exact H|]. destruct (proj1 (C47_KL 0 [1/2; 1/2] [1/4; 3/4]) _ H) as (_ & _ & Hp). destruct Hp as [H0 H1]; [unfold total, Rsum; cbn [fold_right]; lra|].
  destruct H0 as [H0|H0]; [exact H0|]. symmetry in H0. apply H1 in H0. injection H0 as H0. lra.
Qed.

(* ---- mean_level_spacing ---- *)
(* at least three ascending, distinct energies: the mean of the ratios of consecutive spacings, in (0,1], unchanged when the energies are shifted or rescaled *)
Theorem C47_level_spacing E : increasing E -> (3 <= length E)%nat ->
  mean_level_spacing E = Some (Fin (mean_ratio E)) /\ 0 < mean_ratio E <= 1 /\
  (forall a b, 0 < a -> mean_level_spacing (map (fun e => a * e + b) E) = mean_level_spacing E).
Proof.
  intros H Hl. split; [apply mean_level_spacing_value; assumption|]. split; [apply mean_ratio_bounds; assumption|]. intros a b Ha.
  rewrite (mean_level_spacing_value E H Hl), mean_level_spacing_value; [rewrite mean_ratio_affine by assumption; reflexivity|apply increasing_affine; assumption|rewrite map_length; exact Hl].
Qed.
Print Assumptions C47_level_spacing.
(* all other lists: an exception for energies that are not ascending and for the empty list, nan for repeated energies and for one or two energies *)
Theorem C47_level_spacing_rejects E :
  ((exists n, (S n < length E)%nat /\ nth (S n) E 0 < nth n E 0) <-> unsorted E = true) /\
  (unsorted E = true -> mean_level_spacing E = None) /\
  ((forall n, (S n < length E)%nat -> nth n E 0 <= nth (S n) E 0) -> (exists n, (S n < length E)%nat /\ nth n E 0 = nth (S n) E 0) -> mean_level_spacing E = Some Nan) /\
  (increasing E -> (1 <= length E <= 2)%nat -> mean_level_spacing E = Some Nan) /\
  mean_level_spacing [] = None.
Proof.
  split; [|split; [|split; [|split; [|reflexivity]]]].
  - destruct (unsorted E) eqn:U; split; try (intros _; reflexivity); try discriminate.
    + intros _. assert (Hn : ~ (forall n, (S n < length E)%nat -> nth n E 0 <= nth (S n) E 0)) by (intros Hc; apply unsorted_false in Hc; congruence).
      clear U. induction E as [|x E IH]; [destruct Hn; intros n Hl; cbn in Hl; lia|]. destruct E as [|y E]; [destruct Hn; intros n Hl; cbn in Hl; lia|].
      destruct (Rlt_dec y x) as [Hl|Hl]; [exists 0%nat; split; [cbn [length]; lia|exact Hl]|]. destruct IH as [n [Hn1 Hn2]]; [|exists (S n); split; [cbn [length] in *; lia|exact Hn2]].
      intros Hc. apply Hn. intros [|n] Hk; [cbn [nth]; lra|]. apply (Hc n). cbn [length] in *. lia.
    + intros [n [H1 H2]]. pose proof (proj1 (unsorted_false E) U n H1). lra.
  - intros U. unfold mean_level_spacing. rewrite U. reflexivity.
  - intros Hs [n [H1 H2]]. unfold mean_level_spacing. rewrite (proj2 (unsorted_false E) Hs). destruct (repeated E) eqn:U; [reflexivity|]. destruct (proj1 (repeated_false E) U n H1 H2).
  - intros H Hl. unfold mean_level_spacing. rewrite (increasing_unsorted E H), (increasing_repeated E H). destruct E as [|x [|y [|z E]]]; cbn [length] in Hl; try lia; reflexivity.
Qed.
Print Assumptions C47_level_spacing_rejects.
Example C47_level_spacing_example : increasing [0; 1; 3; 4] /\ mean_ratio [0; 1; 3; 4] = 1 / 2.
Proof.
  split; [intros [|[|[|n]]] H; cbn [nth]; cbn [length] in H; try lra; lia|].
  unfold mean_ratio, spacing. cbn [length Nat.sub seq nth INR]. unfold Rsum. cbn [fold_right]. unfold Rmin, Rmax. cbn [nth]. repeat destruct (Rle_dec _ _); lra.
Qed.
