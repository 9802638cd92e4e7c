(* C27: the parallel matrix exponential action: s steps of the order-m Taylor polynomial of exp((a/s)(A - mu)) times exp(a mu/s), for every number of
   threads and every interleaving; when a step stops early; what is not as documented. *)
From Verif Require Import AuxN SpecC SpecSparse SpecExpm M_sparse M_expm P_expm2 P_expm3 P_expm4.
Local Open Scope nat_scope.

(* The kernel: m AF is the vector F on entry, m' AF on exit; m AB1, m AB2 is whatever the work array contains.  Step i > 0 stops before order m_star
   only if the last two terms are below the tolerance; in step 0 the check at order 1 looks only at the last term. *)
Theorem C27_kernel : forall T n Ap Aj Ax s m_star tol mu a (m m' : amem), valid_ptr n n Ap Aj -> 0 < T -> 0 < s ->
  expm_multiply T T n Ap Aj Ax s m_star tol mu a m m' ->
  let A := csr_entry Ap Aj Ax in let z := (RtoC (/ INR s) * a)%C in
  truncated_exp n A mu z (Cexp (a * (RtoC (/ INR s) * mu))) s m_star
    (fun i => if i =? 0 then small_terms_first n A mu z tol else small_terms n A mu z tol)
    (fun k => m AF (Z.of_nat k)) (fun k => m' AF (Z.of_nat k)).
Proof. exact (fun T n Ap Aj Ax s m_star tol mu a m m' V HT Hs H => expm_ok T n Ap Aj Ax s m_star tol mu a V HT m m' Hs H). Qed.
Print Assumptions C27_kernel.

(* The method dot: mu is the trace of A over n; fragment is the pair (m, s) chosen by scipy.  The result does not depend on the number of threads, the
   interleaving, or the content of the work array. *)
Theorem C27_threads : forall T T' n Ap Aj Ax a tol fragment v res res', valid_ptr n n Ap Aj -> 0 < T -> 0 < T' -> 0 < snd fragment ->
  expm_dot T T n Ap Aj Ax a tol fragment v res -> expm_dot T' T' n Ap Aj Ax a tol fragment v res' -> forall k, k < n -> res k = res' k.
Proof. exact (fun T T' n Ap Aj Ax a tol fragment v res res' V HT HT' Hf => dot_unique T T' n Ap Aj Ax a tol fragment v v res res' V HT HT' Hf (fun _ _ => eq_refl)). Qed.
Print Assumptions C27_threads.
Theorem C27_runs : forall T n Ap Aj Ax a tol fragment v, valid_ptr n n Ap Aj -> 0 < T -> exists res, expm_dot T T n Ap Aj Ax a tol fragment v res.
Proof. exact dot_runs. Qed.
Print Assumptions C27_runs.

(* dot in terms of the specification, when |a| times the computed norm is not 0 *)
Theorem C27_dot_partial : forall T n Ap Aj Ax a tol m s v res, valid_ptr n n Ap Aj -> 0 < T -> 0 < s ->
  let A := csr_entry Ap Aj Ax in let mu := (RtoC (/ INR n) * Csum (seq 0 n) (fun i => A i i))%C in let z := (RtoC (/ INR s) * a)%C in
  (Cabs a * csr_1_norm n Ap Aj mu Ax <> 0)%R ->
  expm_dot T T n Ap Aj Ax a tol (m, s) v res ->
  truncated_exp n A mu z (Cexp (a * (RtoC (/ INR s) * mu))) s m (fun i => if i =? 0 then small_terms_first n A mu z tol else small_terms n A mu z tol) v res.
Proof.
  intros T n Ap Aj Ax a tol m s v res V HT Hs A mu z Hn H. pose proof (dot_ok T n Ap Aj Ax a tol (m, s) v res V HT Hs H) as X. cbv zeta in X.
  assert (E : trace_shift n Ap Aj Ax = mu) by (unfold trace_shift; rewrite trace_ok; reflexivity). rewrite E in X.
  unfold partition in X. destruct (Req_EM_T _ _) as [F|_]; [contradiction|]. exact X.
Qed.
Print Assumptions C27_dot_partial.
(* without an early stop the result is the s-fold application of eta times the Taylor polynomial of order m *)
Theorem C27_full_order : forall n A mu z eta s m stop v w, truncated_exp n A mu z eta s m stop v w ->
  let P := fun u k => (eta * taylor_sum n A mu z m u k)%C in
  (forall i x j, i < s -> 1 <= j < m -> (forall k, k < n -> x k = Nat.iter i P v k) -> ~ stop i x j) ->
  forall k, k < n -> w k = Nat.iter s P v k.
Proof.
  intros n A mu z eta s m stop v w H P N k Hk. assert (E : forall i, Nat.iter i P v = iterate i P v) by (induction i as [|i IH]; [reflexivity|change (P (Nat.iter i P v) = P (iterate i P v)); rewrite IH; reflexivity]).
  rewrite E. apply (full_order n A mu z eta s m stop v w H); [|exact Hk]. intros i x j Hi Hj Hx. apply (N i x j Hi Hj). intros k' Hk'. rewrite E. apply Hx. exact Hk'.
Qed.
Print Assumptions C27_full_order.
(* the case in which no terms are computed: then a = 0 or A = 0 and the result is v *)
Theorem C27_zero : forall T n Ap Aj Ax a tol fragment v res, valid_ptr n n Ap Aj -> 0 < T -> 0 < n ->
  (Cabs a * csr_1_norm n Ap Aj (trace_shift n Ap Aj Ax) Ax = 0)%R -> 0 < snd fragment -> expm_dot T T n Ap Aj Ax a tol fragment v res ->
  (forall k, k < n -> res k = v k) /\ (a = C0 \/ forall i j, i < n -> csr_entry Ap Aj Ax i j = C0).
Proof. exact dot_zero. Qed.
Print Assumptions C27_zero.

(* The first step can stop although the two last terms are not small, because the norm of the initial vector is never recorded.  For every tolerance
   there is a 3 x 3 matrix for which the last component of the result is 0 instead of 1/2 *)
Theorem C27_first_step_refuted : forall tol T, (0 < tol < 1)%R -> 0 < T ->
  exists Ap Aj Ax v, valid_ptr 3 3 Ap Aj /\ Csum (seq 0 3) (fun i => csr_entry Ap Aj Ax i i) = C0 /\
    ~ small_terms 3 (csr_entry Ap Aj Ax) C0 C1 tol v 1 /\
    taylor_sum 3 (csr_entry Ap Aj Ax) C0 C1 2 v 2 = RtoC (1 / 2) /\
    (exists res, expm_dot T T 3 Ap Aj Ax C1 tol (2, 1) v res) /\
    (forall res, expm_dot T T 3 Ap Aj Ax C1 tol (2, 1) v res -> res 2 = C0).
Proof.
  intros tol T Ht HT. exists c_Ap, c_Aj, (c_Ax tol), c_v. split; [exact c_valid|]. split; [unfold Csum, csr_entry, Csum, c_Aj; cbn; ring|].
  split; [apply c_small_first; assumption|]. destruct (C27_runs T 3 c_Ap c_Aj (c_Ax tol) C1 tol (2, 1) c_v c_valid HT) as [res H]. split; [|split].
  - destruct (first_step_exit tol T res Ht HT H) as [_ ->]. f_equal. lra.
  - exists res. exact H.
  - intros res' H'. apply (first_step_exit tol T res' Ht HT H').
Qed.
Print Assumptions C27_first_step_refuted.

(* The number handed to scipy's choice of (m, s) as the 1-norm of A - mu is not that norm, even for a Hermitian matrix: row sums of A + mu are taken *)
Theorem C27_norm_refuted : exists n Ap Aj Ax, valid_ptr n n Ap Aj /\ (forall i j, i < n -> j < n -> csr_entry Ap Aj Ax i j = Cconj (csr_entry Ap Aj Ax j i)) /\
  let mu := trace_shift n Ap Aj Ax in (csr_1_norm n Ap Aj mu Ax < one_norm n (csr_entry Ap Aj Ax) mu)%R.
Proof.
  exists 3, (fun i => i), (fun k => k), d_Ax. split; [exact d_valid|]. split.
  - intros i j Hi Hj. rewrite !d_entry by assumption. rewrite Nat.eqb_sym. destruct (Nat.eqb_spec j i) as [-> |_]; [destruct i as [|i]; apply C_eq; cbn; ring|apply C_eq; cbn; ring].
  - cbv zeta. rewrite d_trace, d_norm. pose proof d_one_norm. lra.
Qed.
Print Assumptions C27_norm_refuted.

(* If the parallel region gets one thread while omp_get_max_threads() returned 2, the last entry of the vector is not multiplied by exp(a mu) *)
Theorem C27_smaller_team_refuted : exists n Ap Aj Ax mu a, valid_ptr n n Ap Aj /\ Cexp (a * mu) <> C1 /\
  forall tol (m m' : amem), expm_multiply 1 2 n Ap Aj Ax 1 0 tol mu a m m' -> m' AF (Z.of_nat (n - 1)) = m AF (Z.of_nat (n - 1)).
Proof.
  exists 2, (fun i => i), (fun k => k), (fun _ => C1), C1, C1. split; [split; [reflexivity|split; intros; lia]|]. split.
  - intros E. apply (f_equal fst) in E. unfold Cexp, cis in E. cbn in E. replace (1 * 0 + 0 * 1)%R with 0%R in E by ring. rewrite cos_0, sin_0 in E.
    replace (1 * 1 - 0 * 0)%R with 1%R in E by ring. pose proof (exp_ineq1 1 ltac:(lra)). lra.
  - intros tol m m'. apply small_team. lia.
Qed.
Print Assumptions C27_smaller_team_refuted.

(* two steps of order 3 for the matrix with one entry 1 in the corner, three threads: exp(A) e1 = e0 + e1 *)
Example C27_example : forall res, expm_dot 3 3 2 (fun i => match i with 0 => 0 | _ => 1 end) (fun _ => 1) (fun _ => C1) C1 0 (3, 2) (fun k => if k =? 1 then C1 else C0) res ->
  res 0 = C1 /\ res 1 = C1.
Proof.
  intros res H. set (Ap := fun i => match i with 0 => 0 | _ => 1 end) in *.
  assert (V : valid_ptr 2 2 Ap (fun _ => 1)) by (split; [reflexivity|]; split; [intros i Hi; destruct i as [|[|i]]; cbn; lia|intros; lia]).
  set (A := csr_entry Ap (fun _ => 1) (fun _ => C1)).
  assert (EA : forall i j, A i j = if ((i =? 0) && (j =? 1))%bool then C1 else C0).
  { intros i j. unfold A, csr_entry, Ap. destruct i as [|[|i]]; cbn; try reflexivity. destruct j as [|[|j]]; cbn; try ring. }
  assert (E0 : (RtoC (/ INR 2) * Csum (seq 0 2) (fun i => A i i))%C = C0) by (unfold Csum; cbn [seq fold_right]; rewrite !EA; cbn [Nat.eqb andb]; ring).
  assert (HX := C27_dot_partial 3 2 Ap (fun _ => 1) (fun _ => C1) C1 0 3 2 (fun k => if k =? 1 then C1 else C0) res V ltac:(lia) ltac:(lia)). cbv zeta in HX. fold A in HX.
  rewrite E0 in HX. specialize (HX ltac:(unfold csr_1_norm, loop; cbn; change C1 with (RtoC 1); rewrite !Cabs_R, Rabs_R1, Rplus_0_l, Rmax_left by lra; lra) H).
  assert (Sh : forall v k, k < 2 -> shifted 2 A C0 v k = if k =? 0 then v 1 else C0).
  { intros v k Hk. unfold shifted, Csum. cbn [seq fold_right]. rewrite !EA. destruct k as [|[|k]]; [..|lia]; cbn [Nat.eqb andb]; ring. }
  assert (T2 : forall z v j k, k < 2 -> taylor_term 2 A C0 z (S (S j)) v k = C0).
  { intros z v j k Hk. unfold taylor_term. cbn [shifted_pow]. rewrite Sh by exact Hk. rewrite Sh by lia. destruct (k =? 0); cbn [Nat.eqb]; ring. }
  destruct HX as (vs & J & B0 & Bw & Bs). set (z := (RtoC (/ INR 2) * C1)%C) in *.
  assert (St : forall i, i < 2 -> vs (S i) 0 = (vs i 0 + z * vs i 1)%C /\ vs (S i) 1 = vs i 1).
  { intros i Hi. destruct (Bs i Hi) as [[HJ [_ HJ3]] Bv]. rewrite !Bv by lia.
    assert (J2 : 1 <= J i). { destruct (Nat.eq_dec (J i) 3); [lia|]. destruct (HJ3 ltac:(lia)). assumption. }
    assert (Su : forall k, k < 2 -> taylor_sum 2 A C0 z (J i) (vs i) k = (taylor_term 2 A C0 z 0 (vs i) k + taylor_term 2 A C0 z 1 (vs i) k)%C).
    { intros k Hk. unfold taylor_sum. destruct (J i) as [|j]; [lia|]. cbn [seq]. rewrite !Csum_cons, Csum_zero; [ring|].
      intros x Hx. apply in_seq in Hx. destruct x as [|[|x]]; [lia|lia|apply T2; assumption]. }
    rewrite !Su by lia. rewrite !taylor_0. unfold taylor_term. cbn [shifted_pow Cpow]. rewrite !Sh by lia. cbn [Nat.eqb].
    replace (Cexp (C1 * (RtoC (/ INR 2) * C0))) with C1 by (rewrite <- Cexp_0; f_equal; ring).
    replace (RtoC (/ INR (fact 1))) with C1 by (apply C_eq; cbn; lra). split; ring. }
  destruct (St 0 ltac:(lia)) as [S1 S2]. rewrite !B0 in S1, S2 by lia. cbn [Nat.eqb] in S1, S2.
  destruct (St 1 ltac:(lia)) as [S3 S4]. rewrite S1, S2 in S3. rewrite S2 in S4.
  rewrite !Bw by lia. rewrite S3, S4. split; [|reflexivity]. unfold z. rewrite (B0 1) by lia. apply C_eq; cbn; lra.
Qed.
