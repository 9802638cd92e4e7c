(* Counterexamples: early exit in the first step, the 1-norm, a team that is smaller than expected. *)
From Verif Require Import AuxN SpecC SpecSparse SpecExpm M_sparse M_expm P_sparse P_sparse3 P_sparse4 P_expm P_expm2 P_expm3.
Local Open Scope nat_scope.

Lemma Cabs_R x : Cabs (RtoC x) = Rabs x.
Proof. unfold Cabs. cbn. rewrite Rmult_0_l, Rplus_0_r. apply sqrt_Rsqr_abs. Qed.

(* e0 -> eps e1 -> e2 *)
Definition c_Ap (i : nat) : nat := match i with 0 => 0 | 1 => 0 | 2 => 1 | _ => 2 end.
Definition c_Aj (k : nat) : nat := k.
Definition c_Ax (eps : R) (k : nat) : C := match k with 0 => RtoC eps | _ => RtoC (/ eps) end.
Definition c_v (k : nat) : C := match k with 0 => C1 | _ => C0 end.
Lemma c_valid : valid_ptr 3 3 c_Ap c_Aj.
Proof.
  split; [reflexivity|]. split; [intros i Hi; destruct i as [|[|[|i]]]; cbn; lia|]. intros k Hk. cbn in Hk. unfold c_Aj. lia.
Qed.
Lemma c_shift eps v : forall k, k < 3 -> shifted 3 (csr_entry c_Ap c_Aj (c_Ax eps)) C0 v k = match k with 0 => C0 | 1 => (RtoC eps * v 0)%C | _ => (RtoC (/ eps) * v 1)%C end.
Proof. intros k Hk. destruct k as [|[|[|k]]]; [..|lia]; unfold shifted, Csum, csr_entry, Csum, c_Aj, c_Ax; cbn; ring. Qed.
Lemma c_trace eps : trace_shift 3 c_Ap c_Aj (c_Ax eps) = C0.
Proof. unfold trace_shift. rewrite trace_ok. unfold Csum, csr_entry, Csum, c_Aj. cbn. unfold over. ring. Qed.
Lemma over_1 z : over z 1 = z.
Proof. unfold over. cbn. rewrite Rinv_1. change (RtoC 1) with C1. ring. Qed.
Lemma c_term1 eps k : k < 3 -> taylor_term 3 (csr_entry c_Ap c_Aj (c_Ax eps)) C0 C1 1 c_v k = match k with 1 => RtoC eps | _ => C0 end.
Proof.
  intros Hk. rewrite taylor_S, over_1, (shifted_ext 3 _ C0 _ c_v) by (intros; apply taylor_0 || assumption).
  rewrite c_shift by assumption. destruct k as [|[|[|k]]]; [..|lia]; cbn; ring.
Qed.
Lemma c_term2 eps k : (0 < eps)%R -> k < 3 -> taylor_term 3 (csr_entry c_Ap c_Aj (c_Ax eps)) C0 C1 2 c_v k = match k with 2 => RtoC (/ 2) | _ => C0 end.
Proof.
  intros He Hk. rewrite taylor_S, (shifted_ext 3 _ C0 _ _ (c_term1 eps)) by assumption.
  rewrite c_shift by assumption. unfold over. destruct k as [|[|[|k]]]; [..|lia]; cbn [c_v]; rewrite <- ?RtoC_mul.
  - ring.
  - ring.
  - apply C_eq; cbn; field; lra.
Qed.
Lemma c_sum1 eps k : k < 3 -> taylor_sum 3 (csr_entry c_Ap c_Aj (c_Ax eps)) C0 C1 1 c_v k = match k with 0 => C1 | 1 => RtoC eps | _ => C0 end.
Proof.
  intros Hk. rewrite taylor_sum_S. unfold taylor_sum. cbn [seq]. rewrite Csum_cons, Csum_nil, taylor_0, c_term1 by assumption.
  destruct k as [|[|[|k]]]; [..|lia]; cbn [c_v]; ring.
Qed.
Lemma inf3 v : inf_norm 3 v = Rmax (Cabs (v 0)) (Rmax (Cabs (v 1)) (Rmax (Cabs (v 2)) 0)).
Proof. reflexivity. Qed.
Lemma c_norms eps : (0 < eps < 1)%R ->
  inf_norm 3 (taylor_term 3 (csr_entry c_Ap c_Aj (c_Ax eps)) C0 C1 0 c_v) = 1%R /\
  inf_norm 3 (taylor_term 3 (csr_entry c_Ap c_Aj (c_Ax eps)) C0 C1 1 c_v) = eps /\
  inf_norm 3 (taylor_sum 3 (csr_entry c_Ap c_Aj (c_Ax eps)) C0 C1 1 c_v) = 1%R.
Proof.
  intros He. assert (Z : Cabs C0 = 0%R) by (change C0 with (RtoC 0); rewrite Cabs_R; apply Rabs_R0).
  assert (O : Cabs C1 = 1%R) by (change C1 with (RtoC 1); rewrite Cabs_R; apply Rabs_R1).
  assert (Ee : Cabs (RtoC eps) = eps) by (rewrite Cabs_R; apply Rabs_pos_eq; lra).
  rewrite !inf3, !taylor_0, !c_term1, !c_sum1 by lia. cbn [c_v]. rewrite Z, O, Ee.
  rewrite !(Rmax_left 0 0), !(Rmax_left eps 0), !(Rmax_left 1 0), !(Rmax_right 0 eps), !(Rmax_left 1 eps) by lra. repeat split.
Qed.
Lemma c_small_first eps : (0 < eps < 1)%R -> small_terms_first 3 (csr_entry c_Ap c_Aj (c_Ax eps)) C0 C1 eps c_v 1 /\ ~ small_terms 3 (csr_entry c_Ap c_Aj (c_Ax eps)) C0 C1 eps c_v 1.
Proof.
  intros He. destruct (c_norms eps He) as [N0 [N1 N2]]. unfold small_terms_first, small_terms. cbn [Nat.eqb Nat.sub]. rewrite N0, N1, N2. split; lra.
Qed.
Lemma c_partition eps : (0 < eps)%R -> partition C1 (csr_1_norm 3 c_Ap c_Aj (trace_shift 3 c_Ap c_Aj (c_Ax eps)) (c_Ax eps)) (2, 1) = (2, 1).
Proof.
  intros He. unfold partition. destruct (Req_EM_T _ _) as [E|_]; [|reflexivity]. exfalso. apply Rmult_integral in E. destruct E as [E|E].
  - change C1 with (RtoC 1) in E. rewrite Cabs_R, Rabs_R1 in E. lra.
  - apply norm_zero in E; [|lia]. destruct E as [_ E]. specialize (E 1 0 ltac:(lia)). unfold csr_entry, Csum, c_Aj, c_Ax in E. cbn in E.
    apply (f_equal fst) in E. cbn in E. lra.
Qed.
Lemma first_step_exit eps T res : (0 < eps < 1)%R -> 0 < T -> expm_dot T T 3 c_Ap c_Aj (c_Ax eps) C1 eps (2, 1) c_v res ->
  res 2 = C0 /\ taylor_sum 3 (csr_entry c_Ap c_Aj (c_Ax eps)) C0 C1 2 c_v 2 = RtoC (/ 2).
Proof.
  intros He HT H. split.
  - pose proof (dot_ok T 3 c_Ap c_Aj (c_Ax eps) C1 eps (2, 1) c_v res c_valid HT ltac:(cbn; lia) H) as X. cbv zeta in X. rewrite c_partition in X by lra.
    rewrite c_trace, !over_1 in X. destruct X as (vs & J & E0 & Ew & Es). rewrite Ew by lia. destruct (Es 0 ltac:(lia)) as [[H1 [H2 H3]] E1]. rewrite E1 by lia.
    assert (S1 : stop_in 3 c_Ap c_Aj (c_Ax eps) 1 eps C0 C1 0 (vs 0) 1).
    { apply (stop_in_ext 3 c_Ap c_Aj (c_Ax eps) 1 eps C0 C1 0 (vs 0) c_v 1 E0). unfold stop_in. cbn [Nat.eqb]. rewrite over_1. apply c_small_first. assumption. }
    assert (EJ : J 0 = 1). { destruct (Nat.eq_dec (J 0) 2) as [E2|N2]; [exfalso; apply (H2 1); [lia|exact S1]|]. destruct (H3 ltac:(lia)). lia. }
    rewrite EJ, (taylor_sum_ext 3 _ C0 C1 _ c_v 1 E0) by lia. rewrite c_sum1 by lia. ring.
  - rewrite taylor_sum_S, c_sum1, c_term2 by (lra || lia). ring.
Qed.

(* ---- the norm ---- *)
(* the diagonal matrix (-10, 6, 6) *)
Definition d_Ax (k : nat) : C := match k with 0 => RtoC (-10) | _ => RtoC 6 end.
Lemma d_valid : valid_ptr 3 3 (fun i => i) (fun k => k).
Proof. split; [reflexivity|]. split; intros; lia. Qed.
Lemma d_entry i j : i < 3 -> csr_entry (fun i => i) (fun k => k) d_Ax i j = if i =? j then d_Ax i else C0.
Proof.
  intros Hi. unfold csr_entry. replace (S i - i) with 1 by lia. cbn [seq]. rewrite Csum_cons, Csum_nil. destruct (i =? j); ring.
Qed.
Lemma d_trace : trace_shift 3 (fun i => i) (fun k => k) d_Ax = RtoC (2 / 3).
Proof.
  unfold trace_shift. rewrite trace_ok. cbn [seq]. rewrite !Csum_cons, Csum_nil, !d_entry by lia. cbn [Nat.eqb d_Ax]. unfold over.
  apply C_eq; cbn; lra.
Qed.
Lemma d_norm : csr_1_norm 3 (fun i => i) (fun k => k) (RtoC (2 / 3)) d_Ax = (10 - 2 / 3)%R.
Proof.
  unfold csr_1_norm, loop. cbn. rewrite <- !RtoC_add, !Cabs_R.
  rewrite (Rabs_left (2 / 3 + -10)), (Rabs_right (2 / 3 + 6)) by lra. rewrite !Rplus_0_l. rewrite (Rmax_left (- (2 / 3 + -10)) (2 / 3 + 6)) by lra. rewrite Rmax_left by lra. lra.
Qed.
Lemma d_one_norm : (10 + 2 / 3 <= one_norm 3 (csr_entry (fun i => i) (fun k => k) d_Ax) (RtoC (2 / 3)))%R.
Proof.
  unfold one_norm. cbn [seq fold_right]. eapply Rle_trans; [|apply Rmax_l]. unfold column_sum, Rsum. cbn [seq fold_right]. rewrite !d_entry by lia. cbn [Nat.eqb d_Ax].
  assert (Z : forall x, (RtoC x - RtoC (2 / 3))%C = RtoC (x - 2 / 3)) by (intros; apply C_eq; cbn; ring).
  rewrite Z, Cabs_R, (Rabs_left (-10 - 2 / 3)) by lra. pose proof (Cabs_pos (C0 - C0)%C). lra.
Qed.

(* ---- a team of one thread where two are expected ---- *)
Lemma small_team n Ap Aj Ax tol mu a m m' : 2 <= n -> expm_multiply 1 2 n Ap Aj Ax 1 0 tol mu a m m' -> m' AF (Zn (n - 1)) = m AF (Zn (n - 1)).
Proof.
  intros Hn (m1 & r' & c1' & HP & HR).
  assert (X : forall body p (ma mb : amem) rr, (forall k i, In i (body k) -> snd (addr i) = Zn k) -> (n + 1) / 2 <= p ->
    phase 1 2 n body ma rr mb -> forall x, mb x (Zn p) = ma x (Zn p)).
  { intros body p ma mb rr HA Hp R x. destruct (run_ok 1 _ ma rr mb R (fun t _ q => exists k, k < (n + 1) / 2 /\ q = Zn k)) as [_ [_ X]].
    - intros t t' _ _ Ht Ht' _ _. lia.
    - intros t i Ht Hi. cbn [fst] in Hi. apply in_flat_map in Hi. destruct Hi as [k [Hk Hi]]. exists k. split; [|apply HA; assumption].
      replace t with 0 in Hk by lia. unfold chunk in Hk. apply in_seq in Hk. replace (n + 2 - 1) with (n + 1) in Hk by lia. lia.
    - apply X. intros t Ht [k [Hk E]]. apply Nat2Z.inj in E. lia. }
  assert (Hd : (n + 1) / 2 <= n - 1) by (pose proof (Nat.div_mod (n + 1) 2 ltac:(lia)); lia).
  inversion HR as [|? ? ? m2 c ? ? HO HR2]; subst. inversion HR2; subst. destruct HO as (m3 & c3 & r3 & old & HT & HE & _).
  inversion HT; subst. rewrite (X _ _ _ _ _ (end_addr _) Hd HE). apply (X _ _ _ _ _ init_addr Hd HP).
Qed.
