(* dot, trace, norm, and the cases in which the documented behaviour fails. *)
From Verif Require Import AuxN SpecC SpecSparse SpecExpm M_sparse M_expm P_sparse P_sparse3 P_sparse4 P_expm P_expm2.
Local Open Scope nat_scope.

Lemma dot_ok T n Ap Aj Ax a tol fragment v res : valid_ptr n n Ap Aj -> 0 < T -> 0 < snd fragment -> expm_dot T T n Ap Aj Ax a tol fragment v res ->
  let mu := trace_shift n Ap Aj Ax in
  let (m_star, s) := partition a (csr_1_norm n Ap Aj mu Ax) fragment in
  truncated_exp n (csr_entry Ap Aj Ax) mu (over a s) (Cexp (a * over mu s)) s m_star (stop_in n Ap Aj Ax s tol mu a) v res.
Proof.
  intros V HT Hf H. cbv zeta. unfold expm_dot in H. cbv zeta in H.
  destruct (partition a _ fragment) as [m_star s] eqn:E. destruct H as [m [m' [Hv [H Hr]]]].
  assert (Hs : 0 < s). { unfold partition in E. destruct (Req_EM_T _ _); [injection E as _ <-; lia|]. rewrite E in Hf. exact Hf. }
  destruct (expm_ok T n Ap Aj Ax s m_star tol _ a V HT m m' Hs H) as [vs [J [E0 [Ew Es]]]].
  exists vs, J. split; [|split]; [..|exact Es].
  - intros k Hk. rewrite E0, Hv by assumption. reflexivity.
  - intros k Hk. rewrite Hr by assumption. apply Ew. assumption.
Qed.
Lemma dot_unique T T' n Ap Aj Ax a tol fragment v v' res res' : valid_ptr n n Ap Aj -> 0 < T -> 0 < T' -> 0 < snd fragment -> (forall k, k < n -> v k = v' k) ->
  expm_dot T T n Ap Aj Ax a tol fragment v res -> expm_dot T' T' n Ap Aj Ax a tol fragment v' res' -> forall k, k < n -> res k = res' k.
Proof.
  intros V HT HT' Hf Ev H H'. pose proof (dot_ok T n Ap Aj Ax a tol fragment v res V HT Hf H) as X.
  pose proof (dot_ok T' n Ap Aj Ax a tol fragment v' res' V HT' Hf H') as X'. cbv zeta in X, X'.
  destruct (partition a _ fragment) as [m_star s]. eapply truncated_unique; [| |exact X|exact X']; [|exact Ev].
  intros i x y j E. apply stop_in_ext. exact E.
Qed.
Lemma dot_runs T n Ap Aj Ax a tol fragment v : valid_ptr n n Ap Aj -> 0 < T -> exists res, expm_dot T T n Ap Aj Ax a tol fragment v res.
Proof.
  intros V HT. unfold expm_dot. cbv zeta. destruct (partition _ _ _) as [m_star s].
  destruct (expm_runs T n Ap Aj Ax s m_star tol (trace_shift n Ap Aj Ax) a V HT (fun x p => v (Z.to_nat p))) as [m' H].
  exists (fun k => m' AF (Zn k)), (fun x p => v (Z.to_nat p)), m'. split; [intros k _; rewrite Nat2Z.id; reflexivity|]. split; [exact H|reflexivity].
Qed.

(* no step stops early: the s-th power of eta times the Taylor polynomial *)
Fixpoint iterate (s : nat) (f : vec -> vec) (v : vec) : vec := match s with O => v | S s' => f (iterate s' f v) end.
Lemma full_order n A mu z eta s m stop v w : truncated_exp n A mu z eta s m stop v w ->
  (forall i x j, i < s -> 1 <= j < m -> (forall k, k < n -> x k = iterate i (fun u k => eta * taylor_sum n A mu z m u k)%C v k) -> ~ stop i x j) ->
  forall k, k < n -> w k = iterate s (fun u k => eta * taylor_sum n A mu z m u k)%C v k.
Proof.
  intros (vs & J & E0 & Ew & Es) N k Hk. rewrite Ew by assumption.
  assert (X : forall i, i <= s -> forall k, k < n -> vs i k = iterate i (fun u k => eta * taylor_sum n A mu z m u k)%C v k).
  { induction i as [|i IH]; intros Hi k0 Hk0; [apply E0; assumption|]. destruct (Es i ltac:(lia)) as [[H1 [_ H3]] X]. rewrite X by assumption. cbn [iterate].
    assert (EJ : J i = m). { destruct (Nat.eq_dec (J i) m) as [E|E]; [exact E|]. destruct (H3 ltac:(lia)) as [H4 H5]. exfalso. apply (N i (vs i) (J i)); [lia|lia|apply IH; lia|exact H5]. }
    rewrite EJ. f_equal. apply taylor_sum_ext; [apply IH; lia|assumption]. }
  apply X; [lia|assumption].
Qed.

(* ---- trace ---- *)
Lemma loop_cond a b (p : nat -> bool) (v : nat -> C) s : loop a b (fun k s => if p k then (s + v k)%C else s) s = (s + Csum (seq a (b - a)) (fun k => if p k then v k else C0))%C.
Proof.
  rewrite (loop_ext a b _ (fun k s => (s + (if p k then v k else C0))%C)); [apply loop_sum|]. intros k st _. destruct (p k); [reflexivity|ring].
Qed.
Lemma trace_ok n Ap Aj Ax : csr_trace n Ap Aj Ax = Csum (seq 0 n) (fun i => csr_entry Ap Aj Ax i i).
Proof.
  unfold csr_trace. rewrite (loop_ext 0 n _ (fun i t => (t + csr_entry Ap Aj Ax i i)%C)).
  - rewrite loop_sum, Nat.sub_0_r. ring.
  - intros i t _. rewrite loop_cond. unfold csr_entry. ring.
Qed.
(* ---- the norm ---- *)
Definition row_part Ap Aj (shift : C) (Ax : nat -> C) (i : nat) : R :=
  loop (Ap i) (Ap (S i)) (fun jj sum => if Aj jj =? i then (sum + Cabs (shift + Ax jj)%C)%R else (sum + Cabs (Ax jj))%R) 0%R.
Lemma row_part_zero Ap Aj shift Ax i : (row_part Ap Aj shift Ax i <= 0)%R ->
  forall k, Ap i <= k < Ap (S i) -> (if Aj k =? i then (shift + Ax k)%C else Ax k) = C0.
Proof.
  unfold row_part, loop. intros H k Hk. assert (Hin : In k (seq (Ap i) (Ap (S i) - Ap i))) by (apply in_seq; lia).
  set (f := fun st jj => _) in H. assert (Mono : forall l c, (c <= fold_left f l c)%R /\ (forall j, In j l -> (Cabs (if Aj j =? i then (shift + Ax j)%C else Ax j) <= fold_left f l c - c)%R)).
  { induction l as [|x l IH]; intros c; [split; [apply Rle_refl|intros j []]|]. cbn [fold_left].
    assert (Ex : f c x = (c + Cabs (if Aj x =? i then (shift + Ax x)%C else Ax x))%R) by (unfold f; destruct (Aj x =? i); reflexivity).
    pose proof (Cabs_pos (if Aj x =? i then (shift + Ax x)%C else Ax x)) as Hp. destruct (IH (f c x)) as [I1 I2].
    split; [lra|]. intros j [<- |Hj]; [lra|]. specialize (I2 j Hj). lra. }
  destruct (Mono (seq (Ap i) (Ap (S i) - Ap i)) 0%R) as [_ M]. specialize (M k Hin).
  set (c := if Aj k =? i then _ else _) in *. pose proof (Cabs_pos c). assert (Z : Cabs c = 0%R) by lra.
  pose proof (Cabs_sq c) as Q. rewrite Z in Q. apply C_eq; cbn; nra.
Qed.
Lemma norm_zero n Ap Aj Ax : 0 < n -> csr_1_norm n Ap Aj (trace_shift n Ap Aj Ax) Ax = 0%R ->
  trace_shift n Ap Aj Ax = C0 /\ (forall i j, i < n -> csr_entry Ap Aj Ax i j = C0).
Proof.
  intros Hn H. set (mu := trace_shift n Ap Aj Ax) in *.
  assert (Z : forall i k, i < n -> Ap i <= k < Ap (S i) -> (if Aj k =? i then (mu + Ax k)%C else Ax k) = C0).
  { intros i k Hi. apply row_part_zero. destruct (max_element_spec n (row_part Ap Aj mu Ax) Hn) as [M _]. specialize (M i Hi). unfold csr_1_norm in H.
    fold (row_part Ap Aj mu Ax) in H. change (max_element n (row_part Ap Aj mu Ax) = 0%R) in H. rewrite H in M. exact M. }
  (* every stored diagonal entry is -mu, so n mu = trace = - count mu *)
  assert (D : forall i, i < n -> exists c : nat, csr_entry Ap Aj Ax i i = (- (RtoC (INR c) * mu))%C).
  { intros i Hi. unfold csr_entry. assert (Hl : forall k, In k (seq (Ap i) (Ap (S i) - Ap i)) -> Ap i <= k < Ap (S i)) by (intros k Hk; apply in_seq in Hk; lia).
    revert Hl. generalize (seq (Ap i) (Ap (S i) - Ap i)). induction l as [|k l IH]; intros Hl; [exists 0; cbn; change (RtoC 0) with C0; ring|].
    destruct IH as [c E]; [intros; apply Hl; right; assumption|]. rewrite Csum_cons, E. specialize (Z i k Hi (Hl k (or_introl eq_refl))).
    destruct (Aj k =? i); [|exists c; ring]. exists (S c). rewrite S_INR, RtoC_add. change (RtoC 1) with C1.
    replace (Ax k) with (- mu)%C; [ring|]. replace (- mu)%C with (- (mu + Ax k) + Ax k)%C by ring. rewrite Z. ring. }
  assert (S : exists c : nat, csr_trace n Ap Aj Ax = (- (RtoC (INR c) * mu))%C).
  { rewrite trace_ok. assert (Hl : forall k, In k (seq 0 n) -> k < n) by (intros k Hk; apply in_seq in Hk; lia). revert Hl.
    generalize (seq 0 n). induction l as [|i l IH]; intros Hl; [exists 0; cbn; change (RtoC 0) with C0; ring|].
    destruct IH as [c E]; [intros; apply Hl; right; assumption|]. destruct (D i (Hl i (or_introl eq_refl))) as [d E2].
    exists (d + c). rewrite Csum_cons, E, E2, plus_INR, RtoC_add. ring. }
  assert (M0 : mu = C0).
  { destruct S as [c E]. assert (Em : mu = over (csr_trace n Ap Aj Ax) n) by reflexivity. rewrite E in Em. unfold over in Em.
    pose proof (lt_0_INR n Hn) as Pn. pose proof (pos_INR c) as Pc.
    assert (K : (RtoC (1 + / INR n * INR c) * mu)%C = C0).
    { rewrite RtoC_add, RtoC_mul. change (RtoC 1) with C1. replace ((C1 + RtoC (/ INR n) * RtoC (INR c)) * mu)%C with (mu - RtoC (/ INR n) * (- (RtoC (INR c) * mu)))%C by ring.
      rewrite <- Em. ring. }
    destruct (Cmul_integral _ _ K) as [K1|K1]; [|exact K1]. exfalso. apply (f_equal fst) in K1. cbn in K1.
    pose proof (Rinv_0_lt_compat _ Pn). nra. }
  split; [exact M0|]. intros i j Hi. unfold csr_entry. apply Csum_zero. intros k Hk. apply in_seq in Hk.
  specialize (Z i k Hi ltac:(lia)). rewrite M0 in Z. destruct (Aj k =? j); [|reflexivity]. destruct (Aj k =? i); [|exact Z]. rewrite <- Z. ring.
Qed.
Lemma Cexp_0 : Cexp C0 = C1.
Proof. unfold Cexp. cbn [fst snd C0]. rewrite exp_0, cis_0. change (RtoC 1) with C1. ring. Qed.
Lemma over_C0 d : over C0 d = C0. Proof. unfold over. ring. Qed.
Lemma dot_zero T n Ap Aj Ax a tol fragment v res : valid_ptr n n Ap Aj -> 0 < T -> 0 < n ->
  (Cabs a * csr_1_norm n Ap Aj (trace_shift n Ap Aj Ax) Ax = 0)%R -> 0 < snd fragment ->
  expm_dot T T n Ap Aj Ax a tol fragment v res ->
  (forall k, k < n -> res k = v k) /\ (a = C0 \/ forall i j, i < n -> csr_entry Ap Aj Ax i j = C0).
Proof.
  intros V HT Hn E Hf H. pose proof (dot_ok T n Ap Aj Ax a tol fragment v res V HT Hf H) as X. cbv zeta in X. unfold partition in X.
  destruct (Req_EM_T _ _) as [_|F]; [|contradiction].
  assert (B : a = C0 \/ (trace_shift n Ap Aj Ax = C0 /\ forall i j, i < n -> csr_entry Ap Aj Ax i j = C0)).
  { apply Rmult_integral in E. destruct E as [E|E]; [left|right; apply norm_zero; assumption]. pose proof (Cabs_sq a) as Q. rewrite E in Q. apply C_eq; cbn; nra. }
  split; [|destruct B as [B|[_ B]]; [left|right]; exact B].
  assert (Eeta : Cexp (a * over (trace_shift n Ap Aj Ax) 1) = C1).
  { rewrite <- Cexp_0. f_equal. destruct B as [-> |[-> _]]; [ring|]. rewrite over_C0. ring. }
  rewrite Eeta in X. destruct X as (vs & J & E0 & Ew & Es). intros k Hk. rewrite Ew by assumption. destruct (Es 0 ltac:(lia)) as [[HJ _] Es0]. rewrite Es0 by assumption.
  replace (J 0) with 0 by lia. unfold taylor_sum. cbn [seq]. rewrite Csum_cons, Csum_nil, taylor_0, E0 by assumption. ring.
Qed.
