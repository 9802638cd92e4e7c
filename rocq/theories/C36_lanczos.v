(* C36: Lanczos bases.  n: dimension; A: the operator; eps: the cutoff, by default finfo(dtype).eps, which the generator always uses. *)
From Verif Require Import AuxN SpecC SpecExpm SpecLanczos M_lanczos P_lanczos.
Local Open Scope nat_scope.

(* the start vector is normalised by the code or already is *)
Definition good_start (n : nat) (eps : R) (v0 : vec) : Prop := norm n v0 = 1%R \/ (eps < Rabs (norm n v0 - 1))%R.

(* lanczos_full: whatever it returns is orthonormal, starts with v0 / |v0|, satisfies the recurrence, and T = Q^+ A Q *)
Theorem C36_full n A eps m fo v0 res : hermitian n A -> good_start n eps v0 -> lanczos_full n A eps m fo v0 = Some res ->
  lanczos_basis n A (vectors res) (diagonal res) (off res) /\ 1 <= length (vectors res) <= m /\
  forall k, (RtoC (norm n v0) * member (vectors res) 0 k = v0 k)%C.
Proof.
  intros HA G H. unfold lanczos_full in H. destruct (run n A eps m v0) as [l|] eqn:R; [|discriminate]. destruct (fo && stopped eps l); [discriminate|]. injection H as <-.
  destruct (run_iter n A eps m v0 l R) as [q0 [S [Hm [Hl [El [B [Be St]]]]]]]. destruct (start_unit n eps v0 q0 G S) as [N F]. cbn [vectors diagonal off].
  assert (X : exists M, 1 <= M <= length l /\ (if stopped eps l then length l - 1 else length l) = M).
  { destruct (stopped eps l) eqn:E; eexists; (split; [|reflexivity]); [|lia]. rewrite El in E. apply stopped_iter in E. destruct E as [E _]. lia. }
  destruct X as [M [HM ->]]. rewrite El, !map_map. rewrite !firstn_map_seq by lia.
  split; [|split].
  - apply basis_of; [exact HA|exact N|]. intros j Hj. apply B. lia.
  - rewrite map_length, seq_length. lia.
  - intros k. unfold member. rewrite nth_map_seq by lia. apply F.
Qed.
Print Assumptions C36_full.

(* lanczos_iter: the same for the vectors the generator yields *)
Theorem C36_iter n A eps m v0 aa bb g : hermitian n A -> good_start n eps v0 -> lanczos_iter n A eps eps m v0 = Some (aa, bb, g) ->
  exists qs, g = Some qs /\ lanczos_basis n A qs aa bb /\ 1 <= length qs <= m /\ forall k, (RtoC (norm n v0) * member qs 0 k = v0 k)%C.
Proof.
  intros HA G H. unfold lanczos_iter in H. destruct (run n A eps m v0) as [l|] eqn:R; [|discriminate]. injection H as <- <- <-.
  destruct (run_iter n A eps m v0 l R) as [q0 [S [Hm [Hl [El [B [Be St]]]]]]]. destruct (start_unit n eps v0 q0 G S) as [N F].
  exists (map (Q n A q0) (seq 0 (length l))). rewrite El, !map_map, map_length, seq_length. rewrite firstn_map_seq by lia. split; [|split; [|split]].
  - exact (vec_iter_eq n A eps q0 v0 (length l) S ltac:(lia)).
  - apply basis_of; assumption.
  - rewrite map_length, seq_length. lia.
  - intros k. unfold member. rewrite nth_map_seq by lia. apply F.
Qed.
Print Assumptions C36_iter.

(* the two variants fail together; they return the same coefficients and vectors unless the residual of the last vector is below eps *)
Theorem C36_variants n A eps m v0 : good_start n eps v0 ->
  (lanczos_iter n A eps eps m v0 = None <-> lanczos_full n A eps m false v0 = None) /\
  forall aa bb qs, lanczos_iter n A eps eps m v0 = Some (aa, bb, Some qs) ->
    (length qs = 1 \/ (eps <= norm n (residual n A qs aa bb))%R -> lanczos_full n A eps m false v0 = Some {| diagonal := aa; off := bb; vectors := qs |}) /\
    (2 <= length qs -> (norm n (residual n A qs aa bb) < eps)%R ->
       lanczos_full n A eps m false v0 = Some {| diagonal := removelast aa; off := removelast bb; vectors := removelast qs |}).
Proof.
  intros G. unfold lanczos_iter, lanczos_full. destruct (run n A eps m v0) as [l|] eqn:R.
  2: { split; [tauto|discriminate]. }
  split; [split; discriminate|]. intros aa bb qs E. injection E as <- <- E.
  destruct (run_iter n A eps m v0 l R) as [q0 [S [Hm [Hl [El [B [Be St]]]]]]]. destruct (start_unit n eps v0 q0 G S) as [N F].
  assert (Va : map a l = map (al n A q0) (seq 0 (length l))) by (rewrite El at 1; rewrite map_map; reflexivity).
  assert (Vb : firstn (length l - 1) (map b l) = map (be n A q0) (seq 0 (length l - 1))).
  { rewrite <- (firstn_map_seq (be n A q0) (length l)) by lia. f_equal. rewrite El at 1. rewrite map_map. reflexivity. }
  rewrite Va, Vb in E. rewrite (vec_iter_eq n A eps q0 v0 (length l) S ltac:(lia)) in E. injection E as Eq. symmetry in Eq.
  assert (Er : norm n (residual n A qs (map a l) (firstn (length l - 1) (map b l))) = be n A q0 (length l - 1)).
  { rewrite Va, Vb, (proj2 (proj2 (e_eqs n A q0 (length l - 1)))). unfold norm. f_equal. apply Rsum_ext. intros k _. 
    assert (Z : residual n A qs (map (al n A q0) (seq 0 (length l))) (map (be n A q0) (seq 0 (length l - 1))) k = r (e n A q0 (length l - 1)) k).
    { rewrite (proj1 (e_eqs n A q0 (length l - 1))). unfold residual, member. rewrite Eq, map_length, seq_length.
      rewrite !nth_map_seq by lia. unfold w, prev. destruct (length l - 1) as [|j] eqn:Ej; [reflexivity|]. rewrite !nth_map_seq by lia. reflexivity. }
    rewrite Z. reflexivity. }
  rewrite Er. assert (Lq : length qs = length l) by (rewrite Eq, map_length, seq_length; reflexivity). rewrite Lq.
  assert (Vq : map q l = qs). { rewrite Eq. rewrite El at 1. rewrite map_map. reflexivity. }
  cbn [andb]. split.
  - intros H. assert (St0 : stopped eps l = false).
    { destruct (stopped eps l) eqn:E0; [|reflexivity]. exfalso. rewrite El in E0. apply stopped_iter in E0. destruct H; [lia|]. destruct E0. lra. }
    rewrite St0. rewrite Vq. f_equal. f_equal; [rewrite <- (map_length a l) at 1; apply firstn_all|rewrite <- Lq at 1; apply firstn_all].
  - intros H2 Hb. assert (St1 : stopped eps l = true) by (rewrite El; apply stopped_iter; split; assumption). rewrite St1, Vq.
    rewrite !removelast_firstn_len. rewrite firstn_length, !map_length, Lq. rewrite firstn_firstn. replace (Nat.min (pred (Nat.min (length l - 1) (length l))) (length l - 1)) with (length l - 1 - 1) by lia. replace (pred (length l)) with (length l - 1) by lia. reflexivity.
Qed.
Print Assumptions C36_variants.

(* the variants can differ: the Krylov space of e_0 under this Hermitian matrix has dimension two; lanczos_iter finds both vectors and the
   exact tridiagonal matrix, lanczos_full drops the second and returns T = (0), though A A e_0 = e_0, so that A only has the eigenvalues 1 and -1 on the Krylov space; with
   full_ortho it raises *)
Definition flip3 (i j : nat) : C := match i, j with 0, 1 => C1 | 1, 0 => C1 | _, _ => C0 end.
Definition e0 : vec := fun k => delta k 0.
Definition e1 : vec := fun k => delta k 1.
Lemma norm_e i : i < 3 -> norm 3 (fun k => delta k i) = 1%R.
Proof. intros H. unfold norm, Rsum, delta. cbn [seq fold_right]. rewrite <- sqrt_1. f_equal. destruct i as [|[|[|i]]]; [| | |lia]; cbn; ring. Qed.
Lemma flip3_run eps : (0 < eps)%R -> exists l, run 3 flip3 eps 2 e0 = Some l /\ map a l = [0%R; 0%R] /\ map b l = [1%R; 0%R] /\ length l = 2.
Proof.
  intros P. assert (N0 : norm 3 e0 = 1%R) by (apply norm_e; lia). unfold run. cbn [Nat.leb]. unfold start. rewrite N0. replace (1 - 1)%R with 0%R by ring. rewrite Rabs_R0. destruct (Rlt_dec eps 0) as [L|_]; [lra|].
  assert (Na : norm 3 (fun k => delta k 1) = 1%R) by (apply norm_e; lia).
  assert (A0 : a (first 3 flip3 e0) = 0%R) by (unfold first, inner, apply, Csum, flip3, e0, delta; cbn; ring).
  assert (R0 : forall k, k < 3 -> r (first 3 flip3 e0) k = delta k 1).
  { intros k Hk. change (r (first 3 flip3 e0) k) with (apply 3 flip3 e0 k + RtoC (- a (first 3 flip3 e0)) * e0 k)%C. rewrite A0. unfold apply, Csum, flip3, e0, delta. destruct k as [|[|[|k]]]; [| | |lia]; apply C_eq; cbn; ring. }
  assert (NE : forall u v : vec, (forall k, k < 3 -> u k = v k) -> norm 3 u = norm 3 v) by (intros u v H; unfold norm; f_equal; apply Rsum_ext; intros k I; apply in_seq in I; rewrite H by lia; reflexivity).
  assert (B0 : b (first 3 flip3 e0) = 1%R) by (change (b (first 3 flip3 e0)) with (norm 3 (r (first 3 flip3 e0))); rewrite (NE _ _ R0); exact Na).
  cbn [loop]. rewrite B0. destruct (Req_EM_T 1 0) as [L|_]; [lra|]. set (e' := step 3 flip3 (first 3 flip3 e0)). cbv zeta.
  assert (Q1 : forall k, k < 3 -> q e' k = delta k 1). { intros k Hk. unfold e', step. cbn [q]. unfold over. rewrite B0, R0 by exact Hk. unfold delta. destruct (k =? 1); apply C_eq; cbn; lra. }
  assert (W1 : forall k, k < 3 -> (apply 3 flip3 (q e') k + RtoC (- b (first 3 flip3 e0)) * e0 k)%C = C0).
  { intros k Hk. rewrite B0. unfold apply, Csum. cbn [seq fold_right]. rewrite !Q1 by lia. unfold flip3, e0, delta. destruct k as [|[|[|k]]]; [| | |lia]; apply C_eq; cbn; ring. }
  assert (A1 : a e' = 0%R). { change (a e') with (fst (inner 3 (q e') (fun k => apply 3 flip3 (q e') k + RtoC (- b (first 3 flip3 e0)) * e0 k)%C)). unfold inner, Csum. cbn [seq fold_right]. rewrite !W1 by lia. unfold Cmul, Cadd, C0. cbn [fst snd]. ring. }
  assert (B1 : b e' = 0%R).
  { change (b e') with (norm 3 (fun k => (apply 3 flip3 (q e') k + RtoC (- b (first 3 flip3 e0)) * e0 k) + RtoC (- a e') * q e' k)%C). rewrite (NE _ (fun _ => C0)).
    - unfold norm, Rsum. cbn [seq fold_right]. transitivity (sqrt 0); [f_equal; unfold C0; cbn [fst snd]; ring|apply sqrt_0].
    - intros k Hk. rewrite W1, A1 by exact Hk. apply C_eq; cbn; ring. }
  rewrite B1. destruct (Rlt_dec 0 eps) as [_|]; [|lra]. eexists. split; [reflexivity|]. cbn [map length]. rewrite A0, A1, B0, B1. split; [|split]; reflexivity.
Qed.
Theorem C36_exhausted_refuted : exists n A v0, hermitian n A /\ norm n v0 = 1%R /\ forall eps, (0 < eps)%R ->
  (exists qs, lanczos_iter n A eps eps 2 v0 = Some ([0%R; 0%R], [1%R], Some qs) /\ length qs = 2) /\
  (exists res, lanczos_full n A eps 2 false v0 = Some res /\ diagonal res = [0%R] /\ length (vectors res) = 1) /\
  (forall k, k < n -> apply n A (apply n A v0) k = v0 k) /\
  lanczos_full n A eps 2 true v0 = None.
Proof.
  exists 3, flip3, e0. split; [|split; [apply norm_e; lia|]].
  { intros i j Hi Hj. destruct i as [|[|[|i]]], j as [|[|[|j]]]; try lia; apply C_eq; cbn; ring. }
  intros eps P. destruct (flip3_run eps P) as [l [R [Ea [Eb L]]]]. destruct l as [|x [|x' [|x'' l]]]; try discriminate L. cbn [map] in Ea, Eb. injection Ea as Ea1 Ea2. injection Eb as Eb1 Eb2.
  assert (St : stopped eps [x; x'] = true) by (unfold stopped; cbn [last]; rewrite Eb2; destruct (Rlt_dec 0 eps); [reflexivity|lra]).
  split; [|split; [|split]].
  - unfold lanczos_iter. rewrite R. cbn [map length Nat.sub firstn]. rewrite Ea1, Ea2, Eb1.
    assert (HA : hermitian 3 flip3) by (intros i j Hi Hj; destruct i as [|[|[|i]]], j as [|[|[|j]]]; try lia; apply C_eq; cbn; ring).
    destruct (C36_iter 3 flip3 eps 2 e0 [0%R; 0%R] [1%R] (vec_iter 3 flip3 eps e0 [0%R; 0%R] [1%R]) HA) as [qs [-> [[La _] _]]].
    + left. apply norm_e. lia.
    + unfold lanczos_iter. rewrite R. cbn [map length Nat.sub firstn]. rewrite Ea1, Ea2, Eb1. reflexivity.
    + exists qs. split; [reflexivity|]. rewrite <- La. reflexivity.
  - unfold lanczos_full. rewrite R, St. cbn [andb length Nat.sub map firstn]. eexists. split; [reflexivity|]. cbn [diagonal vectors]. rewrite Ea1. split; reflexivity.
  - intros k Hk. destruct k as [|[|[|k]]]; [| | |lia]; unfold apply, Csum, flip3, e0, delta; apply C_eq; cbn; ring.
  - unfold lanczos_full. rewrite R, St. reflexivity.
Qed.
Print Assumptions C36_exhausted_refuted.

(* the generator yields one array: a list of what it yielded does not hold the basis *)
Theorem C36_generator_list_refuted n A qs aa bb : lanczos_basis n A qs aa bb -> 2 <= length qs -> kept qs <> qs.
Proof.
  intros [_ [_ [O _]]] L E. pose proof (O 0 (length qs - 1) ltac:(lia) ltac:(lia)) as Z. pose proof (O 0 0 ltac:(lia) ltac:(lia)) as U.
  assert (X : member qs 0 = member qs (length qs - 1)).
  { unfold member. rewrite <- E. rewrite !(nth_indep (kept qs) (fun _ => C0) (last qs (fun _ => C0))) by (unfold kept; rewrite !map_length; lia). unfold kept. rewrite map_length.
    assert (K : forall (l : list vec) (c : vec) i, nth i (map (fun _ => c) l) c = c) by (intros l c; induction l as [|x l IH]; intros [|i]; cbn; auto). rewrite !K. reflexivity. }
  rewrite X in U at 2. rewrite Z in U. unfold delta in U. rewrite Nat.eqb_refl in U. replace (0 =? length qs - 1) with false in U by (symmetry; apply Nat.eqb_neq; lia). apply (f_equal fst) in U. cbn in U. lra.
Qed.
Print Assumptions C36_generator_list_refuted.

(* an eigenvector as start vector: both variants fail for every number of vectors above one, although the Krylov space is simply smaller *)
Theorem C36_eigenvector_refuted n A eps m v0 lam : norm n v0 = 1%R -> (0 < eps)%R -> 2 <= m -> (forall k, k < n -> apply n A v0 k = RtoC lam * v0 k)%C ->
  lanczos_full n A eps m false v0 = None /\ lanczos_iter n A eps eps m v0 = None.
Proof.
  intros N P Hm Ev. assert (R : run n A eps m v0 = None).
  { unfold run. destruct (n <=? m); [reflexivity|]. destruct m as [|[|m]]; try lia. unfold start. rewrite N. replace (1 - 1)%R with 0%R by ring. rewrite Rabs_R0. destruct (Rlt_dec eps 0) as [L|_]; [lra|].
    cbn [loop]. destruct (Req_EM_T (b (first n A v0)) 0) as [_|Nz]; [reflexivity|]. exfalso. apply Nz.
    assert (Al : a (first n A v0) = lam).
    { change (a (first n A v0)) with (fst (inner n v0 (apply n A v0))). rewrite (inner_ext n v0 v0 (apply n A v0) (fun k => RtoC lam * v0 k)%C) by (try reflexivity; exact Ev).
      rewrite inner_scale, norm_inner, N. cbn. ring. }
    change (b (first n A v0)) with (norm n (fun k => apply n A v0 k + RtoC (- a (first n A v0)) * v0 k)%C). rewrite Al. unfold norm. transitivity (sqrt 0); [f_equal|apply sqrt_0].
    transitivity (Rsum (seq 0 n) (fun _ => 0%R)).
    - apply Rsum_ext. intros k I. apply in_seq in I. rewrite Ev by lia. cbn. ring.
    - unfold Rsum. induction (seq 0 n) as [|x l IH]; cbn; [reflexivity|]. rewrite IH. ring. }
  unfold lanczos_full, lanczos_iter. rewrite R. split; reflexivity.
Qed.
Print Assumptions C36_eigenvector_refuted.
