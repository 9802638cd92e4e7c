(* C33: taking the transpose, conjugate or adjoint of an operator object, or using it from the left, does not change what the object does
   afterwards. *)
From Verif Require Import AuxN SpecC SpecExpm SpecHam SpecPars SpecViews M_views P_qop P_views.
Local Open Scope nat_scope.

(* quantum_operator: in every program that takes views and copies and acts with any of them, in any order, every result is the one of the
   matrices the names stand for. *)
Theorem C33_quantum_operator_partial : forall n ms us, Forall q_pure us -> scoped 1 us ->
  q_run n (q_start ms) us = meanings n [fun i j => Csum ms (fun A => A i j)] us.
Proof. intros n ms us P S. apply q_all; [apply q_start_rel|exact P|exact S]. Qed.
Print Assumptions C33_quantum_operator_partial.

(* exp_op: the same holds for copies and views made with copy=True, and for dot and rdot, for every function expm that commutes with
   transposition and conjugation. *)
Theorem C33_exp_op_partial : forall n expm A a us,
  (forall A B, same_mat A B -> same_mat (expm A) (expm B)) -> (forall A, same_mat (expm (mat_T A)) (mat_T (expm A))) ->
  (forall A, same_mat (expm (mat_conj A)) (mat_conj (expm A))) -> Forall e_pure us -> scoped 1 us ->
  exp_run n expm (exp_start A a) us = meanings n [expm (mat_scale a A)] us.
Proof. intros n expm A a us E1 E2 E3 P S. apply e_all; try assumption. apply e_start_rel; assumption. Qed.
Print Assumptions C33_exp_op_partial.

(* quantum_LinearOperator: all names stand for one object.  After any sequence of transpositions, conjugations, adjoints, uses from the left
   and adjoint uses, the next use acts with the matrix transposed and conjugated as often as such steps were taken, and with the diagonal as
   stored. *)
Theorem C33_linear_operator_exact : forall n m A d us u, Forall l_same (us ++ [u]) -> scoped 1 (us ++ [u]) ->
  last (lin_run n (lin_start m A d) (us ++ [u])) Fails = match u with
    | View _ _ _ => Named_
    | Act _ v | LeftAct _ v | AdjAct _ v =>
        VecR (mat_vec n (with_diag (flagged (parity turns_T (us ++ [u])) (parity turns_C (us ++ [u])) A) d) v)
    | _ => Fails end.
Proof. intros n m A d us u P S. apply (l_all n m A d us false false 1 _ u); [split; reflexivity|exact P|exact S]. Qed.
Print Assumptions C33_linear_operator_exact.

Definition upper : cmat := fun i j => match i, j with 0, 1 => C1 | _, _ => C0 end.
Lemma C10 : C1 <> C0. Proof. intros H. injection H. intros. lra. Qed.

(* Taking H.T changes H. *)
Theorem C33_transpose_refuted : exists n A d v, forall m,
  lin_run n (lin_start m A d) [View Tr false 0; Act 0 v] <> meanings n [with_diag A d] [View Tr false 0; Act 0 v].
Proof.
  exists 2, upper, (fun _ => C0), [C0; C1]. intros m H. cbn in H. injection H. intros. lra.
Qed.
Print Assumptions C33_transpose_refuted.

(* Two calls of rmatvec with the same vector give different results. *)
Theorem C33_rmatvec_refuted : exists n A d v, forall m, exists x y, lin_run n (lin_start m A d) [AdjAct 0 v; AdjAct 0 v] = [VecR x; VecR y] /\ x <> y.
Proof.
  exists 2, upper, (fun _ => C0), [C0; C1]. intros m. do 2 eexists. split; [reflexivity|]. cbn. intros H. injection H. intros. lra.
Qed.
Print Assumptions C33_rmatvec_refuted.

(* Two uses from the left with the same vector give different results. *)
Theorem C33_left_refuted : exists n A d v, forall m, exists x y, lin_run n (lin_start m A d) [LeftAct 0 v; LeftAct 0 v] = [VecR x; VecR y] /\ x <> y.
Proof.
  exists 2, upper, (fun _ => C0), [C0; C1]. intros m. do 2 eexists. split; [reflexivity|]. cbn. intros H. injection H. intros. lra.
Qed.
Print Assumptions C33_left_refuted.

(* The conjugate of an operator with a complex diagonal keeps the diagonal. *)
Theorem C33_conjugate_diagonal_refuted : exists n A d v, forall m,
  lin_run n (lin_start m A d) [View Cj false 0; Act 1 v] <> meanings n [with_diag A d] [View Cj false 0; Act 1 v].
Proof.
  exists 1, zero_mat, (fun _ => Ci), [C1]. intros m H. cbn in H. injection H. intros. lra.
Qed.
Print Assumptions C33_conjugate_diagonal_refuted.

(* A quantum_LinearOperator with a term that is not diagonal cannot be copied, and multiplying it with a number loses it. *)
Theorem C33_copy_refuted : forall n m A d v c,
  lin_run n (lin_start (S m) A d) [Copy 0] = [Fails] /\ lin_run n (lin_start (S m) A d) [View Tr true 0] = [Fails] /\
  lin_run n (lin_start (S m) A d) [Scale c 0; Act 0 v] = [Named_; Fails] /\ lin_run n (lin_start (S m) A d) [Neg 0; Act 1 v] = [Named_; Fails].
Proof. intros. repeat split; reflexivity. Qed.
Print Assumptions C33_copy_refuted.

(* sandwich returns E X E+ and leaves the object adjointed: the same call made again returns E+ X E. *)
Theorem C33_sandwich_exact : forall n expm A a X,
  (forall A B, same_mat A B -> same_mat (expm A) (expm B)) -> (forall A, same_mat (expm (mat_T A)) (mat_T (expm A))) ->
  (forall A, same_mat (expm (mat_conj A)) (mat_conj (expm A))) ->
  let E := expm (mat_scale a A) in
  exp_run n expm (exp_start A a) [Sandwich 0 X; Sandwich 0 X] =
    [MatR (table n (mat_mul n (mat_mul n E (entry X)) (mat_H E))); MatR (table n (mat_mul n (mat_mul n (mat_H E) (entry X)) E))].
Proof.
  intros n expm A a X E1 E2 E3 E. cbn [exp_run exp_start exp_use name_of enames eobjs nth put_exp set_at firstn skipn app].
  rewrite !(sandwich_value n expm E1 E2 E3). do 3 f_equal. apply table_ext. intros i j _ _. unfold mat_mul.
  apply Csum_ext. intros k _. f_equal.
  - apply Csum_ext. intros l _. f_equal. apply (exp_view_mat expm E1 E2 E3 Ad {| op := A; pre := a |}).
  - unfold mat_H. rewrite (exp_view_mat expm E1 E2 E3 Ad {| op := A; pre := a |}). cbn. unfold mat_H. apply Cconj_invol.
Qed.
Print Assumptions C33_sandwich_exact.

(* For a nilpotent operator the first sandwich is not E+ X E, which the documentation promises, and taking the adjoint changes the object. *)
Theorem C33_sandwich_refuted : forall expm,
  (forall A B, same_mat A B -> same_mat (expm A) (expm B)) -> (forall A, same_mat (expm (mat_T A)) (mat_T (expm A))) ->
  (forall A, same_mat (expm (mat_conj A)) (mat_conj (expm A))) ->
  (forall A, (forall i j, mat_mul 2 A A i j = C0) -> forall i j, expm A i j = ((if i =? j then C1 else C0) + A i j)%C) -> exists A X v,
  exp_run 2 expm (exp_start A C1) [Sandwich 0 X] <> meanings 2 [expm (mat_scale C1 A)] [Sandwich 0 X] /\
  exp_run 2 expm (exp_start A C1) [View Ad false 0; Act 0 v] <> meanings 2 [expm (mat_scale C1 A)] [View Ad false 0; Act 0 v].
Proof.
  intros expm E1 E2 E3 E4. exists upper, [[C1; C0]; [C0; C0]], [C0; C1].
  assert (N1 : forall i j, expm (mat_scale C1 upper) i j = ((if i =? j then C1 else C0) + upper i j)%C).
  { intros i j. rewrite (E1 _ upper) by (intros a b; unfold mat_scale; ring). apply E4. clear i j.
    intros i j. unfold mat_mul. cbn. destruct i as [|[|i]], j as [|[|j]]; cbn; apply C_eq; cbn; ring. }
  split.
  - assert (S : exp_run 2 expm (exp_start upper C1) [Sandwich 0 [[C1; C0]; [C0; C0]]] =
      [MatR (table 2 (mat_mul 2 (mat_mul 2 (expm (mat_scale C1 upper)) (entry [[C1; C0]; [C0; C0]])) (mat_H (expm (mat_scale C1 upper)))))]).
    { cbn [exp_run exp_start exp_use name_of enames eobjs nth]. rewrite (sandwich_value 2 expm E1 E2 E3). reflexivity. }
    rewrite S. cbn [meanings meaning mat_at nth]. intros H. injection H. unfold mat_mul, mat_H, entry. cbn [seq Csum fold_right nth].
    rewrite !N1. cbn. intros. lra.
  - intros H. cbn [exp_run exp_use exp_start name_of enames eobjs nth set_at firstn skipn app meanings meaning mat_at] in H.
    assert (H1 : mat_vec 2 (expm (exponent (exp_view Ad {| op := upper; pre := C1 |}))) [C0; C1] = mat_vec 2 (expm (mat_scale C1 upper)) [C0; C1]) by congruence.
    rewrite (mat_vec_ext 2 _ (mat_H (expm (mat_scale C1 upper)))) in H1 by (intros i j; apply (exp_view_mat expm E1 E2 E3 Ad {| op := upper; pre := C1 |})).
    unfold mat_vec, mat_H in H1. cbn [seq map Csum fold_right] in H1. rewrite !N1 in H1. cbn in H1. injection H1. intros. lra.
Qed.
Print Assumptions C33_sandwich_refuted.

(* copy() of a quantum_operator shares the matrices: scaling the copy in place scales the original, and so does taking -H. *)
Theorem C33_shared_matrices_refuted : exists n ms c v,
  q_run n (q_start ms) [Copy 0; Scale c 1; Act 0 v] <> meanings n [fun i j => Csum ms (fun A => A i j)] [Copy 0; Scale c 1; Act 0 v] /\
  q_run n (q_start ms) [View Tr true 0; Scale c 1; Act 0 v] <> meanings n [fun i j => Csum ms (fun A => A i j)] [View Tr true 0; Scale c 1; Act 0 v] /\
  q_run n (q_start ms) [Neg 0; Act 0 v] <> meanings n [fun i j => Csum ms (fun A => A i j)] [Neg 0; Act 0 v].
Proof.
  exists 1, [fun _ _ => C1], (RtoC 2), [C1].
  split; [|split]; intros H; cbn in H; injection H; intros; lra.
Qed.
Print Assumptions C33_shared_matrices_refuted.

(* Multiplying a view of a quantum_operator with a number: the view means what it should; the original is multiplied as well if the view is
   the transpose, and unchanged if it is the conjugate or the adjoint. *)
Lemma set_at_in (cs : list cmat) i x : i < length cs -> forall j, nth j (set_at cs i x) zero_mat = if j =? i then x else nth j cs zero_mat.
Proof.
  revert i. induction cs as [|y cs IH]; intros i Hi j; [cbn in Hi; lia|]. destruct i as [|i]; [destruct j; reflexivity|].
  cbn [length] in Hi. destruct j as [|j]; [reflexivity|]. change (set_at (y :: cs) (S i) x) with (y :: set_at cs i x). cbn [nth Nat.eqb]. apply IH. lia.
Qed.
Lemma set_at_len (cs : list cmat) i x : i < length cs -> length (set_at cs i x) = length cs.
Proof. revert i. induction cs as [|y cs IH]; intros [|i] Hi; cbn in Hi; try lia; [reflexivity|]. change (set_at (y :: cs) (S i) x) with (y :: set_at cs i x). cbn [length]. rewrite IH by lia. reflexivity. Qed.
Lemma scale_all c o : NoDup (map cell o) -> forall cs, (forall r, In r o -> cell r < length cs) ->
  forall j, nth j (scale_cells c o cs) zero_mat = if existsb (fun r => cell r =? j) o then mat_scale c (nth j cs zero_mat) else nth j cs zero_mat.
Proof.
  unfold scale_cells. induction o as [|r o IH]; intros ND cs H j; [reflexivity|]. cbn [fold_left existsb map] in *. inversion ND as [|? ? N1 N2]; subst.
  assert (Hr : cell r < length cs) by (apply H; left; reflexivity).
  rewrite IH; [|exact N2|]. 2: { intros q Q. rewrite set_at_len by exact Hr. apply H. right. exact Q. }
  rewrite !set_at_in by exact Hr. rewrite (Nat.eqb_sym (cell r) j). destruct (Nat.eqb_spec j (cell r)) as [->|]; [|reflexivity].
  cbn [orb]. replace (existsb (fun r0 => cell r0 =? cell r) o) with false; [reflexivity|]. symmetry. apply not_true_is_false. intros E. apply existsb_exists in E.
  destruct E as (q & Q & E). apply Nat.eqb_eq in E. apply N1. rewrite <- E. apply in_map, Q.
Qed.
Lemma scale_deref c o cs r : NoDup (map cell o) -> (forall r, In r o -> cell r < length cs) ->
  deref (scale_cells c o cs) r = if existsb (fun q => cell q =? cell r) o then mat_scale c (deref cs r) else deref cs r.
Proof. intros ND H. unfold deref. rewrite (scale_all c o ND cs H). destruct (existsb _ o), (flip r); reflexivity. Qed.
Lemma total_same c o o' cs : NoDup (map cell o) -> (forall r, In r o -> cell r < length cs) -> map cell o' = map cell o ->
  forall i j, total (scale_cells c o cs) o' i j = mat_scale c (total cs o') i j.
Proof.
  intros ND H E i j. unfold total, mat_scale. rewrite <- Csum_mul_l. apply Csum_ext. intros r Hr. rewrite scale_deref by assumption.
  replace (existsb (fun q => cell q =? cell r) o) with true; [reflexivity|]. symmetry. apply existsb_exists. apply (in_map cell) in Hr. rewrite E in Hr. apply in_map_iff in Hr.
  destruct Hr as (q & Q & I). exists q. split; [exact I|apply Nat.eqb_eq, Q].
Qed.
Lemma total_other c o o' cs : NoDup (map cell o) -> (forall r, In r o -> cell r < length cs) -> (forall r q, In r o -> In q o' -> cell r <> cell q) ->
  forall i j, total (scale_cells c o cs) o' i j = total cs o' i j.
Proof.
  intros ND H E i j. unfold total. apply Csum_ext. intros r Hr. rewrite scale_deref by assumption.
  replace (existsb (fun q => cell q =? cell r) o) with false; [reflexivity|]. symmetry. apply not_true_is_false. intros X. apply existsb_exists in X. destruct X as (q & Q & X). apply Nat.eqb_eq in X. exact (E q r Q Hr X).
Qed.
Lemma mat_vec_same n A B v : (forall i j, A i j = B i j) -> mat_vec n A v = mat_vec n B v.
Proof. intros H. unfold mat_vec. apply map_ext. intros i. apply Csum_ext. intros j _. rewrite H. reflexivity. Qed.
Theorem C33_scaled_view_exact : forall n ms k b c v, let M := (fun i j => Csum ms (fun A => A i j)) : cmat in
  q_run n (q_start ms) [View k b 0; Scale c 1; Act 1 v; Act 0 v] =
    [Named_; Named_; VecR (mat_vec n (mat_scale c (view_of k M)) v); VecR (mat_vec n (match k with Tr => mat_scale c M | _ => M end) v)].
Proof.
  intros n ms k b c v M. set (o := map (fun j => {| cell := j; flip := false |}) (seq 0 (length ms))).
  assert (OC : map cell o = seq 0 (length ms)) by (unfold o; rewrite map_map; apply map_id).
  assert (O0 : forall r, In r o -> cell r < length ms) by (intros r Hr; apply (in_map cell) in Hr; rewrite OC in Hr; apply in_seq in Hr; lia).
  assert (O1 : ok_refs ms o) by (apply Forall_forall, O0).
  assert (T0 : same_mat (total ms o) M) by (destruct (q_start_rel ms) as (_ & _ & _ & H); apply (H 0); cbn; lia).
  assert (D0 : NoDup (map cell o)) by (rewrite OC; apply seq_NoDup).
  assert (FC : forall l, map cell (map flip_ref l) = map cell l) by (intros l; rewrite map_map; reflexivity).
  assert (FI : forall (P : nat -> Prop) l, (forall r, In r l -> P (cell r)) -> forall r, In r (map flip_ref l) -> P (cell r)).
  { intros P l H r Hr. apply in_map_iff in Hr. destruct Hr as (q & <- & Q). exact (H q Q). }
  pose proof (conj_ok ms o O1) as CO. unfold conj_refs in CO. cbn beta iota in CO.
  set (cs := ms ++ map (fun r => mat_conj (deref ms r)) o) in *. set (o' := map (fun k => {| cell := length ms + k; flip := false |}) (seq 0 (length o))) in *. destruct CO as [CO1 CO2].
  assert (O0' : forall r, In r o' -> cell r < length cs) by (apply Forall_forall, CO1).
  assert (OC' : map cell o' = map (fun k => length ms + k) (seq 0 (length o))) by (unfold o'; rewrite map_map; reflexivity).
  assert (D0' : NoDup (map cell o')) by (rewrite OC'; apply FinFun.Injective_map_NoDup; [intros x y; lia|apply seq_NoDup]).
  assert (DJ : forall r q, In r o' -> In q o -> cell r <> cell q).
  { intros r q Hr Hq. apply O0 in Hq. apply (in_map cell) in Hr. rewrite OC' in Hr. apply in_map_iff in Hr. destruct Hr as (x & E & _). lia. }
  assert (TG : same_mat (total cs o) M) by (intros i j; unfold cs; rewrite total_grow by exact O1; apply T0).
  destruct k; cbn [q_run q_use name_of q_start qnames nth qobjs app length cells conj_refs]; fold o; fold cs; fold o'.
  - do 2 f_equal. f_equal; [|f_equal]; f_equal; apply mat_vec_same; intros i j.
    + rewrite total_same by (first [reflexivity|rewrite FC; exact D0|apply (FI (fun x => x < length ms)), O0]). unfold mat_scale. f_equal. rewrite total_flip. cbn [view_of]. unfold mat_T. apply T0.
    + rewrite total_same by (first [rewrite FC; reflexivity|rewrite FC; exact D0|apply (FI (fun x => x < length ms)), O0]). unfold mat_scale. f_equal. apply T0.
  - do 2 f_equal. f_equal; [|f_equal]; f_equal; apply mat_vec_same; intros i j.
    + rewrite total_same by (try reflexivity; assumption). unfold mat_scale. f_equal. rewrite CO2. cbn [view_of]. unfold mat_conj. rewrite T0. reflexivity.
    + rewrite total_other by assumption. apply TG.
  - do 2 f_equal. f_equal; [|f_equal]; f_equal; apply mat_vec_same; intros i j.
    + rewrite total_same by (first [reflexivity|rewrite FC; exact D0'|apply (FI (fun x => x < length cs)), O0']). unfold mat_scale. f_equal. rewrite total_flip. unfold mat_T. rewrite CO2. cbn [view_of]. unfold mat_H, mat_conj. rewrite T0. reflexivity.
    + rewrite total_other; [apply TG|rewrite FC; exact D0'|apply (FI (fun x => x < length cs)), O0'|].
      intros r q Hr Hq. apply in_map_iff in Hr. destruct Hr as (x & <- & X). apply (DJ x q X Hq).
Qed.
Print Assumptions C33_scaled_view_exact.

(* Programs that meet the conditions, and a function expm. *)
Example C33_hyps_q : Forall q_pure [View Tr true 0; View Cj false 1; Act 0 [C1]; LeftAct 2 [Ci]; Copy 2; View Ad true 3; AdjAct 4 [C1]] /\
  scoped 1 [View Tr true 0; View Cj false 1; Act 0 [C1]; LeftAct 2 [Ci]; Copy 2; View Ad true 3; AdjAct 4 [C1]].
Proof. split; [repeat constructor|cbn; lia]. Qed.
Example C33_hyps_exp : let expm : cmat -> cmat := fun A i j => ((if i =? j then C1 else C0) + A i j)%C in
  (forall A B, same_mat A B -> same_mat (expm A) (expm B)) /\ (forall A, same_mat (expm (mat_T A)) (mat_T (expm A))) /\
  (forall A, same_mat (expm (mat_conj A)) (mat_conj (expm A))) /\
  (forall A, (forall i j, mat_mul 2 A A i j = C0) -> forall i j, expm A i j = ((if i =? j then C1 else C0) + A i j)%C) /\
  Forall e_pure [View Tr true 0; Act 0 [C1]; View Ad true 1; LeftAct 2 [Ci]] /\ scoped 1 [View Tr true 0; Act 0 [C1]; View Ad true 1; LeftAct 2 [Ci]].
Proof.
  cbn zeta. split; [|split; [|split; [|split; [|split]]]].
  - intros A B H i j. rewrite H. reflexivity.
  - intros A i j. unfold mat_T. rewrite Nat.eqb_sym. reflexivity.
  - intros A i j. unfold mat_conj. rewrite Cconj_add. f_equal. destruct (i =? j); apply C_eq; cbn; ring.
  - reflexivity.
  - repeat constructor.
  - cbn. lia.
Qed.
Example C33_hyps_lin : Forall l_same [View Tr false 0; LeftAct 1 [C1]; AdjAct 0 [C1]; Act 1 [C1]] /\ scoped 1 [View Tr false 0; LeftAct 1 [C1]; AdjAct 0 [C1]; Act 1 [C1]].
Proof. split; [repeat constructor|cbn; lia]. Qed.
