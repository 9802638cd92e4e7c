(* C30: the matrix at every time of a sum, difference, product, scalar multiple, transpose, conjugate or adjoint of operators is the sum, ... of
   the matrices of the operands at that time, and the operands are not changed.
   at_time call s H t is the matrix of H at time t in the store s; within n e A B: all entries agree up to e.  atol is the tolerance under which
   a matrix is dropped; fsum is the sum of |f(t)| over the dynamic terms, so the error of every operation is proportional to atol.
   hwf h s H: the matrices of H are distinct arrays of s, its coefficient functions are hashable and pairwise different. *)
From Verif Require Import AuxN SpecC SpecExpm SpecFunc SpecHam M_func P_func M_ham P_ham P_ham2 P_ham3 P_ham4 P_ham5 P_ham6 P_ham7 C31_Functions.
Local Open Scope nat_scope.

(* no array that existed before has changed, so every other operator is as before *)
Definition untouched (s s' : store) : Prop := next s <= next s' /\ forall b, b < next s -> cells s' b = cells s b.
Lemma frame_untouched s s' : frame s s' [] -> untouched s s'. Proof. intros [N H]. split; [exact N|]. intros b L. apply H; [exact L|intros []]. Qed.
Theorem C30_untouched : forall F Args (call : F -> Args -> R -> C) h s s' H t i j, untouched s s' -> hwf h s H -> at_time call s' H t i j = at_time call s H t i j.
Proof. intros F Args call h s s' H t i j [N U] W. apply (other_time call h); [|exact W]. split; [exact N|]. intros b L _. apply U, L. Qed.
Print Assumptions C30_untouched.

Definition gives {F Args} (n : nat) (call : F -> Args -> R -> C) (h : hashing F Args) (s : store) (op : act (ham F Args)) (err : R -> R) (v : R -> cmat) : Prop :=
  exists s' H, op s = Some (s', H) /\ hwf h s' H /\ untouched s s' /\ forall t, within n (err t) (at_time call s' H t) (v t).
Lemma gives_wp {F Args} n call h s op err (v : R -> cmat) : wp op s (fun s' H => hwf h s' H /\ frame s s' [] /\ forall t, within n (err t) (at_time call s' H t) (v t)) -> @gives F Args n call h s op err v.
Proof. intros W. destruct (wp_run _ _ _ W) as (s' & H & E & W' & Fr & V). exists s', H. split; [exact E|]. split; [exact W'|]. split; [apply frame_untouched, Fr|exact V]. Qed.

Section Statements.
Variables (n : nat) (atol : R) (F Args : Type) (call : F -> Args -> R -> C) (h : hashing F Args) (fuel : nat).
Notation value s A := (fun t => at_time call s A t).
Notation fsum A t := (P_ham2.fsum call (dyn A) t).

Theorem C30_add s A B : (0 <= atol)%R -> no_collision h -> hwf h s A -> hwf h s B ->
  gives n call h s (add_ham n atol F Args h A B) (fun t => atol * (1 + fsum B t))%R (fun t => mat_add (at_time call s A t) (at_time call s B t)).
Proof. intros. apply gives_wp. apply add_ok; assumption. Qed.
Theorem C30_sub s A B : (0 <= atol)%R -> no_collision h -> hwf h s A -> hwf h s B ->
  gives n call h s (sub_ham n atol F Args h A B) (fun t => atol * (1 + fsum B t))%R (fun t => mat_sub (at_time call s A t) (at_time call s B t)).
Proof. intros. apply gives_wp. apply sub_ok; assumption. Qed.
Theorem C30_scalar s A c : (0 <= atol)%R -> hwf h s A ->
  gives n call h s (mul_scalar n atol F Args h A c) (fun t => atol * (1 + fsum A t))%R (fun t => mat_scale c (at_time call s A t)).
Proof. intros. apply gives_wp. apply mul_scalar_ok; assumption. Qed.
(* in place: only arrays of A change *)
Theorem C30_iadd s A B : (0 <= atol)%R -> no_collision h -> hwf h s A -> hwf h s B ->
  NoDup ((buf (static A) :: db (dyn A)) ++ buf (static B) :: db (dyn B)) ->
  exists s' H, iadd_ham n atol F Args h A B s = Some (s', H) /\ hwf h s' H /\ (forall b, b < next s -> ~ In b (buf (static A) :: db (dyn A)) -> cells s' b = cells s b) /\
    forall t, within n (atol * (1 + fsum B t)) (at_time call s' H t) (mat_add (at_time call s A t) (at_time call s B t)).
Proof. intros Ha N HA HB ND. destruct (wp_run _ _ _ (iadd_ok n atol Ha call h N s A B HA HB ND)) as (s' & H & E & W & Fr & V). exists s', H. split; [exact E|]. split; [exact W|]. split; [apply Fr|exact V]. Qed.
Theorem C30_iscalar s A c : (0 <= atol)%R -> hwf h s A ->
  exists s' H, imul_scalar n atol F Args h A c s = Some (s', H) /\ hwf h s' H /\ (forall b, b < next s -> ~ In b (buf (static A) :: db (dyn A)) -> cells s' b = cells s b) /\
    forall t, within n (atol * (1 + fsum A t)) (at_time call s' H t) (mat_scale c (at_time call s A t)).
Proof. intros Ha HA. destruct (wp_run _ _ _ (imul_scalar_ok n atol Ha call h s A c HA)) as (s' & H & E & W & Fr & V). exists s', H. split; [exact E|]. split; [exact W|]. split; [apply Fr|exact V]. Qed.

(* A * B: both operators have dynamic terms; the products of their functions must exist (C31_defined) *)
Theorem C30_mul s A B : (0 <= atol)%R -> no_collision h -> hwf h s A -> hwf h s B -> dyn A <> [] -> dyn B <> [] ->
  (forall e1 e2, In e1 (dyn A) -> In e2 (dyn B) -> exists f k, fmul h fuel (fst e1) (fst e2) = Some f /\ hash h f = Some k) ->
  gives n call h s (mul_ham n atol F Args h fuel A B) (fun t => atol * (fsum A t + fsum B t + fsum A t * fsum B t))%R (fun t => mat_mul n (at_time call s A t) (at_time call s B t)).
Proof. intros. apply gives_wp. apply mul_dynamic_ok; assumption. Qed.
Theorem C30_imul s A B : (0 <= atol)%R -> no_collision h -> hwf h s A -> hwf h s B -> dyn A <> [] -> dyn B <> [] ->
  (forall e1 e2, In e1 (dyn A) -> In e2 (dyn B) -> exists f k, fmul h fuel (fst e1) (fst e2) = Some f /\ hash h f = Some k) ->
  gives n call h s (imul_ham n atol F Args h fuel A B) (fun t => atol * (fsum A t + fsum B t + fsum A t * fsum B t))%R (fun t => mat_mul n (at_time call s A t) (at_time call s B t)).
Proof. intros. apply gives_wp. apply imul_both_ok; assumption. Qed.
(* B is static; of the matrices that are multiplied one at least is sparse *)
Theorem C30_mul_static_right s A B : (0 <= atol)%R -> hwf h s A -> dyn B = [] ->
  (forall b, In b (static A :: map snd (dyn A)) -> dense (get s b) = false \/ dense (get s (static B)) = false) ->
  gives n call h s (mul_ham n atol F Args h fuel A B) (fun t => atol * (1 + fsum A t))%R (fun t => mat_mul n (at_time call s A t) (at_time call s B t)).
Proof. intros. apply gives_wp. apply mul_right_ok; assumption. Qed.
Theorem C30_mul_static_left s A B : (0 <= atol)%R -> hwf h s B -> dyn A = [] -> dyn B <> [] -> dense (get s (static A)) = false ->
  gives n call h s (mul_ham n atol F Args h fuel A B) (fun t => atol * (1 + fsum B t))%R (fun t => mat_mul n (at_time call s A t) (at_time call s B t)).
Proof. intros. apply gives_wp. apply mul_left_ok; assumption. Qed.
(* matrices in place of operators; the first component is the operand as the call leaves it *)
Lemma gives_pair s (op : act (ham F Args * ham F Args)) err v A : wp op s (fun s' AH => (hwf h s' (snd AH) /\ frame s s' [] /\ forall t, within n (err t) (at_time call s' (snd AH) t) (v t)) /\ static (fst AH) = static A /\ dyn (fst AH) = dyn A) ->
  gives n call h s (run AH <- op; ret (snd AH)) err v /\ exists s' A' H, op s = Some (s', (A', H)) /\ static A' = static A /\ dyn A' = dyn A.
Proof.
  intros W. split; [apply gives_wp; apply wp_bind; eapply wp_mono; [exact W|]; intros s' AH [R _]; exact R|].
  destruct (wp_run _ _ _ W) as (s' & [A' H] & E & _ & E1 & E2). exists s', A', H. auto.
Qed.
Theorem C30_matrix_right s A B : (0 <= atol)%R -> hwf h s A ->
  gives n call h s (run AH <- mul_dense n atol F Args h A B; ret (snd AH)) (fun t => atol * (1 + fsum A t))%R (fun t => mat_mul n (at_time call s A t) (ent B)) /\
  exists s' A' H, mul_dense n atol F Args h A B s = Some (s', (A', H)) /\ static A' = static A /\ dyn A' = dyn A.
Proof. intros. apply gives_pair. apply mul_dense_ok; assumption. Qed.
Theorem C30_matrix_left s A B : (0 <= atol)%R -> hwf h s A ->
  gives n call h s (run AH <- rmul_dense n atol F Args h A B; ret (snd AH)) (fun t => atol * (1 + fsum A t))%R (fun t => mat_mul n (ent B) (at_time call s A t)) /\
  exists s' A' H, rmul_dense n atol F Args h A B s = Some (s', (A', H)) /\ static A' = static A /\ dyn A' = dyn A.
Proof. intros. apply gives_pair. apply rmul_dense_ok; assumption. Qed.
Theorem C30_sparse_right s A B : (0 <= atol)%R -> hwf h s A -> dense B = false ->
  gives n call h s (mul_sparse n atol F Args h A B) (fun t => atol * (1 + fsum A t))%R (fun t => mat_mul n (at_time call s A t) (ent B)).
Proof. intros. apply gives_wp. apply mul_sparse_ok; [assumption|assumption|]. intros b _. right; assumption. Qed.
Theorem C30_sparse_left s A B : (0 <= atol)%R -> hwf h s A -> dense B = false ->
  gives n call h s (rmul_sparse n atol F Args h A B) (fun t => atol * (1 + fsum A t))%R (fun t => mat_mul n (ent B) (at_time call s A t)).
Proof. intros. apply gives_wp. apply rmul_sparse_ok; assumption. Qed.
Theorem C30_add_matrix s A B : (0 <= atol)%R -> hwf h s A ->
  gives n call h s (run AH <- add_matrix n atol F Args h mat_add A B; ret (snd AH)) (fun _ => atol) (fun t => mat_add (at_time call s A t) (ent B)).
Proof. intros. apply gives_pair with (A := A). eapply wp_mono; [apply (add_matrix_ok n atol H call h mat_add C1 s A B op_add H0)|]. intros s' AH (R & E1 & E2 & _). auto. Qed.
Theorem C30_sub_matrix s A B : (0 <= atol)%R -> hwf h s A ->
  gives n call h s (run AH <- add_matrix n atol F Args h mat_sub A B; ret (snd AH)) (fun _ => atol) (fun t => mat_sub (at_time call s A t) (ent B)).
Proof. intros. apply gives_pair with (A := A). eapply wp_mono; [apply (add_matrix_ok n atol H call h mat_sub m1 s A B op_sub H0)|]. intros s' AH (R & E1 & E2 & _). auto. Qed.

(* views and copies are exact, and consist of new arrays *)
Definition exact_copy (s : store) (op : act (ham F Args)) (v : R -> cmat) : Prop :=
  exists s' H, op s = Some (s', H) /\ hwf h s' H /\ untouched s s' /\ (forall b, In b (buf (static H) :: db (dyn H)) -> next s <= b) /\ forall t i j, at_time call s' H t i j = v t i j.
Lemma exact_wp s op v A : wp op s (fun s' H => view_of call h s s' v A H) -> exact_copy s op (fun t => v (at_time call s A t)).
Proof. intros W. destruct (wp_run _ _ _ W) as (s' & H & E & W' & Fr & B & V). exists s', H. split; [exact E|]. split; [exact W'|]. split; [apply frame_untouched, Fr|]. split; [exact B|exact V]. Qed.
Theorem C30_copy s A : hwf h s A -> exact_copy s (copy_ham F Args h A) (fun t => at_time call s A t).
Proof. intros. apply (exact_wp s _ (fun M => M) A). apply (copy_ok n); assumption. Qed.
Theorem C30_negate s A : hwf h s A -> exact_copy s (negate F Args h A) (fun t => mat_opp (at_time call s A t)).
Proof. intros. apply (exact_wp s _ mat_opp A). apply (negate_ok n atol); assumption. Qed.
Theorem C30_transpose_copy s A : hwf h s A -> exact_copy s (transpose F Args h true A) (fun t => mat_T (at_time call s A t)).
Proof. intros. apply (exact_wp s _ mat_T A). eapply wp_mono; [apply (transpose_copy_ok n call h s A); assumption|]. intros s' H0 [V _]. exact V. Qed.
Theorem C30_conjugate s A : no_collision h -> hwf h s A -> (forall e, In e (dyn A) -> exists f a, fst e = Fun f a \/ fst e = Conj (Fun f a)) ->
  exact_copy s (conjugate F Args h A) (fun t => mat_conj (at_time call s A t)).
Proof. intros N W S. apply (exact_wp s _ mat_conj A). apply (conjugate_ok n atol); [exact N|exact W|]. intros e I. destruct (S e I) as (f & a & [-> | ->]); exact Logic.I. Qed.
Theorem C30_adjoint s A copy : no_collision h -> hwf h s A -> (forall e, In e (dyn A) -> exists f a, fst e = Fun f a \/ fst e = Conj (Fun f a)) ->
  exact_copy s (getH F Args h copy A) (fun t => mat_H (at_time call s A t)).
Proof. intros N W S. apply (exact_wp s _ mat_H A). apply (getH_ok n atol); [exact N|exact W|]. intros e I. destruct (S e I) as (f & a & [-> | ->]); exact Logic.I. Qed.
(* A.T without copying: the value is right, the arrays of the dynamic terms are those of A *)
Theorem C30_transpose s A : hwf h s A -> exists s' H, transpose F Args h false A s = Some (s', H) /\ hwf h s' H /\ untouched s s' /\ db (dyn H) = db (dyn A) /\ forall t i j, at_time call s' H t i j = mat_T (at_time call s A t) i j.
Proof.
  intros W. destruct (wp_run _ _ _ (transpose_share_ok n call h s A W)) as (s' & H & E & W' & Fr & D & _ & _ & V). exists s', H. split; [exact E|]. split; [exact W'|]. split; [apply frame_untouched, Fr|].
  split; [rewrite D; apply flip_db|exact V].
Qed.

(* A -= B always raises if A and B have a function in common; A -= ndarray always raises; ndarray-valued static times sparse dynamic raises *)
Theorem C30_isub_refuted s A B k e e' : In e (dyn A) -> In e' (dyn B) -> hash h (fst e) = Some k -> hash h (fst e') = Some k -> isub_ham n atol F Args h A B s = None.
Proof. apply isub_fails. Qed.
Theorem C30_isub_ndarray_refuted s A B : dense B = true -> isub_matrix n atol F Args A B s = None.
Proof. intros E. unfold isub_matrix. rewrite E. reflexivity. Qed.
Theorem C30_mixed_formats_refuted s A B e rest : (0 <= atol)%R -> hwf h s B -> dyn A = [] -> dyn B = e :: rest -> dense (get s (static A)) = true -> dense (get s (snd e)) = false ->
  mul_ham n atol F Args h fuel A B s = None.
Proof.
  intros Ha HB EA EB DA De. unfold mul_ham. rewrite (dynamic_nil A EA). cbn [andb]. unfold dynamic. rewrite EB. cbn [length Nat.eqb negb].
  unfold abind, read. exact (rmul_fails n atol Ha h 0 s B _ e rest HB EB DA De).
Qed.
(* A + ndarray sets the flag is_dense of A itself *)
Theorem C30_flag_refuted s A B : (0 <= atol)%R -> hwf h s A -> dense B = true -> exists s' A' H, add_matrix n atol F Args h mat_add A B s = Some (s', (A', H)) /\ is_dense A' = true.
Proof.
  intros Ha HA D. destruct (wp_run _ _ _ (add_matrix_ok n atol Ha call h mat_add C1 s A B op_add HA)) as (s' & [A' H] & E & _ & _ & _ & Fl). exists s', A', H. split; [exact E|]. cbn [fst] in Fl. rewrite D in Fl. exact Fl.
Qed.
End Statements.
Print Assumptions C30_add. Print Assumptions C30_sub. Print Assumptions C30_scalar. Print Assumptions C30_iadd. Print Assumptions C30_iscalar. Print Assumptions C30_mul. Print Assumptions C30_imul.
Print Assumptions C30_mul_static_right. Print Assumptions C30_mul_static_left. Print Assumptions C30_matrix_right. Print Assumptions C30_matrix_left. Print Assumptions C30_sparse_right. Print Assumptions C30_sparse_left.
Print Assumptions C30_add_matrix. Print Assumptions C30_sub_matrix. Print Assumptions C30_copy. Print Assumptions C30_negate. Print Assumptions C30_transpose_copy. Print Assumptions C30_conjugate. Print Assumptions C30_adjoint.
Print Assumptions C30_transpose. Print Assumptions C30_isub_refuted. Print Assumptions C30_isub_ndarray_refuted. Print Assumptions C30_mixed_formats_refuted. Print Assumptions C30_flag_refuted.

(* a store with the given arrays *)
Definition of_list (l : list mat) : store := {| cells := fun b => nth b l {| dense := false; ent := fun _ _ => C0 |}; next := length l |}.
Definition at_ (b : nat) : ref := {| buf := b; tr := false |}.
Definition up : cmat := fun i j => if (i =? 0) && (j =? 1) then C1 else C0.
Definition sz : cmat := fun i j => if i =? j then (if i =? 0 then C1 else (- C1)%C) else C0.
Definition ones : cmat := fun _ _ => C1.
Definition zeros : cmat := fun _ _ => C0.
Definition one_call (f : nat) (a : unit) (t : R) : C := C1.
Definition sp (A : cmat) : mat := {| dense := false; ent := A |}.
Definition dn (A : cmat) : mat := {| dense := true; ent := A |}.
Definition hA : ham nat unit := {| static := at_ 0; dyn := [(Fun 0 tt, at_ 1)]; is_dense := false |}.
Definition hB : ham nat unit := {| static := at_ 2; dyn := []; is_dense := false |}.
Definition hC : ham nat unit := {| static := at_ 2; dyn := [(Fun 0 tt, at_ 3); (Fun 1 tt, at_ 4)]; is_dense := false |}.
Definition ex_store := of_list [sp zeros; sp up; sp sz; dn ones; sp up].
Lemma hash_code f : hash code (Fun f tt) = Some (h_tuple code [h_fun code f tt]). Proof. reflexivity. Qed.
Lemma hwf_A : hwf code ex_store hA.
Proof. split; [|split; [|split]]; [cbn; repeat constructor; cbn; intuition congruence|cbn; intros b [<- |[<- |[]]]; lia|constructor; [intros []|constructor]|cbn; intros e [<- |[]]; eexists; reflexivity]. Qed.
Lemma hwf_B : hwf code ex_store hB.
Proof. split; [|split; [|split]]; [cbn; repeat constructor; intros []|cbn; intros b [<- |[]]; lia|constructor|intros e []]. Qed.
Lemma hwf_C : hwf code ex_store hC.
Proof.
  split; [|split; [|split]].
  - cbn. repeat constructor; cbn; intuition congruence.
  - cbn. intros b [<- |[<- |[<- |[]]]]; lia.
  - cbn [hC dyn map fst]. constructor; [|constructor; [intros []|constructor]]. intros [H|[]]. vm_compute in H. discriminate.
  - cbn. intros e [<- |[<- |[]]]; eexists; reflexivity.
Qed.
(* the hypotheses of the product of two dynamic operators *)
Example C30_example : no_collision code /\ hwf code ex_store hA /\ hwf code ex_store hB /\ hwf code ex_store hC /\
  (forall e1 e2, In e1 (dyn hA) -> In e2 (dyn hC) -> exists f k, fmul code 4 (fst e1) (fst e2) = Some f /\ hash code f = Some k) /\
  at_time one_call ex_store hC 0%R 0 0 = (C1 + C1 * C1 + C1 * C0)%C.
Proof.
  split; [apply C31_example|]. split; [exact hwf_A|]. split; [exact hwf_B|]. split; [exact hwf_C|]. split; [|reflexivity].
  intros e1 e2 [<- |[]] [<- |[<- |[]]]; cbn [fst]; eexists; eexists; split; vm_compute; reflexivity.
Qed.

Lemma Cabs_R x : Cabs (RtoC x) = Rabs x.
Proof. unfold Cabs, RtoC. cbn [fst snd]. rewrite Rmult_0_l, Rplus_0_r. apply sqrt_Rsqr_abs. Qed.
Lemma two_apart (z a b : C) e e' x : (Cabs (z - a)%C <= e)%R -> (Cabs (z - b)%C <= e')%R -> (a - b)%C = RtoC x -> (Rabs x <= e + e')%R.
Proof.
  intros H1 H2 E. rewrite <- Cabs_R, <- E. replace (a - b)%C with ((z - b) + - (z - a))%C by ring. eapply Rle_trans; [apply Cabs_triangle|]. rewrite Cabs_opp. lra.
Qed.
(* A *= B for a static B multiplies the dynamic terms of A from the left: the result is B A(t) - with A = sigma^+ and B = sigma^z it has the wrong sign *)
Theorem C30_imul_static_refuted : exists (call : nat -> unit -> R -> C) h s A B, no_collision h /\ hwf h s A /\ hwf h s B /\ forall atol fuel, (0 <= atol <= / 4)%R ->
  exists s' H, imul_ham 2 atol nat unit h fuel A B s = Some (s', H) /\ ~ within 2 1 (at_time call s' H 0) (mat_mul 2 (at_time call s A 0) (at_time call s B 0)).
Proof.
  exists one_call, code, ex_store, hA, hB. split; [apply C31_example|]. split; [exact hwf_A|]. split; [exact hwf_B|]. intros atol fuel [H1 H2].
  destruct (wp_run _ _ _ (imul_static_value 2 atol H1 one_call code fuel ex_store hA hB hwf_A eq_refl eq_refl)) as (s' & H & E & _ & V). exists s', H. split; [exact E|]. intros Hw.
  specialize (V 0%R 0 1 ltac:(lia) ltac:(lia)). specialize (Hw 0 1 ltac:(lia) ltac:(lia)).
  pose proof (two_apart _ _ _ _ _ 2 V Hw) as T. cbn [hA hB dyn P_ham2.fsum fold_right] in T. replace (Cabs (eval one_call (fst (Fun 0 tt, at_ 1)) 0)) with 1%R in T.
  - specialize (T ltac:(vm_compute; f_equal; ring)). rewrite Rabs_right in T by lra. lra.
  - cbn. unfold one_call. change C1 with (RtoC 1). rewrite Cabs_R, Rabs_right; lra.
Qed.
Print Assumptions C30_imul_static_refuted.

(* the product of two static operators stored as ndarrays is taken entry by entry: the square of the all-ones matrix is wrong *)
Theorem C30_dense_product_refuted : exists (call : nat -> unit -> R -> C) h s A B, no_collision h /\ hwf h s A /\ hwf h s B /\ forall atol fuel, (0 <= atol <= / 4)%R ->
  exists s' H, mul_ham 2 atol nat unit h fuel A B s = Some (s', H) /\ ~ within 2 (/ 2) (at_time call s' H 0) (mat_mul 2 (at_time call s A 0) (at_time call s B 0)).
Proof.
  set (s := of_list [dn ones; dn ones]). set (A := {| static := at_ 0; dyn := []; is_dense := true |} : ham nat unit). set (B := {| static := at_ 1; dyn := []; is_dense := true |} : ham nat unit).
  assert (HA : hwf code s A). { split; [|split; [|split]]; [cbn; repeat constructor; intros []|cbn; intros b [<- |[]]; lia|constructor|intros e []]. }
  assert (HB : hwf code s B). { split; [|split; [|split]]; [cbn; repeat constructor; intros []|cbn; intros b [<- |[]]; lia|constructor|intros e []]. }
  exists one_call, code, s, A, B. split; [apply C31_example|]. split; [exact HA|]. split; [exact HB|]. intros atol fuel [H1 H2].
  destruct (wp_run _ _ _ (mul_dense_value 2 atol H1 one_call code fuel s A B HA eq_refl eq_refl eq_refl eq_refl)) as (s' & H & E & _ & V). exists s', H. split; [exact E|]. intros Hw.
  specialize (V 0%R 0 1 ltac:(lia) ltac:(lia)). specialize (Hw 0 1 ltac:(lia) ltac:(lia)).
  pose proof (two_apart _ _ _ _ _ (-1) V Hw) as T. specialize (T ltac:(vm_compute; f_equal; ring)). rewrite Rabs_left in T by lra. lra.
Qed.
Print Assumptions C30_dense_product_refuted.

(* C = A + B uses the matrices of B for the functions that A does not have: C *= 2 changes B.  The same for C = B.T, C *= 2. *)
Theorem C30_sharing_refuted : exists (call : nat -> unit -> R -> C) h s A B, no_collision h /\ hwf h s A /\ hwf h s B /\ at_time call s B 0 0 1 = C1 /\ forall atol, (0 <= atol)%R ->
  (exists s' H, (run H <- add_ham 2 atol nat unit h A B; imul_scalar 2 atol nat unit h H (C1 + C1)%C) s = Some (s', H) /\ at_time call s' B 0 0 1 = (C1 + C1)%C) /\
  (exists s' H, (run H <- transpose nat unit h false B; imul_scalar 2 atol nat unit h H (C1 + C1)%C) s = Some (s', H) /\ at_time call s' B 0 0 1 = (C1 + C1)%C).
Proof.
  exists one_call, code, ex_store, hB, hA. split; [apply C31_example|]. split; [exact hwf_B|]. split; [exact hwf_A|]. split; [vm_compute; f_equal; ring|]. intros atol Ha. split.
  - destruct (wp_run _ _ _ (scaled_sum_changes 2 atol Ha one_call code (proj1 C31_example) 0 ex_store hB hA (Fun 0 tt) (at_ 1) (C1 + C1)%C hwf_B hwf_A eq_refl eq_refl)) as (s' & H & E & V).
    exists s', H. split; [exact E|]. rewrite V. vm_compute. f_equal; ring.
  - destruct (wp_run _ _ _ (scaled_transpose_changes 2 atol Ha one_call code ex_store hA (Fun 0 tt) (at_ 1) (C1 + C1)%C hwf_A eq_refl)) as (s' & H & E & V).
    exists s', H. split; [exact E|]. rewrite V. vm_compute. f_equal; ring.
Qed.
Print Assumptions C30_sharing_refuted.

(* a multiple that is small in absolute terms is replaced by zero, however large it is in relative terms *)
Theorem C30_small_refuted : forall (call : nat -> unit -> R -> C) atol, (0 < atol)%R -> exists h s A, no_collision h /\ hwf h s A /\
  exists s' H, mul_scalar 1 atol nat unit h A (RtoC atol) s = Some (s', H) /\ forall t i j, at_time call s' H t i j = C0 /\ mat_scale (RtoC atol) (at_time call s A t) i j = RtoC atol.
Proof.
  intros call atol Ha. set (s := of_list [sp ones]). set (A := {| static := at_ 0; dyn := []; is_dense := true |} : ham nat unit).
  assert (HA : hwf code s A). { split; [|split; [|split]]; [cbn; repeat constructor; intros []|cbn; intros b [<- |[]]; lia|constructor|intros e []]. }
  exists code, s, A. split; [apply C31_example|]. split; [exact HA|].
  cut (wp (mul_scalar 1 atol nat unit code A (RtoC atol)) s (fun s' H => forall t i j, at_time call s' H t i j = C0)).
  { intros W. destruct (wp_run _ _ _ W) as (s' & H & E & V). exists s', H. split; [exact E|]. intros t i j. split; [apply V|]. unfold mat_scale. change (at_time call s A t i j) with C1. ring. }
  unfold mul_scalar. apply wp_bind. eapply wp_mono; [apply (wp_astype_true 1); exact HA|]. intros s1 N (Fr & G & WN & Lb & M). destruct M as [M _]. cbn [A dyn] in M. assert (EN : dyn N = []) by (inversion M; reflexivity).
  unfold scale_terms. rewrite EN. apply wp_bind, wp_iscale. intros s2 Fr2 _ V2 _. apply wp_bind. unfold clean. apply wp_bind, wp_read.
  assert (Z : almost_zero 1 atol (get s2 (static N)) = true).
  { unfold almost_zero. cbn [seq forallb]. rewrite V2, G. unfold mat_scale, get. cbn [s of_list cells A static at_ buf tr tmat nth ent ones sp].
    change (ones 0 0) with C1. destruct (Rle_dec (Cabs (RtoC atol * C1)%C) atol) as [_|No]; [reflexivity|]. exfalso. apply No. replace (RtoC atol * C1)%C with (RtoC atol) by ring. rewrite Cabs_R, Rabs_right; lra. }
  rewrite Z. apply wp_alloc. intros s3 r Fr3 _ _ G3. apply wp_bind, wp_ret. unfold check_is_dense, wp. intros t i j. unfold at_time. cbn [static dyn fold_left]. rewrite G3. reflexivity.
Qed.
Print Assumptions C30_small_refuted.
