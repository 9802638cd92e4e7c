(* C63: rotating an operator again and again (rotate_by with square arrays). *)
From Verif Require Import AuxN SpecC SpecExpm SpecLanczos SpecExpect P_expect M_project C63_project.
Local Open Scope nat_scope.

(* V_1 V_2 ... *)
Definition unit_mat : mat := fun i j => if i =? j then C1 else C0.
Fixpoint product (n : nat) (Vs : list rmat) : mat := match Vs with [] => unit_mat | V :: r => mul n (ent V) (product n r) end.
Definition unitary (n : nat) (V : mat) : Prop := forall i j, i < n -> j < n -> Csum (seq 0 n) (fun k => V i k * Cconj (V j k))%C = unit_mat i j.
Definition dag (P : mat) : mat := fun i j => Cconj (P j i).

Lemma reduced_mul n P A i j : reduced n P A i j = mul n (dag P) (mul n A P) i j.
Proof. unfold reduced, mul, dag. apply Csum_ext. intros k _. rewrite <- Csum_mul_l. apply Csum_ext. intros. ring. Qed.
Lemma mul_cong n A A' B B' i j : (forall k, k < n -> A i k = A' i k) -> (forall k, k < n -> B k j = B' k j) -> mul n A B i j = mul n A' B' i j.
Proof. intros HA HB. unfold mul. apply Csum_ext. intros k Hk. apply in_seq in Hk. now rewrite HA, HB by lia. Qed.
Lemma reduced_ext n P A A' i j : (forall k l, k < n -> l < n -> A k l = A' k l) -> reduced n P A i j = reduced n P A' i j.
Proof. intro E. unfold reduced. apply Csum_ext. intros k Hk. apply Csum_ext. intros l Hl. apply in_seq in Hk, Hl. now rewrite E by lia. Qed.
Lemma dag_mul n V W i j : dag (mul n V W) i j = mul n (dag W) (dag V) i j.
Proof. unfold dag, mul. rewrite Csum_conj. apply Csum_ext. intros. apply C_eq; cbn; ring. Qed.
Lemma reduced_compose n V W A i j : reduced n W (reduced n V A) i j = reduced n (mul n V W) A i j.
Proof.
  rewrite !reduced_mul. rewrite (mul_cong n (dag (mul n V W)) (mul n (dag W) (dag V)) (mul n A (mul n V W)) (mul n (mul n A V) W)); [|intros; apply dag_mul|intros; symmetry; apply mul_assoc].
  rewrite mul_assoc. apply mul_cong; [reflexivity|]. intros k _. rewrite <- mul_assoc. apply mul_cong; [|reflexivity]. intros l _. apply reduced_mul.
Qed.
Lemma reduced_unit n A i j : i < n -> j < n -> reduced n unit_mat A i j = A i j.
Proof.
  intros Hi Hj. unfold reduced. rewrite (Csum_single _ _ i); [|apply seq_NoDup|apply in_seq; lia|].
  - rewrite (Csum_single _ _ j); [|apply seq_NoDup|apply in_seq; lia|].
    + unfold unit_mat. rewrite !Nat.eqb_refl. apply C_eq; cbn; ring.
    + intros l _ Hl. unfold unit_mat. rewrite (proj2 (Nat.eqb_neq l j) Hl). ring.
  - intros k _ Hk. apply Csum_zero. intros l _. unfold unit_mat. rewrite (proj2 (Nat.eqb_neq k i) Hk). apply C_eq; cbn; ring.
Qed.

(* Any number of rotations V_1, V_2, ...: one rotation with their product, at every time and with any drives. *)
Theorem C63_rotations : forall n Vs H, operator_on n H -> (forall V, In V Vs -> sized n V) ->
  exists H', rotations H Vs = Some H' /\ operator_on n H' /\ forall t i j, i < n -> j < n -> value H' t i j = reduced n (product n Vs) (value H t) i j.
Proof.
  intros n Vs. induction Vs as [|V r IH]; intros H HO HV.
  - exists H. split; [reflexivity|]. split; [exact HO|]. intros t i j Hi Hj. cbn [product]. symmetry. now apply reduced_unit.
  - destruct HO as [HN HM]. destruct (project_to_right n n V (HV V (or_introl eq_refl)) Dense H HM (or_introl eq_refl)) as (H1 & E1 & M1 & N1 & V1).
    destruct (IH H1) as (H' & E & O & Q); [split; [congruence|exact M1]|intros; apply HV; now right|]. exists H'. cbn [rotations]. unfold rotate_by. rewrite E1. split; [exact E|]. split; [exact O|].
    intros t i j Hi Hj. rewrite Q by assumption. cbn [product]. rewrite <- reduced_compose. apply reduced_ext. intros k l Hk Hl. now apply V1.
Qed.
Print Assumptions C63_rotations.

Lemma trace_reduced n V A : unitary n V -> tr n (reduced n V A) = tr n A.
Proof.
  intro U. transitivity (tr n (mul n (dag V) (mul n A V))); [apply tr_ext; intros; apply reduced_mul|]. rewrite tr_cyclic. apply tr_ext. intros i Hi.
  rewrite mul_assoc. transitivity (mul n A unit_mat i i).
  - apply mul_cong; [reflexivity|]. intros k Hk. unfold mul, dag. exact (U k i Hk Hi).
  - unfold mul. rewrite (Csum_single _ _ i); [|apply seq_NoDup|apply in_seq; lia|].
    + unfold unit_mat. rewrite Nat.eqb_refl. ring.
    + intros k _ Hk. unfold unit_mat. rewrite (proj2 (Nat.eqb_neq k i) Hk). ring.
Qed.
Lemma trace_ext n A B : (forall i j, i < n -> j < n -> A i j = B i j) -> tr n A = tr n B.
Proof. intro E. apply tr_ext. intros i Hi. now apply E. Qed.
(* Rotations with unitary matrices keep the trace of the operator at every time, and Hermitian operators Hermitian. *)
Theorem C63_rotations_trace : forall n Vs H, operator_on n H -> (forall V, In V Vs -> sized n V /\ unitary n (ent V)) ->
  exists H', rotations H Vs = Some H' /\ forall t, tr n (value H' t) = tr n (value H t) /\ (hermitian n (value H t) -> hermitian n (value H' t)).
Proof.
  intros n Vs. induction Vs as [|V r IH]; intros H HO HV; [exists H; split; [reflexivity|]; intro t; split; [reflexivity|auto]|].
  destruct HO as [HN HM]. destruct (HV V (or_introl eq_refl)) as [VS VU]. destruct (project_to_right n n V VS Dense H HM (or_introl eq_refl)) as (H1 & E1 & M1 & N1 & V1).
  destruct (IH H1) as (H' & E & Q); [split; [congruence|exact M1]|intros; apply HV; now right|]. exists H'. cbn [rotations]. unfold rotate_by. rewrite E1. split; [exact E|].
  intro t. destruct (Q t) as [Q1 Q2]. split.
  - rewrite Q1, <- (trace_reduced n (ent V) (value H t) VU). apply trace_ext. intros i j Hi Hj. now apply V1.
  - intro HH. apply Q2. intros i j Hi Hj. rewrite !V1 by assumption. unfold reduced. rewrite Csum_conj. rewrite Csum_swap. apply Csum_ext. intros k Hk. rewrite Csum_conj. apply Csum_ext. intros l Hl.
    apply in_seq in Hk, Hl. rewrite (HH l k) by lia. apply C_eq; cbn; ring.
Qed.
Print Assumptions C63_rotations_trace.

(* the rotation by (0 i; i 0), twice, of a driven operator on two levels *)
Example C63_rotations_meets : let V := {| nr := 2; nc := 2; ent := fun i j => if i =? j then C0 else Ci |} in sized 2 V /\ unitary 2 (ent V) /\
  operator_on 2 {| num := 2; shape := (2, 2); stat := zeros (2, 2); dyns := [(fun t => RtoC t, V)] |} /\ product 2 [V; V] 0 0 = (- C1)%C.
Proof.
  cbv zeta. split; [split; reflexivity|]. split; [intros [|[|i]] [|[|j]] Hi Hj; try lia; unfold Csum, unit_mat; apply C_eq; cbn; ring|]. split.
  - split; [reflexivity|]. split; [reflexivity|]. split; [split; reflexivity|]. intros d [<-|[]]. split; reflexivity.
  - cbn [product]. unfold mul, unit_mat, Csum. apply C_eq; cbn; ring.
Qed.

(* Because Ns is the old one, the projected operator cannot be projected back: project_op with the same projector raises an exception. *)
Theorem C63_back_refuted : forall n m P H f, nr P = n -> nc P = m -> n <> m -> operator_on n H ->
  exists H', project_op Dense H P = Some H' /\ matrices m H' /\ project_op f H' P = None.
Proof.
  intros n m P H f P1 P2 Hne [HN HM]. destruct (project_to_right n m P (conj P1 P2) Dense H HM (or_introl eq_refl)) as (H' & E & M & N & _).
  exists H'. split; [unfold project_op; rewrite HN, P1, Nat.eqb_refl; exact E|]. split; [exact M|]. unfold project_op, project_to. rewrite N, HN, P1, Nat.eqb_refl, (proj1 M). cbn [snd].
  rewrite (proj2 (Nat.eqb_neq m n)) by congruence. reflexivity.
Qed.
Print Assumptions C63_back_refuted.
