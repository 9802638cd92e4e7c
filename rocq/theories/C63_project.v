(* C63: projecting operators to and from a subspace (project_op). *)
From Verif Require Import AuxN SpecC SpecExpm SpecLanczos SpecExpect M_project.
Local Open Scope nat_scope.

(* the operator at time t *)
Definition value (H : ham) (t : R) : mat := fun i j => (ent (stat H) i j + Csum (dyns H) (fun d => fst d t * ent (snd d) i j))%C.
(* P^+ A P for an n x m matrix P, and P A P^+ for an m x n matrix P *)
Definition reduced (n : nat) (P A : mat) : mat := fun i j => Csum (seq 0 n) (fun k => Csum (seq 0 n) (fun l => Cconj (P k i) * A k l * P l j)%C).
Definition lifted (n : nat) (P A : mat) : mat := fun i j => Csum (seq 0 n) (fun k => Csum (seq 0 n) (fun l => P i k * A k l * Cconj (P j l))%C).
(* an operator on a space of dimension n *)
Definition sized (n : nat) (A : rmat) : Prop := nr A = n /\ nc A = n.
Definition matrices (n : nat) (H : ham) : Prop := shape H = (n, n) /\ sized n (stat H) /\ forall d, In d (dyns H) -> sized n (snd d).
Definition operator_on (n : nat) (H : ham) : Prop := num H = n /\ matrices n H.

Lemma zero_true z : zero z = true <-> z = C0.
Proof. unfold zero. destruct z as [x y]. cbn. destruct (Req_EM_T x 0), (Req_EM_T y 0); split; intro H; try discriminate; try reflexivity; try (subst; reflexivity); apply C_eq in H || injection H; intros; subst; contradiction. Qed.
Lemma is_zero_true A : is_zero A = true <-> forall i j, i < nr A -> j < nc A -> ent A i j = C0.
Proof.
  unfold is_zero. rewrite forallb_forall. split.
  - intros H i j Hi Hj. specialize (H i ltac:(apply in_seq; lia)). rewrite forallb_forall in H. apply zero_true. apply H. apply in_seq. lia.
  - intros H i Hi. apply forallb_forall. intros j Hj. apply in_seq in Hi, Hj. apply zero_true. apply H; lia.
Qed.

Section One.
Variables (n m : nat) (P : rmat).
Hypothesis HP : nr P = n /\ nc P = m.
Definition half (A : rmat) : rmat := {| nr := m; nc := n; ent := fun i j => Csum (seq 0 n) (fun k => Cconj (ent P k i) * ent A k j)%C |}.
Definition full (A : rmat) : rmat := {| nr := m; nc := m; ent := fun i j => Csum (seq 0 n) (fun k => ent A i k * ent P k j)%C |}.
Lemma left_mul A : sized n A -> mmul (adj P) A = Some (half A).
Proof. intros [H1 H2]. destruct HP as [P1 P2]. unfold mmul, half. cbn. now rewrite P1, P2, H1, H2, Nat.eqb_refl. Qed.
Lemma right_mul A : nr A = m -> nc A = n -> mmul A P = Some (full A).
Proof. intros H1 H2. destruct HP as [P1 P2]. unfold mmul, full. cbn. now rewrite P1, P2, H1, H2, Nat.eqb_refl. Qed.
Lemma half_full A i j : ent (full (half A)) i j = reduced n (ent P) (ent A) i j.
Proof.
  cbn. unfold reduced. rewrite (Csum_swap (seq 0 n) (seq 0 n) (fun k l => Cconj (ent P k i) * ent A k l * ent P l j)%C). apply Csum_ext. intros l _. rewrite <- Csum_mul_r. reflexivity.
Qed.
Lemma half_zero A i j : is_zero (half A) = true -> i < m -> reduced n (ent P) (ent A) i j = C0.
Proof.
  intros Z Hi. rewrite <- half_full. cbn [full ent]. apply Csum_zero. intros k Hk. apply in_seq in Hk. rewrite is_zero_true in Z. rewrite (Z i k) by (cbn; lia). ring.
Qed.
Definition nz (l : list ((R -> C) * rmat)) := filter (fun d => negb (is_zero (snd d))) l.
Lemma each_left l : (forall d, In d l -> sized n (snd d)) -> each (mmul (adj P)) l = Some (map (fun d => (fst d, half (snd d))) l).
Proof. induction l as [|d l IH]; intro H; [reflexivity|]. cbn [each map]. rewrite left_mul by (apply H; now left). rewrite IH by (intros; apply H; now right). reflexivity. Qed.
Lemma each_right l : (forall d, In d l -> nr (snd d) = m /\ nc (snd d) = n) -> each (fun A => mmul A P) l = Some (map (fun d => (fst d, full (snd d))) l).
Proof. induction l as [|d l IH]; intro H; [reflexivity|]. cbn [each map]. rewrite right_mul by (apply H; now left). rewrite IH by (intros; apply H; now right). reflexivity. Qed.
Lemma drives_value l t i j : i < m -> j < m ->
  Csum (nz (map (fun d => (fst d, full (snd d))) (nz (map (fun d => (fst d, half (snd d))) l)))) (fun d => fst d t * ent (snd d) i j)%C
  = Csum l (fun d => fst d t * reduced n (ent P) (ent (snd d)) i j)%C.
Proof.
  intros Hi Hj. induction l as [|d l IH]; [reflexivity|]. rewrite Csum_cons, <- IH. cbn [map]. unfold nz at 2. cbn [filter fst snd]. destruct (is_zero (half (snd d))) eqn:E; cbn [negb].
  - rewrite (half_zero _ i j E Hi). fold (nz (map (fun d => (fst d, half (snd d))) l)). ring.
  - cbn [map]. unfold nz at 1. cbn [filter fst snd]. destruct (is_zero (full (half (snd d)))) eqn:E2; cbn [negb].
    + rewrite <- half_full. rewrite is_zero_true in E2. rewrite (E2 i j) by (cbn; lia). fold (nz (map (fun d => (fst d, half (snd d))) l)). unfold nz. ring.
    + rewrite Csum_cons. cbn [fst snd]. rewrite half_full. reflexivity.
Qed.
Lemma value_reduced H t i j : reduced n (ent P) (value H t) i j = (reduced n (ent P) (ent (stat H)) i j + Csum (dyns H) (fun d => fst d t * reduced n (ent P) (ent (snd d)) i j))%C.
Proof.
  unfold value. generalize (ent (stat H)) as S. induction (dyns H) as [|d l IH]; intro S.
  - rewrite Csum_nil. transitivity (reduced n (ent P) S i j); [|ring]. unfold reduced. apply Csum_ext. intros. apply Csum_ext. intros. rewrite Csum_nil. ring.
  - rewrite Csum_cons. specialize (IH (fun i j => S i j + fst d t * ent (snd d) i j)%C).
    transitivity (reduced n (ent P) (fun i j => S i j + fst d t * ent (snd d) i j + Csum l (fun d => fst d t * ent (snd d) i j))%C i j).
    { unfold reduced. apply Csum_ext. intros. apply Csum_ext. intros. rewrite Csum_cons. ring. }
    rewrite IH. assert (L : reduced n (ent P) (fun i j => S i j + fst d t * ent (snd d) i j)%C i j = (reduced n (ent P) S i j + fst d t * reduced n (ent P) (ent (snd d)) i j)%C).
    { unfold reduced. rewrite <- Csum_mul_l, <- Csum_add. apply Csum_ext. intros. rewrite <- Csum_mul_l, <- Csum_add. apply Csum_ext. intros. ring. }
    rewrite L. ring.
Qed.
Lemma project_to_right f H : matrices n H -> (f = Dense \/ dyns H = []) ->
  exists H', project_to f H P = Some H' /\ matrices m H' /\ num H' = num H /\ forall t i j, i < m -> j < m -> value H' t i j = reduced n (ent P) (value H t) i j.
Proof.
  intros (HS & H1 & H2) HF. destruct HP as [P1 P2]. unfold project_to. rewrite HS, P1. cbn [snd]. rewrite Nat.eqb_refl. cbn [negb]. unfold rmul, products at 1.
  rewrite left_mul by exact H1. rewrite each_left by exact H2. cbn [num stat dyns]. rewrite HS, P2.
  set (S1 := if is_zero (half (stat H)) then zeros (n, n) else half (stat H)). fold (nz (map (fun d => (fst d, half (snd d))) (dyns H))). set (D1 := nz (map (fun d => (fst d, half (snd d))) (dyns H))).
  assert (QD : forall d, In d D1 -> nr (snd d) = m /\ nc (snd d) = n).
  { intros d Hd. unfold D1, nz in Hd. apply filter_In in Hd. destruct Hd as [Hd _]. apply in_map_iff in Hd. destruct Hd as (x & <- & _). split; reflexivity. }
  assert (QS : exists X, mmul S1 P = Some X /\ let S2 := if is_zero X then zeros (m, m) else X in sized m S2 /\ forall i j, i < m -> j < m -> ent S2 i j = reduced n (ent P) (ent (stat H)) i j).
  { unfold S1. destruct (is_zero (half (stat H))) eqn:E.
    - eexists. split; [unfold mmul; cbn [zeros nr nc fst snd]; rewrite P1, Nat.eqb_refl; reflexivity|]. cbv zeta.
      match goal with |- context [is_zero ?X] => assert (Z : is_zero X = true) end.
      { apply is_zero_true. intros i j _ _. cbn. apply Csum_zero. intros. ring. }
      rewrite Z. split; [split; reflexivity|]. intros i j Hi Hj. cbn. symmetry. exact (half_zero _ i j E Hi).
    - exists (full (half (stat H))). split; [apply right_mul; reflexivity|]. cbv zeta. destruct (is_zero (full (half (stat H)))) eqn:E2.
      + split; [split; reflexivity|]. intros i j Hi Hj. rewrite <- half_full. rewrite is_zero_true in E2. rewrite (E2 i j) by (cbn; lia). reflexivity.
      + split; [split; reflexivity|]. intros i j Hi Hj. apply half_full. }
  destruct QS as (X & EX & QS1 & QS2).
  assert (QE : match f with Sparse => each (mmul P) D1 | Dense => each (fun A => mmul A P) D1 end = Some (map (fun d => (fst d, full (snd d))) D1)).
  { destruct HF as [->|HF]; [apply each_right; exact QD|]. unfold D1. rewrite HF. destruct f; reflexivity. }
  exists {| num := num H; shape := (m, m); stat := if is_zero X then zeros (m, m) else X; dyns := nz (map (fun d => (fst d, full (snd d))) D1) |}.
  split; [|split; [|split]].
  - destruct f; unfold imul_sparse, imul_dense, products; cbn [stat dyns num shape]; rewrite EX, QE; reflexivity.
  - split; [reflexivity|]. split; [exact QS1|]. cbn [dyns]. intros d Hd. unfold nz in Hd. apply filter_In in Hd. destruct Hd as [Hd _]. apply in_map_iff in Hd. destruct Hd as (x & <- & _). split; reflexivity.
  - reflexivity.
  - intros t i j Hi Hj. unfold value at 1. cbn [stat dyns]. rewrite (QS2 i j Hi Hj). unfold D1. rewrite drives_value by assumption. symmetry. apply value_reduced.
Qed.
End One.

(* From the large to the small space: P^+ H(t) P at every time, for arrays and, without drives, for scipy matrices. *)
Theorem C63_down_partial : forall f n m P H, nr P = n -> nc P = m -> operator_on n H -> (f = Dense \/ dyns H = []) ->
  exists H', project_op f H P = Some H' /\ matrices m H' /\ forall t i j, i < m -> j < m -> value H' t i j = reduced n (ent P) (value H t) i j.
Proof.
  intros f n m P H P1 P2 [HN HM] HF. unfold project_op. rewrite HN, P1, Nat.eqb_refl. destruct (project_to_right n m P (conj P1 P2) f H HM HF) as (H' & E & M & _ & V). exists H'. auto.
Qed.
Print Assumptions C63_down_partial.

(* From the small to the large space: P H(t) P^+. *)
Theorem C63_up_partial : forall f n m P H, nr P = m -> nc P = n -> n <> m -> operator_on n H -> (f = Dense \/ dyns H = []) ->
  exists H', project_op f H P = Some H' /\ matrices m H' /\ forall t i j, i < m -> j < m -> value H' t i j = lifted n (ent P) (value H t) i j.
Proof.
  intros f n m P H P1 P2 Hne [HN HM] HF. unfold project_op. rewrite HN, P1, P2, Nat.eqb_refl. rewrite (proj2 (Nat.eqb_neq n m) Hne).
  destruct (project_to_right n m (adj P) (conj P2 P1) f H HM HF) as (H' & E & M & _ & V). exists H'. split; [exact E|]. split; [exact M|]. intros t i j Hi Hj. rewrite V by assumption.
  unfold reduced, lifted. apply Csum_ext. intros k _. apply Csum_ext. intros l _. cbn. f_equal. f_equal. apply C_eq; cbn; ring.
Qed.
Print Assumptions C63_up_partial.

(* Arrays: the same products; square arrays that fit are accepted, all others refused. *)
Theorem C63_array : forall n O P, nr O = n ->
  (nc O = n -> nr P = n -> exists X, project_array O P = Some X /\ sized (nc P) X /\ forall i j, i < nc P -> j < nc P -> ent X i j = reduced n (ent P) (ent O) i j) /\
  (nc O = n -> nr P <> n -> nc P = n -> exists X, project_array O P = Some X /\ sized (nr P) X /\ forall i j, i < nr P -> j < nr P -> ent X i j = lifted n (ent P) (ent O) i j) /\
  (nc O <> n \/ (nr P <> n /\ nc P <> n) -> project_array O P = None).
Proof.
  intros n O P HO. split; [|split].
  - intros HC HR. unfold project_array, mmul, adj. rewrite HO, HC, HR, Nat.eqb_refl. cbn [negb nr nc ent]. rewrite ?HO, ?HR, ?Nat.eqb_refl. eexists. split; [reflexivity|]. split; [split; reflexivity|].
    intros i j _ _. cbn. unfold reduced. apply Csum_ext. intros k _. rewrite <- Csum_mul_l. rewrite ?HC. apply Csum_ext. intros. ring.
  - intros HC HR HQ. unfold project_array, mmul, adj. rewrite HO, HC, Nat.eqb_refl. cbn [negb nr nc ent]. rewrite (proj2 (Nat.eqb_neq n (nr P))) by congruence. rewrite HQ, Nat.eqb_refl. rewrite ?HO, ?Nat.eqb_refl.
    eexists. split; [reflexivity|]. split; [split; reflexivity|]. intros i j _ _. cbn. unfold lifted. apply Csum_ext. intros k _. rewrite <- Csum_mul_l. apply Csum_ext. intros. ring.
  - intros HH. unfold project_array. rewrite HO. destruct (Nat.eqb_spec n (nc O)) as [E|E]; [|reflexivity]. cbn. destruct HH as [HH|[H1 H2]]; [congruence|].
    rewrite <- E, (proj2 (Nat.eqb_neq n (nr P))), (proj2 (Nat.eqb_neq n (nc P))) by congruence. reflexivity.
Qed.
Print Assumptions C63_array.

(* Projectors with neither dimension equal to that of the operator are refused. *)
Theorem C63_refused : forall f n P H, operator_on n H -> nr P <> n -> nc P <> n -> project_op f H P = None.
Proof. intros f n P H [HN _] H1 H2. unfold project_op. rewrite HN, (proj2 (Nat.eqb_neq n (nr P))), (proj2 (Nat.eqb_neq n (nc P))) by congruence. reflexivity. Qed.
Print Assumptions C63_refused.

(* The attribute Ns of the result is still that of the operator before the projection: evolve of the projected operator refuses every
   state of the space it acts on, and accepts only numbers of elements for which its products fail. *)
Theorem C63_Ns_refuted : forall n m P H, nr P = n -> nc P = m -> operator_on n H -> n <> m ->
  exists H', project_op Dense H P = Some H' /\ matrices m H' /\ num H' = n /\ evolve_accepts H' m = false.
Proof.
  intros n m P H P1 P2 [HN HM] Hne. unfold project_op. rewrite HN, P1, Nat.eqb_refl. destruct (project_to_right n m P (conj P1 P2) Dense H HM (or_introl eq_refl)) as (H' & E & M & N & _).
  exists H'. split; [exact E|]. split; [exact M|]. split; [congruence|]. unfold evolve_accepts. apply Nat.eqb_neq. congruence.
Qed.
Print Assumptions C63_Ns_refuted.

(* With a scipy matrix, as get_proj gives it, the drives are multiplied from the wrong side: they become P P^+ D, of the dimension of the
   large space, in an operator of the small one. *)
Theorem C63_driven_refuted : exists n m P H H', operator_on n H /\ nr P = n /\ nc P = m /\ project_op Sparse H P = Some H' /\
  shape H' = (m, m) /\ (exists d, In d (dyns H') /\ sized n (snd d)) /\ n <> m /\ value H' 0 0 0 <> reduced n (ent P) (value H 0) 0 0.
Proof.
  pose (P := {| nr := 2; nc := 1; ent := fun _ _ => C1 |}). pose (D := {| nr := 2; nc := 2; ent := fun i j => if i =? j then C1 else C0 |}).
  pose (H := {| num := 2; shape := (2, 2); stat := zeros (2, 2); dyns := [(fun _ => C1, D)] |}).
  exists 2, 1, P, H. eexists. split; [split; [reflexivity|]; split; [reflexivity|]; split; [split; reflexivity|]; intros d [<-|[]]; split; reflexivity|].
  split; [reflexivity|]. split; [reflexivity|].
  assert (Z1 : forall A, (exists i j, i < nr A /\ j < nc A /\ ent A i j <> C0) -> is_zero A = false).
  { intros A (i & j & Hi & Hj & Hne). apply Bool.not_true_is_false. intro Q. rewrite is_zero_true in Q. exact (Hne (Q i j Hi Hj)). }
  assert (Z2 : forall A, (forall i j, ent A i j = C0) -> is_zero A = true) by (intros A Q; apply is_zero_true; intros; apply Q).
  split.
  - unfold project_op, project_to, rmul, imul_sparse, products. cbn [H P num nr nc Nat.eqb shape snd negb stat dyns each mmul adj zeros fst D].
    unfold mmul. cbn [adj nr nc Nat.eqb zeros fst snd D P].
    rewrite (Z2 {| nr := 1; nc := 2; ent := _ |}) by (intros; cbn; apply C_eq; cbn; ring).
    cbn [filter snd]. rewrite (Z1 {| nr := 1; nc := 2; ent := _ |}) by (exists 0, 0; repeat split; cbn; try lia; intro Q; apply (f_equal fst) in Q; cbn in Q; lra).
    cbn [negb shape num stat dyns nc nr zeros fst snd each Nat.eqb filter].
    rewrite (Z2 {| nr := 2; nc := 1; ent := _ |}) by (intros; cbn; apply C_eq; cbn; ring).
    rewrite (Z1 {| nr := 2; nc := 2; ent := _ |}) by (exists 0, 0; repeat split; cbn; try lia; intro Q; apply (f_equal fst) in Q; cbn in Q; lra).
    reflexivity.
  - split; [reflexivity|]. split; [eexists; split; [left; reflexivity|split; reflexivity]|]. split; [lia|].
    intro Q. apply (f_equal fst) in Q. cbn in Q. lra.
Qed.
Print Assumptions C63_driven_refuted.

(* a driven operator on two levels and the projection to the first *)
Example C63_meets : let H := {| num := 2; shape := (2, 2); stat := zeros (2, 2); dyns := [(fun t => RtoC t, {| nr := 2; nc := 2; ent := fun _ _ => C1 |})] |} in
  let P := {| nr := 2; nc := 1; ent := fun i _ => if i =? 0 then C1 else C0 |} in operator_on 2 H /\ nr P = 2 /\ nc P = 1 /\ reduced 2 (ent P) (value H 5) 0 0 = RtoC 5.
Proof.
  cbv zeta. split; [split; [reflexivity|]; split; [reflexivity|]; split; [split; reflexivity|]; intros d [<-|[]]; split; reflexivity|].
  split; [reflexivity|]. split; [reflexivity|]. unfold reduced, value, Csum. apply C_eq; cbn; ring.
Qed.
