(* C34: the right-hand side used to evolve a density matrix is -i[H(t), rho], for every storage format of H.
   valid_op n H: the index arrays of the matrices are valid; real_drive H t: matrices of a real type only have real coefficients at time t;
   dia_fits n M: the rows of a DIA matrix are not longer than n (scipy's transpose is wrong otherwise). *)
From Verif Require Import AuxN SpecC SpecExpm SpecSparse SpecEvolve M_sparse M_evolve P_evolve.
Local Open Scope nat_scope.

Definition compressed (M : matrix) : Prop := match M with Csr _ _ _ | Csc _ _ _ => True | _ => False end.
Definition symmetric (n : nat) (M : matrix) : Prop := forall i j, i < n -> j < n -> entries M i j = entries M j i.
Definition parts (H : op) : list matrix := static H :: map mat (dynamic H).

Lemma one_term_ok n M rho i m : i < n -> m < n -> (compressed M -> symmetric n M) -> one_term n M rho i m = commutator n (entries M) (at2 n rho) i m.
Proof.
  intros Hi Hm S. unfold one_term, commutator. f_equal. apply Csum_ext. intros j Hj. apply in_seq in Hj. f_equal.
  destruct M; try reflexivity; cbn [right_factor]; apply (S I); lia.
Qed.
Lemma commutator_sum n H t rho i m : commutator n (op_at H t) (at2 n rho) i m =
  (commutator n (entries (static H)) (at2 n rho) i m + Csum (dynamic H) (fun d => coef d t * commutator n (entries (mat d)) (at2 n rho) i m))%C.
Proof.
  unfold commutator. rewrite (op_at_sum n H t i (fun j => at2 n rho j m)).
  assert (E : Csum (seq 0 n) (fun j => at2 n rho i j * op_at H t j m)%C =
    (Csum (seq 0 n) (fun j => at2 n rho i j * entries (static H) j m) + Csum (dynamic H) (fun d => coef d t * Csum (seq 0 n) (fun j => at2 n rho i j * entries (mat d) j m)))%C).
  { unfold op_at. rewrite (Csum_ext (seq 0 n) _ (fun j => at2 n rho i j * entries (static H) j m + Csum (dynamic H) (fun d => coef d t * (at2 n rho i j * entries (mat d) j m)))%C).
    - rewrite Csum_add. f_equal. rewrite (Csum_swap (seq 0 n) (dynamic H)). apply Csum_ext. intros d _. apply Csum_mul_l.
    - intros j _. rewrite (Csum_ext (dynamic H) (fun d => coef d t * (at2 n rho i j * entries (mat d) j m))%C (fun d => at2 n rho i j * (coef d t * entries (mat d) j m))%C) by (intros; ring). rewrite Csum_mul_l. ring. }
  rewrite E. rewrite (Csum_ext (dynamic H) (fun d => coef d t * (_ - _))%C (fun d => coef d t * Csum (seq 0 n) (fun j => entries (mat d) i j * at2 n rho j m) + - C1 * (coef d t * Csum (seq 0 n) (fun j => at2 n rho i j * entries (mat d) j m)))%C) by (intros; ring).
  rewrite Csum_add, Csum_mul_l. ring.
Qed.

(* The commutator, if every matrix in CSR or CSC format is symmetric. *)
Theorem C34_commutator_partial : forall n H t rho out, valid_op n H -> (forall M, In M (parts H) -> dia_fits n M) -> real_drive H t ->
  (forall M, In M (parts H) -> compressed M -> symmetric n M) ->
  exists res, LO n H t rho out = Some res /\ forall i m, i < n -> m < n -> at2 n res i m = (- Ci * commutator n (op_at H t) (at2 n rho) i m)%C.
Proof.
  intros n H t rho out V D R S. destruct (LO_ok n H t rho out V) as (res & E & P); [apply D; left; reflexivity|intros d I; apply D; right; apply in_map, I|exact R|].
  exists res. split; [exact E|]. intros i m Hi Hm. rewrite P, commutator_sum by assumption. f_equal. f_equal.
  - apply one_term_ok; try assumption. apply S. left. reflexivity.
  - apply Csum_ext. intros d I. f_equal. apply one_term_ok; try assumption. apply S. right. apply in_map, I.
Qed.
Print Assumptions C34_commutator_partial.

(* What a CSR or CSC matrix gives instead: H rho - rho H^T. *)
Theorem C34_compressed_exact : forall n M rho out real, valid_matrix n n M -> compressed M ->
  exists res, LO n {| static := M; dynamic := []; real_dtype := real |} 0 rho out = Some res /\ forall i m, i < n -> m < n ->
  at2 n res i m = (- Ci * (Csum (seq 0 n) (fun j => entries M i j * at2 n rho j m) - Csum (seq 0 n) (fun j => at2 n rho i j * entries M m j)))%C.
Proof.
  intros n M rho out real V Cm. destruct (LO_ok n {| static := M; dynamic := []; real_dtype := real |} 0 rho out) as (res & E & P).
  - split; [exact V|intros d []].
  - cbn. destruct M; try exact I. destruct Cm.
  - intros d [].
  - intros _ d [].
  - exists res. split; [exact E|]. intros i m Hi Hm. rewrite P by assumption. cbn [static dynamic]. rewrite Csum_nil. unfold one_term. destruct M; try destruct Cm; cbn [right_factor]; ring.
Qed.
Print Assumptions C34_compressed_exact.

(* So the right-hand side of a CSR or CSC matrix is the one of the equation exactly if the matrix is symmetric. *)
Theorem C34_compressed_only_symmetric : forall n M real, valid_matrix n n M -> compressed M ->
  ((forall rho out res i m, i < n -> m < n -> LO n {| static := M; dynamic := []; real_dtype := real |} 0 rho out = Some res ->
      at2 n res i m = (- Ci * commutator n (entries M) (at2 n rho) i m)%C) <-> symmetric n M).
Proof.
  intros n M real V Cm. split.
  - intros A a b Ha Hb.
    set (rho := fun p : Z => if (p =? Z.of_nat a)%Z then C1 else C0).
    assert (Hn : 0 < n) by lia.
    destruct (C34_compressed_exact n M rho rho real V Cm) as (res & E & P). specialize (A rho rho res 0 b Hn Hb E). rewrite P in A by assumption. unfold commutator in A.
    assert (S : forall f : nat -> C, Csum (seq 0 n) (fun j => at2 n rho 0 j * f j)%C = f a).
    { intros f. rewrite (Csum_single (seq 0 n) _ a).
      - unfold at2, rho. rewrite (proj2 (Z.eqb_eq _ _)) by lia. ring.
      - apply seq_NoDup.
      - apply in_seq. lia.
      - intros j Hj Nj. unfold at2, rho. rewrite (proj2 (Z.eqb_neq _ _)) by lia. ring. }
    rewrite (S (fun j => entries M b j)), (S (fun j => entries M j b)) in A.
    assert (Q : forall x y z : C, (- Ci * (x - y))%C = (- Ci * (x - z))%C -> z = y).
    { intros x y z F. apply (f_equal (fun w => (Ci * w)%C)) in F. replace (Ci * (- Ci * (x - y)))%C with (x - y)%C in F by (apply C_eq; cbn; ring).
      replace (Ci * (- Ci * (x - z)))%C with (x - z)%C in F by (apply C_eq; cbn; ring). replace y with (x - (x - y))%C by ring. rewrite F. ring. }
    exact (Q _ _ _ A).
  - intros S rho out res i m Hi Hm E. destruct (C34_compressed_exact n M rho out real V Cm) as (res' & E' & P). rewrite E in E'. injection E' as <-. rewrite P by assumption.
    unfold commutator. f_equal. f_equal. apply Csum_ext. intros j Hj. apply in_seq in Hj. f_equal. apply S; lia.
Qed.
Print Assumptions C34_compressed_only_symmetric.

(* The Pauli matrix sigma^y in CSR format: the right-hand side of its own equation of motion is wrong. *)
Definition sy_ptr (i : nat) : nat := i.
Definition sy_idx (k : nat) : nat := match k with 0 => 1 | _ => 0 end.
Definition sy_dat (k : nat) : C := match k with 0 => (- Ci)%C | _ => Ci end.
Theorem C34_hermitian_refuted : exists n H rho, valid_op n H /\ (forall i j, i < n -> j < n -> op_at H 0 i j = Cconj (op_at H 0 j i)) /\
  (forall i j, i < n -> j < n -> at2 n rho i j = Cconj (at2 n rho j i)) /\
  forall out, exists res, LO n H 0 rho out = Some res /\ exists i m, i < n /\ m < n /\ at2 n res i m <> (- Ci * commutator n (op_at H 0) (at2 n rho) i m)%C.
Proof.
  set (M := Csr sy_ptr sy_idx sy_dat). exists 2, {| static := M; dynamic := []; real_dtype := false |}, (fun p => if (p =? 0)%Z then C1 else C0).
  assert (V : valid_matrix 2 2 M) by (split; [reflexivity|split; [intros i _; unfold sy_ptr; lia|intros [|k] _; cbn; lia]]).
  split; [split; [exact V|intros d []]|]. split.
  { intros [|[|i]] [|[|j]] Hi Hj; try lia; apply C_eq; cbn; ring. }
  split.
  { intros [|[|i]] [|[|j]] Hi Hj; try lia; apply C_eq; cbn; ring. }
  intros out. destruct (C34_compressed_exact 2 M (fun p => if (p =? 0)%Z then C1 else C0) out false V I) as (res & E & P).
  exists res. split; [exact E|]. exists 0, 1. split; [lia|]. split; [lia|]. rewrite P by lia. intros Q. apply (f_equal fst) in Q. cbn in Q. lra.
Qed.
Print Assumptions C34_hermitian_refuted.

(* A case that meets the hypotheses: a symmetric CSR matrix, a DIA matrix and a dense one, with a complex drive. *)
Example C34_hyps : let H := {| static := Csr sy_ptr sy_idx (fun _ => C1); dynamic := [
    {| coef := fun t => (cos t, sin t); is_complex := true; mat := Dia 1 2 (fun _ => 0%Z) (fun p => RtoC (IZR p)) |};
    {| coef := fun t => RtoC t; is_complex := false; mat := Other (fun i j => if i <? j then Ci else (- Ci)%C) |}]; real_dtype := false |} in
  valid_op 2 H /\ (forall M, In M (parts H) -> dia_fits 2 M) /\ (forall t, real_drive H t) /\ (forall M, In M (parts H) -> compressed M -> symmetric 2 M).
Proof.
  cbn zeta. split; [|split; [|split]].
  - split; [split; [reflexivity|split; [intros i _; cbn; unfold sy_ptr; lia|intros [|k] _; cbn; lia]]|intros d [<- |[<- |[]]]; exact I].
  - intros M [<- |[<- |[<- |[]]]]; cbn; lia || exact I.
  - intros t E. discriminate E.
  - intros M [<- |[<- |[<- |[]]]] Cm; try destruct Cm. intros [|[|i]] [|[|j]] Hi Hj; try lia; apply C_eq; cbn; ring.
Qed.
