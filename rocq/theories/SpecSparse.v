(* Specification of sparse matrices and of the product y := a A x, y += a A x. *)
From Verif Require Import AuxN SpecC.
Local Open Scope nat_scope.

(* entry (i, j) of the matrix stored in CSR, CSC and DIA format; repeated entries add up *)
Definition csr_entry (Ap Aj : nat -> nat) (Ax : nat -> C) (i j : nat) : C :=
  Csum (seq (Ap i) (Ap (S i) - Ap i)) (fun k => if Aj k =? j then Ax k else C0).
Definition csc_entry (Ap Ai : nat -> nat) (Ax : nat -> C) (i j : nat) : C :=
  Csum (seq (Ap j) (Ap (S j) - Ap j)) (fun k => if Ai k =? i then Ax k else C0).
Definition dia_entry (n_diags L : nat) (offsets : nat -> Z) (diags : Z -> C) (i j : nat) : C :=
  Csum (seq 0 n_diags) (fun d => if ((Z.of_nat j - Z.of_nat i =? offsets d)%Z && (j <? L))%bool then diags (Z.of_nat d * Z.of_nat L + Z.of_nat j)%Z else C0).

(* index arrays of a CSR (CSC) matrix with n rows (columns) and m columns (rows) *)
Definition valid_ptr (n m : nat) (Ap Aj : nat -> nat) : Prop :=
  Ap 0 = 0 /\ (forall i, i < n -> Ap i <= Ap (S i)) /\ (forall k, k < Ap n -> Aj k < m).

(* y' holds a A x (+ y) at the addresses yaddr i, and is y elsewhere *)
Definition is_product (ov : bool) (n_row n_col : nat) (A : nat -> nat -> C) (a : C) (x : nat -> C) (yaddr : nat -> Z) (y y' : Z -> C) : Prop :=
  (forall i, i < n_row -> y' (yaddr i) = ((if ov then C0 else y (yaddr i)) + a * Csum (seq 0 n_col) (fun j => A i j * x j))%C) /\
  (forall p, (forall i, i < n_row -> p <> yaddr i) -> y' p = y p).
(* several vectors: column m of x and y *)
Definition is_products (ov : bool) (n_row n_col n_vecs : nat) (A : nat -> nat -> C) (a : C) (x : nat -> nat -> C) (yaddr : nat -> nat -> Z) (y y' : Z -> C) : Prop :=
  (forall i m, i < n_row -> m < n_vecs -> y' (yaddr i m) = ((if ov then C0 else y (yaddr i m)) + a * Csum (seq 0 n_col) (fun j => A i j * x j m))%C) /\
  (forall p, (forall i m, i < n_row -> m < n_vecs -> p <> yaddr i m) -> y' p = y p).
(* different entries of y have different addresses *)
Definition distinct_addresses (n_row n_vecs : nat) (yaddr : nat -> nat -> Z) : Prop :=
  forall i m i' m', i < n_row -> m < n_vecs -> i' < n_row -> m' < n_vecs -> yaddr i m = yaddr i' m' -> i = i' /\ m = m'.

(* a sparse matrix of one of the three formats, or a matrix of any other type whose entries numpy or scipy multiplies *)
Inductive matrix :=
| Csr (Ap Aj : nat -> nat) (Ax : nat -> C)
| Csc (Ap Ai : nat -> nat) (Ax : nat -> C)
| Dia (n_diags L : nat) (offsets : nat -> Z) (diags : Z -> C)
| Other (A : nat -> nat -> C).
(* its entries, and that its index arrays are valid *)
Definition entries (M : matrix) : nat -> nat -> C :=
  match M with Csr Ap Aj Ax => csr_entry Ap Aj Ax | Csc Ap Ai Ax => csc_entry Ap Ai Ax | Dia nd L off d => dia_entry nd L off d | Other A => A end.
Definition valid_matrix (n_row n_col : nat) (M : matrix) : Prop :=
  match M with Csr Ap Aj _ => valid_ptr n_row n_col Ap Aj | Csc Ap Ai _ => valid_ptr n_col n_row Ap Ai | _ => True end.
