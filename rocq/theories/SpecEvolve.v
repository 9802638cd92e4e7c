(* Specification of the equations of motion: the matrix of an operator at a time, -iH psi, -H psi and -i[H, rho], and of complex vectors
   stored as real ones. *)
From Verif Require Import AuxN SpecC SpecExpm SpecSparse.
Local Open Scope nat_scope.

(* a static matrix and dynamic terms f(t) M; is_complex: the function returns complex numbers; real_dtype: all matrices are of a real type *)
Record term := { coef : R -> C; is_complex : bool; mat : matrix }.
Record op := { static : matrix; dynamic : list term; real_dtype : bool }.
Definition op_at (H : op) (t : R) (i j : nat) : C := (entries (static H) i j + Csum (dynamic H) (fun d => coef d t * entries (mat d) i j))%C.
Definition valid_op (n : nat) (H : op) : Prop := valid_matrix n n (static H) /\ forall d, In d (dynamic H) -> valid_matrix n n (mat d).
(* the functions return the type they are said to return; types: matrices of a real type only have real functions *)
Definition well_typed (H : op) (t : R) : Prop := forall d, In d (dynamic H) -> is_complex d = false -> snd (coef d t) = 0%R.
Definition real_drive (H : op) (t : R) : Prop := real_dtype H = true -> forall d, In d (dynamic H) -> snd (coef d t) = 0%R.

(* entry (i, m) of the array with k columns stored row by row *)
Definition at2 (k : nat) (y : Z -> C) (i m : nat) : C := y (Z.of_nat i * Z.of_nat k + Z.of_nat m)%Z.
Definition commutator (n : nat) (A B : nat -> nat -> C) (i m : nat) : C :=
  (Csum (seq 0 n) (fun j => A i j * B j m) - Csum (seq 0 n) (fun j => B i j * A j m))%C.
(* an array is one-dimensional (None) or has k columns *)
Definition columns (shp : option nat) : nat := match shp with None => 1 | Some k => k end.

(* sum of the squared moduli of the entries of a list *)
Definition norm2 (v : list C) : R := Rsum v (fun z => fst z * fst z + snd z * snd z)%R.
Definition vnorm (v : list C) : R := sqrt (norm2 v).
Definition vscale (c : R) (v : list C) : list C := map (fun z => (RtoC c * z)%C) v.

(* a complex vector stored in a real array: real parts then imaginary parts; real parts only; real and imaginary parts in turn *)
Inductive mode := Stack | Real | Complex.
Definition stores (m : mode) (v : list C) (y : list R) : Prop :=
  match m with
  | Stack => length y = 2 * length v /\ forall i, i < length v -> nth i y 0%R = fst (nth i v C0) /\ nth (length v + i) y 0%R = snd (nth i v C0)
  | Real => length y = length v /\ forall i, i < length v -> nth i y 0%R = fst (nth i v C0) /\ snd (nth i v C0) = 0%R
  | Complex => length y = 2 * length v /\ forall i, i < length v -> nth (2 * i) y 0%R = fst (nth i v C0) /\ nth (2 * i + 1) y 0%R = snd (nth i v C0)
  end.
