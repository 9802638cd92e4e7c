(* Specification of expectation values: the states an array stands for, the mean and the variance of a matrix in a state. *)
From Verif Require Import AuxN SpecC SpecExpm SpecLanczos.
Local Open Scope nat_scope.

Definition mat := nat -> nat -> C.
(* arrays given by the user: one- to three-dimensional, or scipy matrices; the number of rows comes first *)
Inductive array :=
  | V1 (r : nat) (f : vec)
  | V2 (r k : nat) (f : mat)
  | V3 (r m k : nat) (f : nat -> nat -> nat -> C)
  | Sp (r k : nat) (f : mat).
Inductive time := At (t : R) | Times (ts : list R).

Inductive state := Ket (v : vec) | Density (rho : mat).
Definition column (f : mat) (m : nat) : vec := fun i => f i m.
(* how the documentation reads an array: a vector is a state; the columns of a matrix are states, except that a square matrix is a density
   matrix unless enforce_pure is set; with a list of times, column (or slice) number i is taken at the i-th time *)
Definition interpret (tm : time) (pure : bool) (V : array) : list (R * state) :=
  match tm, V with
  | At t, V1 _ f => [(t, Ket f)]
  | At t, V2 r k f | At t, Sp r k f => if (r =? k) && negb pure then [(t, Density f)] else map (fun m => (t, Ket (column f m))) (seq 0 k)
  | Times ts, V2 _ k f => map (fun m => (nth m ts 0%R, Ket (column f m))) (seq 0 k)
  | Times ts, V3 _ _ k f => map (fun c => (nth c ts 0%R, Density (fun i j => f i j c))) (seq 0 k)
  | _, _ => []
  end.

Section Means.
Variable n : nat.
Definition mul (A B : mat) : mat := fun i j => Csum (seq 0 n) (fun k => A i k * B k j)%C.
Definition tr (A : mat) : C := Csum (seq 0 n) (fun i => A i i).
(* <v|A|v> or Tr(A rho) *)
Definition mean (A : mat) (s : state) : C := match s with Ket v => inner n v (apply n A v) | Density rho => tr (mul A rho) end.
(* <A^2> - <A>^2 *)
Definition variance (A : mat) (s : state) : C := (mean (mul A A) s - mean A s * mean A s)%C.
(* the square of the norm is one; the trace is one, and rho is Hermitian and positive *)
Definition hermitian_state (s : state) : Prop := match s with Ket _ => True | Density rho => hermitian n rho end.
Definition normalised_state (s : state) : Prop :=
  match s with
  | Ket v => inner n v v = C1
  | Density rho => hermitian n rho /\ tr rho = C1 /\ forall x, (0 <= fst (inner n x (apply n rho x)))%R
  end.
End Means.

(* an operator with a static part and dynamic parts, at a time *)
Record operator := { Ns : nat; fixed : mat; driven : list ((R -> C) * mat) }.
Definition at_time (H : operator) (t : R) : mat := fun i j => (fixed H i j + Csum (driven H) (fun d => fst d t * snd d i j))%C.
