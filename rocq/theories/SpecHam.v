(* Specification of arithmetic of square matrices and of the accuracy of an operator-valued function. *)
From Verif Require Import AuxN SpecC SpecExpm.
Local Open Scope nat_scope.

Definition cmat := nat -> nat -> C.
Definition mat_add (A B : cmat) : cmat := fun i j => (A i j + B i j)%C.
Definition mat_sub (A B : cmat) : cmat := fun i j => (A i j - B i j)%C.
Definition mat_mul (n : nat) (A B : cmat) : cmat := fun i j => Csum (seq 0 n) (fun k => A i k * B k j)%C.
Definition mat_scale (c : C) (A : cmat) : cmat := fun i j => (c * A i j)%C.
Definition mat_opp (A : cmat) : cmat := fun i j => (- A i j)%C.
Definition mat_T (A : cmat) : cmat := fun i j => A j i.
Definition mat_conj (A : cmat) : cmat := fun i j => Cconj (A i j).
Definition mat_H (A : cmat) : cmat := fun i j => Cconj (A j i).
(* every entry of A differs by at most e from that of B; no difference *)
Definition within (n : nat) (e : R) (A B : cmat) : Prop := forall i j, i < n -> j < n -> (Cabs (A i j - B i j)%C <= e)%R.
Definition same (n : nat) (A B : cmat) : Prop := forall i j, i < n -> j < n -> A i j = B i j.
