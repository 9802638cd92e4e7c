(* Specification: occupation numbers and particle number of an integer basis state. *)
From Verif Require Import AuxN.
Local Open Scope N_scope.

(* bit i of s is occupied *)
Definition occupied (s : N) (i : nat) : bool := N.testbit s (N.of_nat i).

(* the number of positions i < l at which f holds *)
Fixpoint count_upto (f : nat -> bool) (l : nat) : nat :=
  match l with
  | O => O
  | S l' => ((if f l' then 1 else 0) + count_upto f l')%nat
  end.

(* number of occupied positions among the first l *)
Definition particles (s : N) (l : nat) : nat := count_upto (occupied s) l.
