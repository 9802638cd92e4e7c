(* Specification: position of a state in a basis list. *)
From Verif Require Import AuxN SpecC.
From Coq Require Export Sorted.
Local Open Scope nat_scope.

(* r is the position of s in A, or -1 when s is not in A *)
Definition is_position (A : list N) (s : N) (r : Z) : Prop :=
  (exists i, nth_error A i = Some s /\ r = Z.of_nat i) \/ (~ In s A /\ r = (-1)%Z).

Definition decreasing (A : list N) : Prop := StronglySorted (fun a b => (b < a)%N) A.
