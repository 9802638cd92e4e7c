(* Specification: matrices carried along by a signed permutation of the sites. *)
From Verif Require Import AuxN SpecC SpecDigits SpecMaps SpecOps.
Local Open Scope nat_scope.

(* A' is A after moving the sites: the same elements between the moved states *)
Definition carried (B : N) (n : nat) (m : list Z) (A' A : cmat) : Prop :=
  forall r s r' s', (r < B ^ N.of_nat n)%N -> (s < B ^ N.of_nat n)%N -> moved B n m r r' -> moved B n m s s' -> A' r' s' = A r s.
(* A commutes with the map *)
Definition commutes_with_map (B : N) (n : nat) (m : list Z) (A : cmat) : Prop := carried B n m A A.
(* A keeps the particle number: no element between states of different sums of digits *)
Definition conserves (B : N) (n : nat) (A : cmat) : Prop :=
  forall r s, (r < B ^ N.of_nat n)%N -> (s < B ^ N.of_nat n)%N -> A r s <> C0 -> digit_sum B r n = digit_sum B s n.
