(* Specification: base-B digits of an integer basis state, digit sums, bounded compositions. *)
From Verif Require Import AuxN.
From Coq Require Export Sorted.
Local Open Scope N_scope.

(* digit i of s in base B: the occupation of the i-th site counted from the least significant one *)
Definition digit (B s : N) (i : nat) : N := (s / B ^ N.of_nat i) mod B.

Fixpoint digit_sum (B s : N) (n : nat) : N :=
  match n with O => 0 | S n' => digit B s n' + digit_sum B s n' end.

(* the states of n sites with local dimension B and k particles *)
Definition in_boson_sector (B : N) (n : nat) (k : N) (s : N) : Prop :=
  s < B ^ N.of_nat n /\ digit_sum B s n = k.
