(* Specification of sector enumeration: successor inside a set of numbers, sorted complete lists, binomials. *)
From Verif Require Import AuxN SpecBits.
From Coq Require Export Sorted.
Local Open Scope N_scope.

(* the states of n sites with k occupied ones *)
Definition in_sector (n k : nat) (s : N) : Prop := s < 2 ^ N.of_nat n /\ particles s n = k.

(* t is the least element of P above s *)
Definition is_next (P : N -> Prop) (s t : N) : Prop := P t /\ s < t /\ forall u, P u -> s < u -> t <= u.

(* l lists the elements of P, each once, in increasing order *)
Definition lists_increasing (P : N -> Prop) (l : list N) : Prop :=
  StronglySorted N.lt l /\ forall s, In s l <-> P s.

(* Pascal's triangle *)
Fixpoint binom (n k : nat) : nat :=
  match n, k with
  | _, O => 1
  | O, S _ => 0
  | S n', S k' => binom n' k' + binom n' (S k')
  end%nat.

(* specification of the sector: high half = up spins, low half = down spins *)
Definition in_spf_sector (n ku kd : nat) (s : N) : Prop :=
  s < 2 ^ (2 * N.of_nat n) /\ particles (s / 2 ^ N.of_nat n) n = ku /\ particles (s mod 2 ^ N.of_nat n) n = kd.
