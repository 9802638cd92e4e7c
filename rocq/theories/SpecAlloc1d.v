(* Specification: the states of a chain with given particle numbers. *)
From Verif Require Import AuxN SpecChain1d M_bits1d C39_checks C52_sectors.
Local Open Scope nat_scope.

(* s is a state of the chain with fst np particles; for spinful fermions fst np up and snd np down *)
Definition in_number (k : kind) (L : nat) (np : nat * nat) (s : N) : Prop :=
  is_state k L s /\ match k with Spf => ups L s = N.of_nat (fst np) /\ downs L s = N.of_nat (snd np) | _ => number k L s = N.of_nat (fst np) end.
(* the states of the chain, all of them or those with the particle number *)
Definition in_space (k : kind) (L : nat) (np : option (nat * nat)) (s : N) : Prop :=
  match np with Some np => in_number k L np s | None => is_state k L s end.
(* as many particles as holes; for spinful fermions as many up as down *)
Definition half_filled (k : kind) (L : nat) (np : nat * nat) : Prop :=
  match k with Spf => fst np = snd np | _ => (2 * N.of_nat (fst np) = N.of_nat L * (levels k - 1))%N end.
