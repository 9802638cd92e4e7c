(* C02: enumeration of the states with a fixed particle number (spin-1/2, hard-core bosons, spinless fermions). *)
From Verif Require Import AuxN SpecBits SpecSector M_next P_next.
Local Open Scope N_scope.

(* One step: the successor is the least larger state with the same particle number. w is the bit width of
   the integer type, n <= w the number of sites, k the number of particles. *)
Theorem C02_next_state_is_successor : forall w n k s,
  N.of_nat n <= w -> in_sector n k s -> (exists u, in_sector n k u /\ s < u) ->
  is_next (in_sector n k) s (next_state_pcon w s).
Proof. exact next_is_next. Qed.
Print Assumptions C02_next_state_is_successor.

(* The whole loop: starting at the lowest state and stepping (n choose k) times lists the sector,
   complete, without repetition and in increasing order. *)
Theorem C02_enumeration_complete : forall w n k,
  N.of_nat n <= w -> (k <= n)%nat ->
  lists_increasing (in_sector n k) (visited (next_state_pcon w) (binom n k) (s0_pcon k)).
Proof. exact pcon_enumeration. Qed.
Print Assumptions C02_enumeration_complete.

(* non-vacuity: the sector of 4 sites and 2 particles on a 32 bit type *)
Example C02_example : visited (next_state_pcon 32) (binom 4 2) (s0_pcon 2) = [3; 5; 6; 9; 10; 12].
Proof. vm_compute. reflexivity. Qed.
(* also when the sites fill the machine word *)
Example C02_example_full_word : visited (next_state_pcon 4) (binom 4 3) (s0_pcon 3) = [7; 11; 13; 14].
Proof. vm_compute. reflexivity. Qed.
