(* C03: enumeration of boson / higher-spin states with a fixed total occupation. *)
From Verif Require Import AuxN SpecDigits SpecSector M_next M_hdim P_boson P_hdim.
Local Open Scope N_scope.

(* B = states per site, n sites, k particles *)
Theorem C03_next_state_is_successor : forall B, 2 <= B -> forall n k s,
  (1 <= n)%nat -> in_boson_sector B n k s -> (exists u, in_boson_sector B n k u /\ s < u) ->
  is_next (in_boson_sector B n k) s (boson_next_state_pcon B n s).
Proof. exact boson_next_is_next. Qed.
Print Assumptions C03_next_state_is_successor.

(* starting from get_s0_pcon and stepping H_dim times (= get_Ns_pcon) lists the sector *)
Theorem C03_enumeration_complete : forall B n k,
  2 <= B -> (1 <= n)%nat -> k <= N.of_nat n * (B - 1) ->
  lists_increasing (in_boson_sector B n k)
    (visited (boson_next_state_pcon B n) (Z.to_nat (H_dim (N.to_nat k) n (N.to_nat B - 1))) (boson_s0_pcon B k)).
Proof. exact boson_full_enumeration. Qed.
Print Assumptions C03_enumeration_complete.

Example C03_example :
  visited (boson_next_state_pcon 3 3) (Z.to_nat (H_dim 3 3 2)) (boson_s0_pcon 3 3) = [5; 7; 11; 13; 15; 19; 21].
Proof. vm_compute. reflexivity. Qed.
