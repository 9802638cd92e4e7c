(* C49: which maps are accepted and which period is recorded for them. *)
From Verif Require Import AuxN SpecDigits SpecMaps M_maps P_maps P_period.
Local Open Scope nat_scope.

Theorem C49_invalid_map_rejected : forall fuel m, ~ signed_perm (length m) m -> process_map fuel m = PM_error.
Proof. exact process_map_rejects. Qed.
Print Assumptions C49_invalid_map_rejected.

(* a valid map is accepted, the loop ends, and the period found is the order of the action on states:
   the smallest positive number of applications after which every state is back, for every local dimension *)
Theorem C49_period_is_order_on_states : forall m, signed_perm (length m) m -> exists per fuel0, 1 <= per /\
  (forall fuel, fuel0 <= fuel -> process_map fuel m = PM_period per) /\
  forall B T, (2 <= B)%N -> (forall s, (s < B ^ N.of_nat (length m))%N -> moved B (length m) m s (T s)) ->
    (forall s, (s < B ^ N.of_nat (length m))%N -> Nat.iter per T s = s) /\
    (forall p, 1 <= p < per -> exists s, (s < B ^ N.of_nat (length m))%N /\ Nat.iter p T s <> s).
Proof. exact process_map_period. Qed.
Print Assumptions C49_period_is_order_on_states.

(* a translation with one inversion has twice the period *)
Example C49_example : process_map 100 [1; 2; 3; 0]%Z = PM_period 4 /\ process_map 100 [1; -3; 3; 0]%Z = PM_period 8
  /\ process_map 100 [1; 1; 3; 0]%Z = PM_error
  /\ (forall s, (s < 3 ^ 4)%N -> moved 3 4 [1; -3; 3; 0]%Z s (boson_map_bits 3 4 [1; -3; 3; 0]%Z s)).
Proof.
  split; [|split; [|split]]; try (vm_compute; reflexivity). intros s _. apply boson_map_bits_moved; [lia|].
  unfold signed_perm. cbn. apply Permutation_sym. exact (Permutation_cons_append [1; 2; 3]%nat 0%nat).
Qed.
