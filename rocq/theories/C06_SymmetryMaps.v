(* C06: a symmetry map moves (and inverts) site occupations and does nothing else. *)
From Verif Require Import AuxN SpecDigits SpecMaps M_benes M_maps P_maps P_period.
Local Open Scope N_scope.

(* spin-1/2, hard-core bosons, spinless fermions: the routine used on states, the network on a type with 2^ld bits *)
Theorem C06_spin_half_map_state : forall ld n m s,
  (n <= 2 ^ ld)%nat -> signed_perm n m -> s < 2 ^ N.of_nat n ->
  exists t, hcb_map_state ld n m s = Some t /\ moved 2 n m s t.
Proof. exact hcb_map_state_moved. Qed.
Print Assumptions C06_spin_half_map_state.

Theorem C06_spin_half_map_bits : forall n m s, signed_perm n m -> moved 2 n m s (hcb_map_bits n m s).
Proof. exact hcb_map_bits_moved. Qed.
Print Assumptions C06_spin_half_map_bits.

(* bosons and higher spins, B states per site *)
Theorem C06_boson_map_state : forall B n m s, 2 <= B -> signed_perm n m -> moved B n m s (boson_map_bits B n m s).
Proof. exact boson_map_bits_moved. Qed.
Print Assumptions C06_boson_map_state.

(* [moved] pins the image down: there is exactly one *)
Theorem C06_image_unique : forall B n m s t t',
  2 <= B -> signed_perm n m -> moved B n m s t -> moved B n m s t' -> t = t'.
Proof. exact moved_unique. Qed.
Print Assumptions C06_image_unique.

Theorem C06_bijection_injective : forall B n m s s' t,
  2 <= B -> signed_perm n m -> s < B ^ N.of_nat n -> s' < B ^ N.of_nat n ->
  moved B n m s t -> moved B n m s' t -> s = s'.
Proof. exact moved_injective. Qed.
Print Assumptions C06_bijection_injective.

Theorem C06_bijection_surjective : forall B n m t,
  2 <= B -> signed_perm n m -> t < B ^ N.of_nat n -> exists s, s < B ^ N.of_nat n /\ moved B n m s t.
Proof. exact moved_surjective. Qed.
Print Assumptions C06_bijection_surjective.

Theorem C06_keeps_particle_number : forall B n m s t,
  2 <= B -> signed_perm n m -> (forall j, (j < n)%nat -> flips (nth j m 0%Z) = false) ->
  moved B n m s t -> digit_sum B t n = digit_sum B s n.
Proof. exact moved_particles. Qed.
Print Assumptions C06_keeps_particle_number.

Theorem C06_inversion_exchanges_particles_and_holes : forall B n m s t,
  2 <= B -> signed_perm n m -> (forall j, (j < n)%nat -> flips (nth j m 0%Z) = true) ->
  moved B n m s t -> digit_sum B t n + digit_sum B s n = N.of_nat n * (B - 1).
Proof. exact moved_holes. Qed.
Print Assumptions C06_inversion_exchanges_particles_and_holes.

(* 4 sites: 0->1, 1->2 inverted, 2->3, 3->0; state 1100 -> 0 1 0 0 *)
Example C06_example : signed_perm 4 [1; -3; 3; 0]%Z /\ hcb_map_state 5 4 [1; -3; 3; 0]%Z 12 = Some 4
  /\ hcb_map_bits 4 [1; -3; 3; 0]%Z 12 = 4 /\ boson_map_bits 3 4 [1; -3; 3; 0]%Z 50 = 64.
Proof.
  split; [|vm_compute; repeat split; reflexivity].
  unfold signed_perm. cbn. apply Permutation_sym. exact (Permutation_cons_append [1; 2; 3]%nat 0%nat).
Qed.
