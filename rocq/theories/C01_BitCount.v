(* C01: particle counting on integer basis states. *)
From Verif Require Import AuxN SpecBits M_bitcount P_bitcount.
Local Open Scope N_scope.

(* For every width (in bytes), state and prefix length below the width: as long as at most 255 sites are
   occupied the count is exact.  Missing from the full property: counts above 255 on 1024-bit and wider
   types (false, see C01_bit_count_refuted) and l = width (undefined shift, C01_bit_count_full_width_undefined). *)
Theorem C01_bit_count_partial : forall bytes v l,
  l < 8 * bytes -> (particles v (N.to_nat l) <= 255)%nat ->
  bit_count bytes v l = Some (N.of_nat (particles v (N.to_nat l))).
Proof. exact bit_count_correct. Qed.
Print Assumptions C01_bit_count_partial.

(* On the 32, 64 and 256 bit types the count is exact for every state and every l below the width. *)
Theorem C01_bit_count_upto_256_bits : forall bytes v l,
  bytes = 4 \/ bytes = 8 \/ bytes = 32 -> l < 8 * bytes ->
  bit_count bytes v l = Some (N.of_nat (particles v (N.to_nat l))).
Proof.
  intros bytes v l Hb Hl. apply bit_count_correct; [exact Hl|].
  pose proof (particles_le v (N.to_nat l)). lia.
Qed.
Print Assumptions C01_bit_count_upto_256_bits.

(* Full width on a 32-site chain stored in 32 bits: the shift count is negative. *)
Theorem C01_bit_count_full_width_undefined : forall bytes v, bit_count bytes v (8 * bytes) = None.
Proof. intros bytes v. unfold bit_count, bits_of. rewrite N.ltb_irrefl. reflexivity. Qed.
Print Assumptions C01_bit_count_full_width_undefined.

(* On the 1024-bit type 256 occupied sites are counted as 1: even the parity, which decides the sign of
   fermion operators, is wrong. *)
Theorem C01_bit_count_refuted : exists v l c,
  l < 8 * 128 /\ v < 2 ^ (8 * 128) /\ bit_count 128 v l = Some c /\
  c <> N.of_nat (particles v (N.to_nat l)) /\
  N.odd c <> N.odd (N.of_nat (particles v (N.to_nat l))).
Proof.
  exists (2 ^ 256 - 1), 300, 1. repeat split; try (vm_compute; congruence).
Qed.
Print Assumptions C01_bit_count_refuted.

(* non-vacuity *)
Example C01_example : 20 < 8 * 4 /\ (particles 12345678 20 <= 255)%nat /\ bit_count 4 12345678 20 = Some 9.
Proof. vm_compute. repeat split; try congruence; try (repeat constructor). Qed.
