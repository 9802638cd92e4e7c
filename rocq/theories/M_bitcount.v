(* Model of bit_count, quspin/basis/basis_general/_basis_general_core/source/bits_info.h:119-128 *)
From Verif Require Import AuxN.
Local Open Scope N_scope.

(* bits_info.h:32-104, enum {bits, bytes} of bit_info<T>: bits = 8*bytes for the types used for states
   (uint32, uint64, uint256, uint1024, uint4096, uint16384; the entry for uint8192_t, which is never used
   for states, has the typing error bits=4096 and is not modelled). *)
Definition bits_of (bytes : N) : N := 8 * bytes.

(* ~(T)0 of an unsigned type with the given number of bytes *)
Definition all_ones (bytes : N) : N := 2 ^ bits_of bytes - 1.

(* unsigned subtraction, addition and multiplication wrap around modulo 2^bits *)
Definition wsub (bytes a b : N) : N := (a + 2 ^ bits_of bytes - b) mod 2 ^ bits_of bytes.
Definition wadd (bytes a b : N) : N := (a + b) mod 2 ^ bits_of bytes.
Definition wmul (bytes a b : N) : N := (a * b) mod 2 ^ bits_of bytes.

(* bits_info.h:121 : v & (((~(T)0) >> 1) >> (bits - 1 - l)).
   For l >= bits the shift count is negative: undefined behaviour, modelled as None. *)
Definition bc_mask (bytes l : N) : N := N.shiftr (N.shiftr (all_ones bytes) 1) (bits_of bytes - 1 - l).

(* bits_info.h:122-125 *)
Definition bc_step1 (bytes v : N) : N := wsub bytes v (N.land (N.shiftr v 1) (all_ones bytes / 3)).
Definition bc_step2 (bytes v : N) : N :=
  wadd bytes (N.land v (wmul bytes (all_ones bytes / 15) 3))
             (N.land (N.shiftr v 2) (wmul bytes (all_ones bytes / 15) 3)).
Definition bc_step3 (bytes v : N) : N :=
  N.land (wadd bytes v (N.shiftr v 4)) (wmul bytes (all_ones bytes / 255) 15).
Definition bc_step4 (bytes v : N) : N :=
  N.shiftr (wmul bytes v (all_ones bytes / 255)) ((bytes - 1) * 8).

Definition bit_count (bytes v l : N) : option N :=
  if l <? bits_of bytes then
    let v := N.land v (bc_mask bytes l) in
    let v := bc_step1 bytes v in
    let v := bc_step2 bytes v in
    let v := bc_step3 bytes v in
    Some (bc_step4 bytes v)
  else None.

(* hcb_basis_core.h:97-101 : count_particles of the spin-1/2 / hard-core boson basis with nsites sites *)
Definition hcb_count_particles (bytes nsites s : N) : option N := bit_count bytes s nsites.
