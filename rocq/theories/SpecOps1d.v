(* Specification: fermionic operators on a chain of n orbitals (Jordan-Wigner form), and the letters of the one-dimensional bases. *)
From Verif Require Import AuxN SpecC SpecBits SpecOps M_bits1d.
Local Open Scope nat_scope.

(* the sign of the particles on the orbitals behind orbital i: these are the bits below that of orbital i *)
Definition jw_sign (n i : nat) (s : N) : C := if Nat.odd (particles s (n - i - 1)) then RtoC (-1) else C1.
(* c^dagger (+), c (-), n = c^dagger c, z = n - 1/2 on orbital i *)
Definition fermi_letter (n : nat) (o : ascii) (i : nat) : cmat :=
  fun r s => (site_matrix 2 n (spin_half_site o) i r s * (if ((o =? "+") || (o =? "-"))%char%bool then jw_sign n i s else C1))%C.

(* the one-dimensional bases: spin 1/2 (pauli = -1, 0, 1), spin (B-1)/2, hard-core bosons, bosons with less than B particles per site,
   spinless and spinful fermions *)
Inductive chain := SpinHalf (pauli : Z) | SpinS (B : N) | HardCore | Bosons (B : N) | Fermions | Spinful.
Definition kind_of (c : chain) : kind :=
  match c with SpinHalf _ | HardCore => Hcp false | SpinS B | Bosons B => Boson B | Fermions => Hcp true | Spinful => Spf end.
Definition letters (c : chain) : list ascii :=
  match c with SpinHalf _ => ["I"; "+"; "-"; "x"; "y"; "z"] | SpinS _ => ["I"; "+"; "-"; "z"] | _ => ["I"; "+"; "-"; "n"; "z"] end%char.
(* the operator of a letter on site i of n *)
Definition letter_matrix (c : chain) (n : nat) (o : ascii) (i : nat) : cmat :=
  match c with
  | SpinHalf pauli => site_matrix 2 n (pauli_site pauli o) i
  | SpinS B => site_matrix B n (spinS_site B o) i
  | HardCore => site_matrix 2 n (spin_half_site o) i
  | Bosons B => site_matrix B n (boson_site B o) i
  | Fermions | Spinful => fermi_letter n o i
  end.
