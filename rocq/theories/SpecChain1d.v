(* Specification: which site maps the operations of each family of one-dimensional bases have to be, and for which
   chains the machine words are wide enough. *)
From Verif Require Import AuxN SpecMaps SpecFermi SpecChain M_bits1d.
Local Open Scope nat_scope.

(* number of bits of a machine word; Python integers have no bound *)
Definition word_bits (w : btype) : option nat := match w with U32 => Some 32 | U64 => Some 64 | PyInt => None end.
Definition at_most (w : btype) (k : nat) : Prop := match word_bits w with Some b => k <= b | None => True end.
Definition less_than (w : btype) (k : nat) : Prop := match word_bits w with Some b => k < b | None => True end.

(* local dimension, number of sites of the digit string, and whether states carry fermionic signs *)
Definition levels (k : kind) : N := match k with Boson b => b | _ => 2%N end.
Definition sites (k : kind) (L : nat) : nat := match k with Spf => 2 * L | _ => L end.
Definition fermionic (k : kind) : bool := match k with Hcp f => f | Boson _ => false | Spf => true end.

Definition shift_map (k : kind) (L : nat) (x : Z) : list Z := match k with Spf => both_species L (chain_shift L x) | _ => chain_shift L x end.
Definition flip_map (k : kind) (L : nat) : list Z := match k with Spf => both_species L (chain_flip L) | _ => chain_flip L end.
(* spin or particle-hole inversion; for spinful fermions the exchange of the species *)
Definition inv_map (k : kind) (L : nat) : list Z := match k with Spf => swap_species L | _ => chain_inv L (fun _ => true) end.

(* every state fits into a word; spinless fermions need one bit more, because bit_count(I, L) shifts by width - 1 - L *)
Definition states_fit (w : btype) (k : kind) (L : nat) : Prop :=
  1 <= L /\
  match k with
  | Hcp false => at_most w L
  | Hcp true => less_than w L
  | Boson b => (2 <= b)%N /\ match word_bits w with Some d => (b ^ N.of_nat L <= 2 ^ N.of_nat d)%N | None => True end
  | Spf => at_most w (2 * L)
  end.
(* shifting a state that fills the word by a multiple of L shifts by the full width *)
Definition shift_fits (w : btype) (k : kind) (L : nat) (x : Z) : Prop :=
  states_fit w k L /\ match k with Hcp false => less_than w L \/ (x mod Z.of_nat L <> 0)%Z | _ => True end.
(* the kinds for which the sublattice inversions are offered: spins and hard-core bosons, higher spins and bosons *)
Definition has_sublattices (k : kind) : Prop := match k with Hcp false | Boson _ => True | _ => False end.
Definition has_inversion (k : kind) : Prop := match k with Hcp true => False | _ => True end.
