(* Specification: the symmetries of a chain as maps of its sites (site 0 is the most significant digit of a state). *)
From Verif Require Import AuxN SpecMaps SpecFermi.
Local Open Scope nat_scope.

(* translation by -x sites: site j goes to site j - x, around the ring *)
Definition chain_shift (L : nat) (x : Z) : list Z := map (fun j => ((Z.of_nat j - x) mod Z.of_nat L)%Z) (seq 0 L).
(* reflection about the middle of the chain *)
Definition chain_flip (L : nat) : list Z := map (fun j => Z.of_nat (L - 1 - j)) (seq 0 L).
(* inversion of the sites selected by p: entry -(j+1) leaves the site in place and inverts it *)
Definition chain_inv (L : nat) (p : nat -> bool) : list Z := map (fun j => if p j then (- Z.of_nat j - 1)%Z else Z.of_nat j) (seq 0 L).
(* the sublattices counted from the right end of the chain *)
Definition from_right (L r j : nat) : bool := (L - 1 - j) mod 2 =? r.
(* two species, each on its own chain of L sites: first species on sites 0..L-1, second on L..2L-1 *)
Definition both_species (L : nat) (m : list Z) : list Z := m ++ map (fun z => (z + Z.of_nat L)%Z) m.
(* exchange of the species *)
Definition swap_species (L : nat) : list Z := map (fun j => Z.of_nat ((j + L) mod (2 * L))) (seq 0 (2 * L)).

(* an operation on signed states acts as the site map m; for fermions the sign changes by the parity of the number
   of crossings of occupied sites, otherwise it does not change *)
Definition acts (fermi : bool) (B : N) (n : nat) (m : list Z) (f : N * Z -> option (N * Z)) : Prop :=
  forall s sg, (s < B ^ N.of_nat n)%N -> exists t, moved B n m s t /\ f (s, sg) = Some (t, (sg * (if fermi then neg_one_pow (crossings n m s) else 1))%Z).
