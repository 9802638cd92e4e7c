(* Specification: transformations of the Lx x Ly square lattice with periodic boundaries; site (x, y) has number x + y Lx. *)
From Verif Require Import AuxN SpecMaps.
Local Open Scope nat_scope.

Definition site (Lx x y : nat) : nat := x + y * Lx.
(* the map m moves the particle at (x, y) to g (x, y), and inverts it where inv says so *)
Definition acts_as (Lx Ly : nat) (m : list Z) (g : nat -> nat -> nat * nat) (inv : nat -> nat -> bool) : Prop :=
  length m = Lx * Ly /\ forall x y, x < Lx -> y < Ly ->
    let z := nth (site Lx x y) m 0%Z in target z = site Lx (fst (g x y)) (snd (g x y)) /\ flips z = inv x y.
Definition right_of (Lx x : nat) : nat := if x + 1 =? Lx then 0 else x + 1.
Definition no_inv (_ _ : nat) : bool := false.
Definition all_inv (_ _ : nat) : bool := true.
(* the parity of a site number x + y: sublattices A (even) and B (odd) *)
Definition sub_A (x y : nat) : bool := Nat.even (x + y).
Definition sub_B (x y : nat) : bool := Nat.odd (x + y).
(* momentum k and its opposite are the same mod L *)
Definition self_opposite (L : nat) (k : Z) : Prop := (Z.of_nat L | 2 * k)%Z.
Definition same_momentum (L : nat) (k k' : Z) : Prop := (Z.of_nat L | k - k')%Z.
