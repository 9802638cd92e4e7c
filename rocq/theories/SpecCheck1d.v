(* Specification: orbits of a state of a chain under words of symmetry operations, representatives, and compatible
   quantum numbers. *)
From Verif Require Import AuxN SpecChain M_bits1d SpecChain1d.
Local Open Scope nat_scope.

(* translation by one unit cell (the shift by -T), reflection, inversion, sublattice inversions *)
Inductive letter := LT | LP | LZ | LA | LB.
Definition act (w : btype) (k : kind) (L T : nat) (l : letter) : op :=
  match l with LT => op_shift w k L (- Z.of_nat T) | LP => op_flip w k L | LZ => op_inv w k L | LA => op_invA w k L | LB => op_invB w k L end.
(* the letters of a word are applied from left to right *)
Definition reaches (w : btype) (k : kind) (L T : nat) (word : list letter) (s t : N) (sign : Z) : Prop :=
  run_ops (map (act w k L T) word) (s, 1%Z) = Some (t, sign).
(* products of generators; a generator is itself a word (PZ is one generator) *)
Definition product_of (gens : list (list letter)) (word : list letter) : Prop := exists gs, Forall (fun g => In g gens) gs /\ word = concat gs.
(* no word leads to a larger state *)
Definition extremal (w : btype) (k : kind) (L T : nat) (gens : list (list letter)) (s : N) : Prop :=
  forall word t sign, product_of gens word -> reaches w k L T word s t sign -> (t <= s)%N.

(* Quantum numbers: momentum 2 pi kblock T / L per unit cell, and -1 or 1 for the other letters.  The phase of a word in
   units of pi / L: *)
Record quanta := { q_k : nat; q_p : Z; q_z : Z; q_a : Z; q_b : Z }.
Definition half_turn (L : nat) (q : Z) : Z := if (q <? 0)%Z then Z.of_nat L else 0%Z.
Definition phase (L T : nat) (q : quanta) (l : letter) : Z :=
  match l with LT => 2 * Z.of_nat (q_k q) * Z.of_nat T | LP => half_turn L (q_p q) | LZ => half_turn L (q_z q) | LA => half_turn L (q_a q) | LB => half_turn L (q_b q) end%Z.
Definition phase_of (L T : nat) (q : quanta) (word : list letter) : Z := fold_right (fun l x => (phase L T q l + x)%Z) 0%Z word.
(* the eigenvalue of every word that returns to s, times the sign it picks up, is one *)
Definition compatible (w : btype) (k : kind) (L T : nat) (q : quanta) (gens : list (list letter)) (s : N) : Prop :=
  forall word sign, product_of gens word -> reaches w k L T word s s sign -> ((phase_of L T q word + half_turn L sign) mod (2 * Z.of_nat L) = 0)%Z.

(* the word leads from s back to s *)
Definition returns_to (w : btype) (k : kind) (L T : nat) (s : N) (word : list letter) : bool :=
  match run_ops (map (act w k L T) word) (s, 1%Z) with Some (t, _) => (t =? s)%N | None => false end.
(* R is the smallest positive number of unit cells by which s can be moved onto itself *)
Definition least_period (w : btype) (k : kind) (L T : nat) (s : N) (R : Z) : Prop :=
  exists i, 1 <= i /\ R = Z.of_nat i /\ returns_to w k L T s (repeat LT i) = true /\ forall j, 1 <= j < i -> returns_to w k L T s (repeat LT j) = false.
(* m is the smallest number of translations that brings the state back after the word pre, with that sign; -1 (and sign
   1) if there is none *)
Definition first_return (w : btype) (k : kind) (L T : nat) (pre : list letter) (s : N) (m sign : Z) : Prop :=
  (exists i, m = Z.of_nat i /\ reaches w k L T (pre ++ repeat LT i) s s sign /\ forall j, j < i -> returns_to w k L T s (pre ++ repeat LT j) = false)
  \/ (m = -1 /\ sign = 1 /\ forall j, returns_to w k L T s (pre ++ repeat LT j) = false)%Z.

(* translations by T sites on a chain of L/T unit cells, with shifts that are defined in C *)
Definition cells (w : btype) (k : kind) (L T : nat) : Prop := shift_fits w k L (- Z.of_nat T) /\ 1 <= T /\ exists n, L = T * n.
Definition plus_minus (x : Z) : Prop := (x = 1 \/ x = -1)%Z.
Definition signs (q : quanta) : Prop := plus_minus (q_p q) /\ plus_minus (q_z q) /\ plus_minus (q_a q) /\ plus_minus (q_b q).
(* a check with value v > 0 accepts exactly the representatives with compatible quantum numbers; v is then c times the
   number of the listed words that return to the state *)
Definition decides (w : btype) (k : kind) (L T : nat) (q : quanta) (gens : list (list letter)) (s : N) (v c : Z) (words : list (list letter)) : Prop :=
  ((0 < v)%Z <-> extremal w k L T gens s /\ compatible w k L T q gens s) /\
  ((0 < v)%Z -> v = c * Z.of_nat (length (filter (returns_to w k L T s) words)))%Z.
