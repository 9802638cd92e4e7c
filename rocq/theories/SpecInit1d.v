(* Specification: the block labels a user passes to the constructor of a one-dimensional basis, and what it means that a
   block has them. *)
From Verif Require Import AuxN SpecChain M_bits1d SpecChain1d SpecCheck1d SpecBlock1d.
Local Open Scope nat_scope.

(* a keyword argument: not passed (or None), a Python int, or something else (a float, a numpy integer, ...) *)
Inductive label := Absent | Int (z : Z) | Other.
(* kblock, pblock, zblock (cblock, sblock), zAblock (cAblock), zBblock (cBblock), pzblock (pcblock, psblock) *)
Record labels := Labels { l_k : label; l_p : label; l_z : label; l_A : label; l_B : label; l_pz : label }.
Definition no_labels : labels := Labels Absent Absent Absent Absent Absent Absent.

(* the user asks for the eigenvalue v of the symmetry *)
Definition wants (l : labels) (v : Z) (word : list letter) : Prop :=
  l_p l = Int v /\ word = [LP] \/ l_z l = Int v /\ word = [LZ] \/ l_A l = Int v /\ word = [LA] \/ l_B l = Int v /\ word = [LB] \/
  l_pz l = Int v /\ word = [LP; LZ].
(* the block has all the eigenvalues asked for, and no symmetry that was not asked for *)
Definition honoured (l : labels) (b : block) : Prop :=
  (forall v word, wants l v word -> In (v, word) (symmetries b)) /\
  (forall word, In word (generators b) -> (word = [LT] /\ l_k l <> Absent) \/ exists v, wants l v word) /\
  (translates b = true <-> l_k l <> Absent).
(* every label is an integer or not passed *)
Definition integer (x : label) : Prop := x <> Other.
Definition integers (l : labels) : Prop := integer (l_k l) /\ integer (l_p l) /\ integer (l_z l) /\ integer (l_A l) /\ integer (l_B l) /\ integer (l_pz l).
(* no label is passed together with one that determines or overlaps it: the product of reflection and inversion is passed
   alone, inversion is not passed with the sublattice inversions *)
Definition separate (l : labels) : Prop :=
  (l_pz l = Absent \/ l_p l = Absent /\ l_z l = Absent /\ l_A l = Absent /\ l_B l = Absent) /\
  (l_z l = Absent \/ l_A l = Absent /\ l_B l = Absent).
(* the user asks for inversion of all sites *)
Definition wants_inversion (l : labels) : Prop := exists v word, wants l v word /\ In LZ word.
Definition wants_sublattice (l : labels) : Prop := exists v word, wants l v word /\ (In LA word \/ In LB word).
