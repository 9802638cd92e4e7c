(* Specification: the subspace of a block of a one-dimensional basis. *)
From Verif Require Import AuxN SpecC SpecOps M_bits1d SpecChain1d SpecCheck1d SpecBlock1d.
Local Open Scope nat_scope.
Section S.
Variables (w : btype) (k : kind) (L T : nat).
Notation state t := (t < levels k ^ N.of_nat (sites k L))%N.
(* v has the eigenvalues of the block: the symmetries S with labels q satisfy S v = q v, and the translation (by T sites) t
   satisfies t v = exp (i momentum) v; for blocks with reflection the momentum is defined up to its sign only and
   (t + 1/t) v = 2 cos (momentum) v, that is t t v + v = 2 cos (momentum) t v *)
Definition in_block (b : block) (kb : nat) (v : N -> C) : Prop :=
  (forall x, In x (symmetries b) -> forall t, state t -> applied k L (word_matrix w k L T (snd x)) v t = (RtoC (IZR (fst x)) * v t)%C) /\
  (translates b = true -> forall t, state t ->
     let tr := applied k L (word_matrix w k L T [LT]) in
     if semi b then (tr (tr v) t + v t)%C = (RtoC (2 * cos (momentum L T kb)) * tr v t)%C else tr v t = (cis (momentum L T kb) * v t)%C).
(* the symmetries map the states of the sector onto states of the sector *)
Definition closed (b : block) (states : list N) : Prop :=
  forall s t g sign, In s states -> In g (generators b) -> reaches w k L T g s t sign -> In t states.
End S.
