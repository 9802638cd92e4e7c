(* Specification of hashing of coefficient functions. *)
From Verif Require Import AuxN.
Local Open Scope nat_scope.

(* the values Python's hash gives to the tuples (f, args), (1j, f, args), (f, args, p) and to a tuple of integers *)
Record hashing (F Args : Type) := { h_fun : F -> Args -> Z; h_conj : F -> Args -> Z; h_pow : F -> Args -> nat -> Z; h_tuple : list Z -> Z }.
Arguments h_fun {F Args}. Arguments h_conj {F Args}. Arguments h_pow {F Args}. Arguments h_tuple {F Args}.

(* no two different hashed tuples have the same hash *)
Definition no_collision {F Args} (h : hashing F Args) : Prop :=
  (forall f a f' a', h_fun h f a = h_fun h f' a' -> f = f' /\ a = a') /\
  (forall f a f' a', h_conj h f a = h_conj h f' a' -> f = f' /\ a = a') /\
  (forall f a p f' a' p', h_pow h f a p = h_pow h f' a' p' -> f = f' /\ a = a' /\ p = p') /\
  (forall f a f' a', h_fun h f a <> h_conj h f' a') /\
  (forall f a f' a' p', h_fun h f a <> h_pow h f' a' p') /\
  (forall f a f' a' p', h_conj h f a <> h_pow h f' a' p') /\
  (forall l l', h_tuple h l = h_tuple h l' -> l = l').
