(* Specification: configurations of a lattice, their position in the full space, subsystems, reduced density matrices. *)
From Verif Require Import AuxN SpecC.
Local Open Scope nat_scope.

(* a configuration lists the level of every site; site 0 is the most significant digit of its number *)
Definition enc (sps : nat) (c : list nat) : nat := fold_left (fun acc d => acc * sps + d) c 0.
Definition config (sps L : nat) (c : list nat) : Prop := length c = L /\ Forall (fun d => d < sps) c.
Fixpoint configs (sps L : nat) : list (list nat) :=
  match L with 0 => [[]] | S l => flat_map (fun d => map (cons d) (configs sps l)) (seq 0 sps) end.
(* the levels of the given sites *)
Definition levels_at (c sites : list nat) : list nat := map (fun i => nth i c 0) sites.
(* the configuration that has the levels a on the sites sa and b on the sites sb *)
Definition place (L : nat) (sa sb a b : list nat) : list nat :=
  map (fun i => match find (fun x => fst x =? i) (combine (sa ++ sb) (a ++ b)) with Some (_, d) => d | None => 0 end) (seq 0 L).

(* reduced density matrices of the pure state psi *)
Definition reduced_A (sps L : nat) (sa sb : list nat) (psi : nat -> C) (a a' : list nat) : C :=
  Csum (configs sps (length sb)) (fun b => psi (enc sps (place L sa sb a b)) * Cconj (psi (enc sps (place L sa sb a' b))))%C.
Definition reduced_B (sps L : nat) (sa sb : list nat) (psi : nat -> C) (b b' : list nat) : C :=
  Csum (configs sps (length sa)) (fun a => psi (enc sps (place L sa sb a b)) * Cconj (psi (enc sps (place L sa sb a b'))))%C.
(* and of a density matrix *)
Definition traced_A (sps L : nat) (sa sb : list nat) (rho : nat -> nat -> C) (a a' : list nat) : C :=
  Csum (configs sps (length sb)) (fun b => rho (enc sps (place L sa sb a b)) (enc sps (place L sa sb a' b))).
Definition traced_B (sps L : nat) (sa sb : list nat) (rho : nat -> nat -> C) (b b' : list nat) : C :=
  Csum (configs sps (length sa)) (fun a => rho (enc sps (place L sa sb a b)) (enc sps (place L sa sb a b'))).

(* square matrices of dimension n *)
Definition hermitian (n : nat) (M : nat -> nat -> C) : Prop := forall i k, i < n -> k < n -> M k i = Cconj (M i k).
Definition form (n : nat) (M : nat -> nat -> C) (x : nat -> C) : C := Csum (seq 0 n) (fun i => Csum (seq 0 n) (fun k => Cconj (x i) * M i k * x k))%C.
Definition positive (n : nat) (M : nat -> nat -> C) : Prop := forall x, (0 <= fst (form n M x))%R /\ snd (form n M x) = 0%R.
Definition trace (n : nat) (M : nat -> nat -> C) : C := Csum (seq 0 n) (fun i => M i i).
Definition square_norm (n : nat) (psi : nat -> C) : C := Csum (seq 0 n) (fun i => psi i * Cconj (psi i))%C.
