(* Specification: products of spaces.  A state of the product is one state of every factor. *)
From Verif Require Import AuxN SpecC.
Local Open Scope nat_scope.

Definition size (dims : list nat) : nat := fold_right Nat.mul 1 dims.
(* one index for every factor *)
Definition multi (dims idx : list nat) : Prop := Forall2 (fun d i => i < d) dims idx.
(* its position in the product: the last factor varies fastest *)
Fixpoint position (dims idx : list nat) : nat :=
  match dims, idx with _ :: ds, i :: is => i * size ds + position ds is | _, _ => 0 end.

(* the matrix given by a list of (value, row, column): entries at the same place add up *)
Definition entry (l : list (C * Z * Z)) (i j : nat) : C :=
  Csum l (fun t => let '(v, r, c) := t in if ((r =? Z.of_nat i) && (c =? Z.of_nat j))%Z then v else C0).
(* an element of the Kronecker product of the given matrices *)
Fixpoint kron_entry (ms : list (nat -> nat -> C)) (is js : list nat) : C :=
  match ms, is, js with m :: ms, i :: is, j :: js => (m i j * kron_entry ms is js)%C | _, _, _ => C1 end.

(* text pieces written with a bar between two of them *)
Fixpoint join {X} (bar : X) (ss : list (list X)) : list X :=
  match ss with [] => [] | [s] => s | s :: ss => s ++ bar :: join bar ss end.

(* columns of the m by n matrix P are orthonormal *)
Definition isometry (m n : nat) (P : nat -> nat -> C) : Prop := forall j k, j < n -> k < n ->
  Csum (seq 0 m) (fun i => Cconj (P i j) * P i k)%C = if j =? k then C1 else C0.
(* reduced matrices of a state psi of two factors with m and n states *)
Definition reduced_left (n : nat) (psi : nat -> C) (i k : nat) : C := Csum (seq 0 n) (fun j => psi (i * n + j)%nat * Cconj (psi (k * n + j)%nat))%C.
Definition reduced_right (m n : nat) (psi : nat -> C) (j l : nat) : C := Csum (seq 0 m) (fun i => psi (i * n + j)%nat * Cconj (psi (i * n + l)%nat))%C.
(* and of a density matrix *)
Definition traced_left (n : nat) (rho : nat -> nat -> C) (i k : nat) : C := Csum (seq 0 n) (fun j => rho (i * n + j) (k * n + j)).
Definition traced_right (m n : nat) (rho : nat -> nat -> C) (j l : nat) : C := Csum (seq 0 m) (fun i => rho (i * n + j) (i * n + l)).
