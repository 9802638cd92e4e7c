(* Specification of evolution in symmetry blocks: flows of linear differential equations, and matrices that have invariant subspaces. *)
From Verif Require Import AuxN SpecC SpecExpm SpecLanczos SpecExpect SpecFloquet.
Local Open Scope nat_scope.

(* the solution of psi' = A(t) psi with psi(t0) = v has psi(t) = w *)
Definition flows (n : nat) (A : R -> mat) (t0 t : R) (v w : vec) : Prop :=
  exists psi : R -> vec, (forall s k, k < n -> has_derivative (fun u => psi u k) s (apply n (A s) (psi s) k)) /\
    (forall k, k < n -> psi t0 k = v k) /\ (forall k, k < n -> psi t k = w k).
(* w = exp(t A) v *)
Definition exponential (n : nat) (A : mat) (t : R) (v w : vec) : Prop := flows n (fun _ => A) 0%R t v w.
(* w = exp(s_m A) ... exp(s_1 A) v *)
Fixpoint exponentials (n : nat) (A : mat) (l : list R) (v w : vec) : Prop :=
  match l with
  | [] => forall k, k < n -> w k = v k
  | s :: l' => exists u, exponential n A s v u /\ exponentials n A l' u w
  end.
(* -i H *)
Definition schroedinger (H : R -> mat) : R -> mat := fun t i j => (- Ci * H t i j)%C.
(* a (A + s) *)
Definition affine (a s : C) (A : mat) : mat := fun i j => (a * (A i j + s * delta i j))%C.
(* the columns span a subspace that A leaves invariant, and B is the matrix of A in it: A P = P B *)
Definition invariant (n : nat) (A : mat) (cols : list vec) (B : mat) : Prop :=
  forall k j, k < n -> j < length cols ->
    apply n A (nth j cols (fun _ => C0)) k = Csum (seq 0 (length cols)) (fun i => nth i cols (fun _ => C0) k * B i j)%C.
(* the part of v in the span of orthonormal columns: P P^+ v *)
Definition part (n : nat) (cols : list vec) (v : vec) : vec := fun k => Csum cols (fun c => c k * inner n c v)%C.
Definition sum_vec {X} (l : list X) (f : X -> vec) : vec := fun k => Csum l (fun x => f x k).
