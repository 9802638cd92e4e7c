(* Specification of the evolution over one period of a driven system: solutions of i psi' = H(t) psi, sequences of steps, the
   evolution operator, Floquet states and quasi-energies. *)
From Verif Require Import AuxN SpecC SpecExpm SpecLanczos SpecExpect.
Local Open Scope nat_scope.

(* f has the derivative d at t, real and imaginary part *)
Definition has_derivative (f : R -> C) (t : R) (d : C) : Prop :=
  derivable_pt_lim (fun s => fst (f s)) t (fst d) /\ derivable_pt_lim (fun s => snd (f s)) t (snd d).
(* psi' = -i H(t) psi, component by component *)
Definition solves (n : nat) (H : R -> mat) (psi : R -> vec) : Prop :=
  forall t k, k < n -> has_derivative (fun s => psi s k) t (- Ci * apply n (H t) (psi t) k)%C.
(* evolving v with H(t) from time 0 for the time T gives w *)
Definition evolves (n : nat) (H : R -> mat) (T : R) (v w : vec) : Prop :=
  exists psi, solves n H psi /\ (forall k, k < n -> psi 0%R k = v k) /\ (forall k, k < n -> psi T k = w k).
(* a protocol: one step after the other, each with its Hamiltonian and duration *)
Definition protocol := list ((R -> mat) * R).
Fixpoint drives (n : nat) (p : protocol) (v w : vec) : Prop :=
  match p with
  | [] => forall k, k < n -> w k = v k
  | (H, T) :: p' => exists u, evolves n H T v u /\ drives n p' u w
  end.
(* U is the evolution operator over the protocol *)
Definition evolution_operator (n : nat) (p : protocol) (U : mat) : Prop := forall v, drives n p v (apply n U v).
Definition hermitian_protocol (n : nat) (p : protocol) : Prop := forall H T t, In (H, T) p -> hermitian n (H t).
(* constant Hamiltonians *)
Definition steps (l : list (mat * R)) : protocol := map (fun s => (fun _ : R => fst s, snd s)) l.

Definition unit_vec (i : nat) : vec := fun k => delta i k.
Definition transpose (A : mat) : mat := fun i j => A j i.
Definition symmetric (n : nat) (A : mat) : Prop := forall i j, i < n -> j < n -> A i j = A j i.
(* rows and columns are orthonormal *)
Definition unitary (n : nat) (A : mat) : Prop :=
  orthonormal n n (fun j k => A k j) /\ orthonormal n n (fun i k => A i k).
(* v is a normalised eigenvector of A *)
Definition eigenvector (n : nat) (A : mat) (theta : C) (v : vec) : Prop :=
  inner n v v = C1 /\ forall k, k < n -> apply n A v k = (theta * v k)%C.
(* a state that is multiplied by theta = exp(-i E T) over one period *)
Definition floquet_state (n : nat) (p : protocol) (theta : C) (v : vec) : Prop :=
  inner n v v = C1 /\ drives n p v (fun k => theta * v k)%C.
