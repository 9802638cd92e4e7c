(* Specification of Lanczos bases: inner products, orthonormal families, the tridiagonal matrix of an operator, Krylov approximations of
   exp(aH) v and of thermal averages. *)
From Verif Require Import AuxN SpecC SpecExpm.
Local Open Scope nat_scope.

Definition inner (n : nat) (u v : vec) : C := Csum (seq 0 n) (fun k => Cconj (u k) * v k)%C.
Definition norm (n : nat) (v : vec) : R := sqrt (Rsum (seq 0 n) (fun k => fst (v k) * fst (v k) + snd (v k) * snd (v k)))%R.
Definition apply (n : nat) (A : nat -> nat -> C) (v : vec) : vec := fun i => Csum (seq 0 n) (fun j => A i j * v j)%C.
Definition hermitian (n : nat) (A : nat -> nat -> C) : Prop := forall i j, i < n -> j < n -> A j i = Cconj (A i j).
Definition delta (i j : nat) : C := if i =? j then C1 else C0.
(* the vectors Q 0 .. Q (M-1) are orthonormal *)
Definition orthonormal (n M : nat) (Q : nat -> vec) : Prop := forall i j, i < M -> j < M -> inner n (Q i) (Q j) = delta i j.
(* the real symmetric tridiagonal matrix with diagonal a 0, a 1, .. and off-diagonal b 0, b 1, .. *)
Definition tridiagonal (a b : nat -> R) (i j : nat) : C :=
  if i =? j then RtoC (a i) else if i =? S j then RtoC (b j) else if j =? S i then RtoC (b i) else C0.
(* A q_i = b_(i-1) q_(i-1) + a_i q_i + b_i q_(i+1) *)
Definition recurrence (n : nat) A (Q : nat -> vec) (a b : nat -> R) (i : nat) : Prop :=
  forall k, k < n -> apply n A (Q i) k = ((match i with O => C0 | S j => RtoC (b j) * Q j k end) + RtoC (a i) * Q i k + RtoC (b i) * Q (S i) k)%C.
(* qs is a Lanczos basis with diagonal aa and off-diagonal bb: orthonormal, T = Q^+ A Q, and the recurrence *)
Definition member (qs : list vec) (i : nat) : vec := nth i qs (fun _ => C0).
Definition lanczos_basis (n : nat) (A : nat -> nat -> C) (qs : list vec) (aa bb : list R) : Prop :=
  length aa = length qs /\ length bb = length qs - 1 /\ orthonormal n (length qs) (member qs) /\
  (forall i j, i < length qs -> j < length qs -> inner n (member qs i) (apply n A (member qs j)) = tridiagonal (fun i => nth i aa 0%R) (fun i => nth i bb 0%R) i j) /\
  (forall i, S i < length qs -> recurrence n A (member qs) (fun i => nth i aa 0%R) (fun i => nth i bb 0%R) i).
(* the part of A q_i outside the span of the basis, for the last i *)
Definition residual (n : nat) A (qs : list vec) (aa bb : list R) : vec := fun k =>
  let i := length qs - 1 in
  (apply n A (member qs i) k - (match i with O => C0 | S j => RtoC (nth j bb 0%R) * member qs j k end) - RtoC (nth i aa 0%R) * member qs i k)%C.

(* T = V diag(E) V^T with a real orthogonal V: what eigh_tridiagonal returns *)
Definition eigen_decomposition (M : nat) (T : nat -> nat -> C) (E : nat -> R) (V : nat -> nat -> R) : Prop :=
  (forall i j, i < M -> j < M -> Csum (seq 0 M) (fun x => RtoC (V x i) * RtoC (V x j))%C = delta i j) /\
  (forall x y, x < M -> y < M -> Csum (seq 0 M) (fun j => RtoC (V x j) * RtoC (V y j))%C = delta x y) /\
  (forall x j, x < M -> j < M -> Csum (seq 0 M) (fun y => T x y * RtoC (V y j))%C = (RtoC (E j) * RtoC (V x j))%C).
(* the approximate eigenvector number j: sum over x of V_xj q_x *)
Definition ritz (qs : list vec) (V : nat -> nat -> R) (j : nat) : vec := fun k => Csum (seq 0 (length qs)) (fun x => RtoC (V x j) * member qs x k)%C.
