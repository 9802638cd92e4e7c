(* Specification: long-time averages of a system that evolves with the Hamiltonian sum_n E_n |n><n|, |n> = column n of V. *)
From Verif Require Import AuxN SpecC SpecExpm SpecLanczos SpecExpect.
Local Open Scope R_scope.

(* (1/T) int_0^T f(t) dt tends to a for T -> infinity; F is the integral of f *)
Definition time_average (f : R -> R) (a : R) : Prop :=
  exists F, (forall t, derivable_pt_lim F t (f t)) /\ forall e, 0 < e -> exists T0, 0 < T0 /\ forall T, T0 <= T -> Rabs ((F T - F 0) / T - a) < e.

Section Quench.
Context (n : nat) (V : mat) (E : nat -> R).
Definition unitary : Prop :=
  (forall j k, (j < n)%nat -> (k < n)%nat -> inner n (column V j) (column V k) = if (j =? k)%nat then C1 else C0) /\
  (forall i i', (i < n)%nat -> (i' < n)%nat -> Csum (seq 0 n) (fun j => V i j * Cconj (V i' j))%C = if (i =? i')%nat then C1 else C0).
(* <j|O|k> *)
Definition element (O : mat) (j k : nat) : C := inner n (column V j) (apply n O (column V k)).
(* exp(-iHt)|psi> and exp(-iHt) rho exp(iHt) *)
Definition evolved (t : R) (s : state) : state :=
  match s with
  | Ket psi => Ket (fun i => Csum (seq 0 n) (fun j => V i j * (cis (- (E j * t)) * inner n (column V j) psi)))%C
  | Density rho => Density (fun i i' => Csum (seq 0 n) (fun j => Csum (seq 0 n) (fun k => V i j * (cis (- (E j * t)) * element rho j k * cis (E k * t)) * Cconj (V i' k))))%C
  end.
(* <n|rho|n> *)
Definition population (s : state) (j : nat) : R :=
  match s with Ket psi => let c := inner n (column V j) psi in fst c * fst c + snd c * snd c | Density rho => fst (element rho j j) end.
Definition distinct_energies : Prop := forall j k, (j < n)%nat -> (k < n)%nat -> E j = E k -> j = k.
(* different pairs of levels have different energy differences *)
Definition distinct_gaps : Prop := forall j k l m, (j < n)%nat -> (k < n)%nat -> (l < n)%nat -> (m < n)%nat -> E j - E k = E l - E m -> (j = k /\ l = m) \/ (j = l /\ k = m).
(* <O> at time t *)
Definition expectation (O : mat) (s : state) (t : R) : R := fst (mean n O (evolved t s)).
End Quench.
(* exp(-beta E) / Z *)
Definition gibbs (beta : R) (E : list R) (j : nat) : R := exp (- beta * nth j E 0) / Rsum E (fun e => exp (- beta * e)).
