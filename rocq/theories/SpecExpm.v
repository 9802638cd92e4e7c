(* Specification of the action of a truncated matrix exponential. *)
From Verif Require Import AuxN SpecC.
Local Open Scope nat_scope.

Definition Cabs (z : C) : R := sqrt (fst z * fst z + snd z * snd z)%R.
Definition Cexp (z : C) : C := (RtoC (exp (fst z)) * cis (snd z))%C.
Fixpoint Cpow (z : C) (k : nat) : C := match k with O => C1 | S k' => (z * Cpow z k')%C end.

(* vectors of length n are functions of which only the values below n matter *)
Definition vec := nat -> C.
(* largest modulus of an entry *)
Definition inf_norm (n : nat) (v : vec) : R := fold_right (fun i r => Rmax (Cabs (v i)) r) 0%R (seq 0 n).
(* (A - mu) v and its powers *)
Definition shifted (n : nat) (A : nat -> nat -> C) (mu : C) (v : vec) : vec := fun i => (Csum (seq 0 n) (fun j => A i j * v j) - mu * v i)%C.
Fixpoint shifted_pow (n : nat) (A : nat -> nat -> C) (mu : C) (j : nat) (v : vec) : vec :=
  match j with O => v | S j' => shifted n A mu (shifted_pow n A mu j' v) end.
(* term z^j / j! (A - mu)^j v and the sum of the terms 0 .. J *)
Definition taylor_term (n : nat) A mu (z : C) (j : nat) (v : vec) : vec := fun i => (RtoC (/ INR (fact j)) * Cpow z j * shifted_pow n A mu j v i)%C.
Definition taylor_sum (n : nat) A mu (z : C) (J : nat) (v : vec) : vec := fun i => Csum (seq 0 (S J)) (fun j => taylor_term n A mu z j v i).
(* the terms J-1 and J together are not larger than tol times the sum so far *)
Definition small_terms (n : nat) A mu z (tol : R) (v : vec) (J : nat) : Prop :=
  (inf_norm n (taylor_term n A mu z (J - 1) v) + inf_norm n (taylor_term n A mu z J v) <= tol * inf_norm n (taylor_sum n A mu z J v))%R.
(* as small_terms, but at J = 1 only the term 1 counts *)
Definition small_terms_first (n : nat) A mu z (tol : R) (v : vec) (J : nat) : Prop :=
  ((if J =? 1 then 0 else inf_norm n (taylor_term n A mu z (J - 1) v)) + inf_norm n (taylor_term n A mu z J v) <= tol * inf_norm n (taylor_sum n A mu z J v))%R.
(* J is the number of terms used: the first J >= 1 at which stop holds, at most m *)
Definition stop_order (m : nat) (stop : nat -> Prop) (J : nat) : Prop :=
  J <= m /\ (forall j, 1 <= j < J -> ~ stop j) /\ (J < m -> 1 <= J /\ stop J).

(* s steps v_0 = v, v_(i+1) = eta (sum of the terms 0 .. J_i of v_i), w = v_s; stop i is the condition at which step i stops before order m *)
Definition truncated_exp (n : nat) (A : nat -> nat -> C) (mu z eta : C) (s m : nat) (stop : nat -> vec -> nat -> Prop) (v w : vec) : Prop :=
  exists (vs : nat -> vec) (J : nat -> nat),
    (forall k, k < n -> vs 0 k = v k) /\ (forall k, k < n -> w k = vs s k) /\
    (forall i, i < s -> stop_order m (stop i (vs i)) (J i) /\ forall k, k < n -> vs (S i) k = (eta * taylor_sum n A mu z (J i) (vs i) k)%C).

(* sum of the moduli of a column of A - mu: the 1-norm is the largest of them *)
Definition column_sum (n : nat) (A : nat -> nat -> C) (mu : C) (j : nat) : R := Rsum (seq 0 n) (fun i => Cabs (A i j - (if i =? j then mu else C0))%C).
Definition one_norm (n : nat) A mu : R := fold_right (fun j r => Rmax (column_sum n A mu j) r) 0%R (seq 0 n).
