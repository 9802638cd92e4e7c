(* Specification: operators that carry one symmetry sector to another, and their matrix elements between the two blocks. *)
From Verif Require Import AuxN SpecC SpecSymm SpecOps SpecProj.
Local Open Scope nat_scope.

(* A carries vectors of the sector qs_in (states S_in) to vectors of the sector qs_out (states S_out):
   U A U^-1 = exp(i (k_in - k_out)) A for every map U with eigenvalues exp(i k_in), exp(i k_out) in the two sectors *)
Definition shifts_sector (S_in S_out : N -> Prop) (nt : nat) (pers : list nat) (qs_in qs_out : list Z) (ms : smap) (A : cmat) : Prop :=
  forall d r s, d < nt -> S_out r -> S_in s ->
    (RtoC (IZR (snd (ms d r) * snd (ms d s))) * A (fst (ms d r)) (fst (ms d s)))%C
    = (cis (2 * PI * IZR (nth d qs_in 0%Z) / INR (nth d pers 0%nat)) * Cconj (cis (2 * PI * IZR (nth d qs_out 0%Z) / INR (nth d pers 0%nat))) * A r s)%C.

(* <sj| A |si>, sj a state of the output block, si one of the input block *)
Definition transition (sts_out sts_in : list N) (pers : list nat) (qs_out qs_in : list Z) (ms : smap) (A : cmat) (sj si : N) : C :=
  Csum sts_out (fun t => Csum sts_in (fun u => Cconj (symm_state pers qs_out ms sj t) * A t u * symm_state pers qs_in ms si u))%C.

(* Cases in which a phase attached to a return of the operator to the orbit it started from cannot matter: the two blocks have no state in
   common; or no term of the operator moves a basis state of the input block to another state of the same orbit; or all characters of the output
   sector and all signs are one.  states_in: the representatives of the input block *)
Definition no_return_phase (S_in S_out : N -> Prop) (nt : nat) (qs_out : list Z) (ms : smap) (states_in : list N) (terms : list cmat) : Prop :=
  (forall s, ~ (S_in s /\ S_out s)) \/
  (forall A s t, In A terms -> In s states_in -> S_out t -> A t s <> C0 -> reach nt ms t s -> t = s) \/
  ((forall d, nth d qs_out 0%Z = 0%Z) /\ forall d s, d < nt -> S_out s -> snd (ms d s) = 1%Z).
(* the terms of a list, each with its coupling *)
Definition term_matrices (M : nat) (mat : ascii -> nat -> cmat) (ts : list (list (ascii * nat) * C)) : list cmat :=
  map (fun t => fun r s => (snd t * string_matrix M mat (fst t) r s)%C) ts.
(* the same for Op_bra_ket, which uses the group element left by an earlier search when the image is a representative, and (with particle
   conservation) also on the diagonal: all characters are one; or there is no particle conservation and no term takes a ket to another representative *)
Definition no_stale_phase (conserves : bool) (M : nat) (nt : nat) (qs : list Z) (ms : smap) (kets : list N) (terms : list cmat) : Prop :=
  (forall d, nth d qs 0%Z = 0%Z) \/
  (conserves = false /\ forall A s t, In A terms -> In s kets -> (t < N.of_nat M)%N -> A t s <> C0 -> (forall u, reach nt ms t u -> (u <= t)%N) -> t = s).
