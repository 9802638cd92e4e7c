(* Specification: the states of a symmetry block as vectors of the full space, operators that commute with the maps. *)
From Verif Require Import AuxN SpecC SpecSymm SpecOps SpecIndex.
Local Open Scope nat_scope.

(* number of group elements fixing s *)
Definition stabilisers (pers : list nat) (ms : smap) (s : N) : nat := length (filter (fun g => (fst (gact ms g s) =? s)%N) (group pers)).

(* amplitude at t of the normalised sum over the group of exp(-i theta(g)) g|s> *)
Definition symm_state (pers : list nat) (qs : list Z) (ms : smap) (s t : N) : C :=
  (RtoC (/ sqrt (INR (stabilisers pers ms s) * INR (group_order pers))) *
   Csum (group pers) (fun g => if (fst (gact ms g s) =? t)%N
     then RtoC (IZR (snd (gact ms g s))) * Cconj (cis (theta qs pers g)) else C0))%C.

(* psi is an eigenvector of every map, with the eigenvalues of the sector: (U_d psi)(t') = sign psi(t) for t' = image of t *)
Definition sector_vector (D : N -> Prop) (nt : nat) (pers : list nat) (qs : list Z) (ms : smap) (psi : N -> C) : Prop :=
  forall d t, d < nt -> D t ->
    (RtoC (IZR (snd (ms d t))) * psi t)%C = (cis (2 * PI * IZR (nth d qs 0%Z) / INR (nth d pers 0%nat)) * psi (fst (ms d t)))%C.

(* A commutes with every map: <U r| A |U s> = <r| A |s> *)
Definition commutes_with_maps (D : N -> Prop) (nt : nat) (ms : smap) (A : cmat) : Prop :=
  forall d r s, d < nt -> D r -> D s -> (RtoC (IZR (snd (ms d r) * snd (ms d s))) * A (fst (ms d r)) (fst (ms d s)))%C = A r s.

(* the sector of states S is mapped to itself *)
Definition closed_under (S : N -> Prop) (nt : nat) (ms : smap) : Prop := forall d s, d < nt -> S s -> S (fst (ms d s)).

(* <sj| A |si> between two states of the block *)
Definition reduced (sts : list N) (pers : list nat) (qs : list Z) (ms : smap) (A : cmat) (sj si : N) : C :=
  Csum sts (fun t => Csum sts (fun u => Cconj (symm_state pers qs ms sj t) * A t u * symm_state pers qs ms si u))%C.
(* sts lists the states of S *)
Definition enumerates (sts : list N) (S : N -> Prop) : Prop := NoDup sts /\ forall s, In s sts <-> S s.
(* what is kept when storing in a real or complex array *)
Definition as_type (real : bool) (z : C) : C := if real then RtoC (fst z) else z.
(* sum of coupling times product of local operators; ts: (string with sites, coupling) *)
Definition lattice_operator (M : nat) (mat : ascii -> nat -> cmat) (ts : list (list (ascii * nat) * C)) : cmat :=
  fun r s => Csum ts (fun t => snd t * string_matrix M mat (fst t) r s)%C.

(* the rows of a vector in the space to which the block is embedded: all M states, or the states of the particle sector; both in
   decreasing order *)
Definition row_state (M : nat) (bp : option (list N)) (r : nat) : N := match bp with None => N.of_nat (M - 1 - r) | Some b => nth r b 0%N end.
Definition rows_are (M : nat) (S : N -> Prop) (bp : option (list N)) : Prop :=
  match bp with None => True | Some b => decreasing b /\ forall s, In s b <-> S s end.
(* the characters exp(2 pi i q / p) are real *)
Definition real_characters (pers : list nat) (qs : list Z) : Prop :=
  forall d, d < length pers -> sin (2 * PI * IZR (nth d qs 0%Z) / INR (nth d pers 0%nat)) = 0%R.
(* psi, a function on the rows, is a vector of the block: no weight outside the sector, eigenvector of all maps *)
Definition block_vector (M : nat) (S : N -> Prop) (bp : option (list N)) (Ns nt : nat) (pers : list nat) (qs : list Z) (ms : smap) (psi : nat -> C) : Prop :=
  exists f : N -> C, sector_vector S nt pers qs ms f /\ (forall t, ~ S t -> f t = C0) /\ forall r, r < Ns -> psi r = f (row_state M bp r).
