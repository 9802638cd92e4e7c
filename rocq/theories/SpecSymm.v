(* Specification: symmetry maps acting on basis states with signs; orbits, group elements, characters. *)
From Verif Require Import AuxN SpecC.
Local Open Scope nat_scope.

(* map d sends a state to a state and a sign *)
Definition smap := nat -> N -> N * Z.

(* action of map d on a signed state *)
Definition sact (ms : smap) (d : nat) (x : N * Z) : N * Z := (fst (ms d (fst x)), snd x * snd (ms d (fst x)))%Z.

(* applying a sequence of maps, the head of the list first *)
Definition sapply (ms : smap) (ds : list nat) (x : N * Z) : N * Z := fold_left (fun y d => sact ms d y) ds x.

(* t is reached from s by some finite sequence of the maps 0 .. nt-1 *)
Definition reach (nt : nat) (ms : smap) (s t : N) : Prop :=
  exists ds, Forall (fun d => d < nt) ds /\ fst (sapply ms ds (s, 1%Z)) = t.

(* D: the states of the space.  The maps are a commuting set of signed permutations of D with the given periods. *)
Record good_maps (D : N -> Prop) (nt : nat) (pers : list nat) (ms : smap) : Prop := {
  gm_len : length pers = nt;
  gm_pos : forall d, d < nt -> 1 <= nth d pers 0;
  gm_dom : forall d s, d < nt -> D s -> D (fst (ms d s));
  gm_sign : forall d s, d < nt -> D s -> snd (ms d s) = 1%Z \/ snd (ms d s) = (-1)%Z;
  gm_period : forall d s, d < nt -> D s -> Nat.iter (nth d pers 0) (sact ms d) (s, 1%Z) = (s, 1%Z);
  gm_comm : forall d e s, d < nt -> e < nt -> D s -> sact ms d (sact ms e (s, 1%Z)) = sact ms e (sact ms d (s, 1%Z)) }.

(* group elements: exponent vectors *)
Definition group_elem (pers g : list nat) : Prop :=
  length g = length pers /\ forall d, d < length pers -> nth d g 0 < nth d pers 0.
(* their number *)
Definition group_order (l : list nat) : nat := fold_right Nat.mul 1 l.
(* the list of all of them *)
Fixpoint group (pers : list nat) : list (list nat) :=
  match pers with [] => [[]] | p :: ps => flat_map (fun i => map (cons i) (group ps)) (seq 0 p) end.

(* the map sequence of a group element: map 0 g_0 times, then map 1 g_1 times, ... *)
Definition word (g : list nat) : list nat := flat_map (fun d => repeat d (nth d g 0)) (seq 0 (length g)).
Definition gact (ms : smap) (g : list nat) (s : N) : N * Z := sapply ms (word g) (s, 1%Z).

Local Open Scope R_scope.
(* phase angle of a group element in the sector with quantum numbers qs *)
Definition theta (qs : list Z) (pers g : list nat) : R :=
  Rsum (seq 0 (length pers)) (fun d => 2 * PI * IZR (nth d qs 0%Z) / INR (nth d pers 0%nat) * INR (nth d g 0%nat)).

(* the sector is compatible with state s: every group element fixing s acts trivially *)
Definition compatible (pers : list nat) (qs : list Z) (ms : smap) (s : N) : Prop :=
  forall g, group_elem pers g -> fst (gact ms g s) = s ->
    (RtoC (IZR (snd (gact ms g s))) * cis (theta qs pers g))%C = C1.
