(* Model of the maps on states: hcb_basis_core.h, boson_basis_core.h
   (/repo/quspin/basis/basis_general/_basis_general_core/source/) and base_general.py: process_map,
   check_symmetry_maps. *)
From Verif Require Import AuxN M_benes.
Local Open Scope N_scope.

(* hcb_basis_core.h:14-24 hcb_map_bits: loop i = N-1 .. 0; cnt = i+1 *)
Fixpoint hcb_map_loop (n : Z) (m : list Z) (cnt : nat) (ss s : N) : N :=
  match cnt with
  | O => ss
  | S i =>
    let j := nth i m 0%Z in
    let ss := N.lxor ss (if (j <? 0)%Z then N.shiftl (N.lxor (N.land s 1) 1) (Z.to_N (n + j))
                         else N.shiftl (N.land s 1) (Z.to_N (n - j - 1))) in
    hcb_map_loop n m i ss (N.shiftr s 1)
  end.
Definition hcb_map_bits (n : nat) (m : list Z) (s : N) : N := hcb_map_loop (Z.of_nat n) m n 0 s.

(* boson_basis_core.h:14-22 boson_map_bits; M[i] = sps^i (boson_basis_core.h:37-41) *)
Fixpoint boson_map_loop (sps : N) (n : Z) (m : list Z) (cnt : nat) (ss s : N) : N :=
  match cnt with
  | O => ss
  | S i =>
    let j := nth i m 0%Z in
    let ss := ss + (if (j <? 0)%Z then (sps - s mod sps - 1) * sps ^ Z.to_N (j + n)
                    else (s mod sps) * sps ^ Z.to_N (n - j - 1)) in
    boson_map_loop sps n m i ss (s / sps)
  end.
Definition boson_map_bits (sps : N) (n : nat) (m : list Z) (s : N) : N := boson_map_loop sps (Z.of_nat n) m n 0 s.

(* hcb_basis_core.h:39-71 constructor: for one map, the index array of the network and the inversion mask.
   The type has 2^ld bits. *)
Fixpoint hcb_index_loop (n : Z) (m : list Z) (k : nat) (j : nat) (index : arr) (inv : N) : arr * N :=
  match k with
  | O => (index, inv)
  | S k' =>
    let mj := nth j m 0%Z in
    let bit_j := Z.to_N (n - Z.of_nat j - 1) in
    if (mj <? 0)%Z
    then hcb_index_loop n m k' (S j) (upd index bit_j (Some (Z.to_N (n + mj)))) (N.lxor inv (N.shiftl 1 bit_j))
    else hcb_index_loop n m k' (S j) (upd index bit_j (Some (Z.to_N (n - mj - 1)))) inv
  end.
Definition hcb_index (n : nat) (m : list Z) : arr * N := hcb_index_loop (Z.of_nat n) m n 0 empty_arr 0.

(* hcb_basis_core.h:79-84 map_state (for nt > 0); None: the network could not be generated *)
Definition hcb_map_state (ld : nat) (n : nat) (m : list Z) (s : N) : option N :=
  let '(index, inv) := hcb_index n m in
  match gen_benes ld index with
  | Some net => Some (benes_bwd ld net (N.lxor s inv))
  | None => None
  end.

(* ---- base_general.py ---- *)
Local Open Scope Z_scope.
(* base_general.py:15-16: i_map, s_map *)
Definition i_map (m : list Z) : list nat := map (fun z => Z.to_nat (if z <? 0 then - (z + 1) else z)) m.
Definition s_map (m : list Z) : list bool := map (fun z => z <? 0) m.

(* base_general.py:27,55,...: sites[s_map] = -(sites[s_map]+1) *)
Definition negate_where (s : list bool) (sites : list Z) : list Z :=
  map (fun bz : bool * Z => let (b, z) := bz in if b then - (z + 1) else z) (combine s sites).
(* sites = sites[i_map] *)
Definition gather (im : list nat) (sites : list Z) : list Z := map (fun i => nth i sites 0) im.

Definition one_turn (m : list Z) (sites : list Z) : list Z := gather (i_map m) (negate_where (s_map m) sites).

(* numpy sort, as insertion sort *)
Fixpoint insertZ (x : Z) (l : list Z) : list Z :=
  match l with [] => [x] | y :: l' => if x <=? y then x :: l else y :: insertZ x l' end.
Fixpoint sortZ (l : list Z) : list Z := match l with [] => [] | x :: l' => insertZ x (sortZ l') end.

Fixpoint list_eqb (a b : list Z) : bool :=
  match a, b with [], [] => true | x :: a', y :: b' => (x =? y) && list_eqb a' b' | _, _ => false end.

Definition arange (n : nat) : list Z := map Z.of_nat (seq 0 n).

(* base_general.py:24-33 the while loop computing the period; fuel bounds the number of turns *)
Fixpoint period_loop (fuel : nat) (m : list Z) (order sites : list Z) (per : nat) : option nat :=
  match fuel with
  | O => None
  | S f =>
    let sites := one_turn m sites in
    let per := S per in
    if list_eqb order sites then Some per else period_loop f m order sites per
  end.

(* base_general.py:13-38 process_map: None = ValueError (or out of fuel); the group set is not modelled *)
Inductive pm_result := PM_error | PM_out_of_fuel | PM_period (per : nat).
Definition process_map (fuel : nat) (m : list Z) : pm_result :=
  let order := arange (length m) in
  if list_eqb (sortZ (map Z.of_nat (i_map m))) order then
    match period_loop fuel m order order 0 with Some p => PM_period p | None => PM_out_of_fuel end
  else PM_error.

(* base_general.py:61-75 check_symmetry_maps: true = no warning about non-commuting symmetries *)
Definition maps_commute_check (m1 m2 : list Z) : bool :=
  let sites1 := one_turn m2 (one_turn m1 (arange (length m1))) in
  let sites2 := one_turn m1 (one_turn m2 (arange (length m2))) in
  list_eqb sites1 sites2.
