(* Model of /repo/quspin/basis/transformations/square.py.  numpy arrays of site numbers are lists of integers. *)
From Verif Require Import AuxN SpecMaps.
Local Open Scope nat_scope.

Section Square.
Variables Lx Ly : nat.
(* site_info.py:3-6, 15-17; square.py:5-12 *)
Definition sites : list nat := seq 0 (Lx * Ly).
Definition X (s : nat) : nat := s mod Lx.
Definition Y (s : nat) : nat := s / Lx.
Definition arr (f : nat -> nat) : list Z := map (fun s => Z.of_nat (f s)) sites.
(* 31-44 *)
Definition sq_Z : list Z := map (fun s => - (Z.of_nat s + 1))%Z sites.
Definition sq_ZA : list Z := map (fun i => if (X i + Y i) mod 2 =? 0 then (- (Z.of_nat i + 1))%Z else Z.of_nat i) sites.
Definition sq_ZB : list Z := map (fun i => if (X i + Y i) mod 2 =? 1 then (- (Z.of_nat i + 1))%Z else Z.of_nat i) sites.
Definition sq_Tx : list Z := arr (fun s => (X s + 1) mod Lx + Y s * Lx).
Definition sq_Ty : list Z := arr (fun s => X s + ((Y s + 1) mod Ly) * Lx).
Definition sq_Px : list Z := arr (fun s => (Lx - X s - 1) + Y s * Lx).
Definition sq_Py : list Z := arr (fun s => X s + (Ly - Y s - 1) * Lx).
Definition sq_Pd : option (list Z) := if Lx =? Ly then Some (arr (fun s => Y s + Lx * X s)) else None.
Definition sq_Pe : option (list Z) := if Lx =? Ly then Some (arr (fun s => (Ly - Y s - 1) + Lx * (Lx - X s - 1))) else None.

(* the keyword arguments of a basis: kxblock=(T_x,kx), kyblock=(T_y,ky), pxblock=(P_x,px), pyblock=(P_y,py), pdblock=(map,pd); the map of pdblock
   can be the python None *)
Record block := { kx : Z; ky : Z; px : option nat; py : option nat; pd : option (option (list Z) * nat) }.
(* range(-L//2+1, L//2+1, 1) *)
Definition k_range (L : nat) : list Z :=
  map (fun i => (- Z.of_nat L / 2 + 1 + Z.of_nat i)%Z) (seq 0 (Z.to_nat (Z.of_nat L / 2 + 1 - (- Z.of_nat L / 2 + 1)))).
Definition two : list nat := [0; 1].
(* the blocks of one pair (kx, ky): 137-176 *)
Definition blocks_at (k1 k2 : Z) : list block :=
  let pi_x := ((k1 =? Z.of_nat Lx / 2)%Z && (Lx mod 2 =? 0))%bool in
  let pi_y := ((k2 =? Z.of_nat Ly / 2)%Z && (Ly mod 2 =? 0))%bool in
  if (k1 =? 0)%Z then
    if (k2 =? 0)%Z then
      flat_map (fun p => flat_map (fun q =>
        if ((p =? q) && (Lx =? Ly))%bool then map (fun d => {| kx := k1; ky := k2; px := Some p; py := Some q; pd := Some (sq_Pd, d) |}) two
        else [{| kx := k1; ky := k2; px := Some p; py := Some q; pd := None |}]) two) two
    else map (fun p => {| kx := k1; ky := k2; px := Some p; py := None; pd := None |}) two
  else if pi_x then
    if pi_y then
      flat_map (fun p => flat_map (fun q =>
        if (p =? q)%bool then map (fun d => {| kx := k1; ky := k2; px := Some p; py := Some q; pd := Some (sq_Pd, d) |}) two
        else [{| kx := k1; ky := k2; px := Some p; py := Some q; pd := None |}]) two) two
    else map (fun p => {| kx := k1; ky := k2; px := Some p; py := None; pd := None |}) two
  else
    if ((k2 =? 0)%Z || pi_y)%bool then map (fun p => {| kx := k1; ky := k2; px := None; py := Some p; pd := None |}) two
    else if ((k1 =? k2)%Z && (Lx =? Ly))%bool then map (fun d => {| kx := k1; ky := k2; px := None; py := None; pd := Some (sq_Pd, d) |}) two
    else if ((k1 =? - k2)%Z && (Lx =? Ly))%bool then map (fun d => {| kx := k1; ky := k2; px := None; py := None; pd := Some (sq_Pe, d) |}) two
    else [].
(* 127-176 allowed_blocks_iter *)
Definition allowed_blocks : list block := flat_map (fun k1 => flat_map (fun k2 => blocks_at k1 k2) (k_range Ly)) (k_range Lx).

(* 92-106 allowed_blocks_spin_inversion_iter in a sector with inversion: what happens to the dictionary of one block; the generator hands out the
   same dictionary twice and takes the entry zblock out again when it is resumed *)
Inductive event := Set_z (z : nat) | Yield_dict | Pop_z.
Definition inversion_events : list event := flat_map (fun z => [Set_z z; Yield_dict; Pop_z]) two.
Fixpoint run_events (l : list event) (zb : option nat) : list (option nat) * option nat :=
  match l with
  | [] => ([], zb)
  | Set_z z :: l' => run_events l' (Some z)
  | Pop_z :: l' => run_events l' None
  | Yield_dict :: l' => let (ys, e) := run_events l' zb in (zb :: ys, e)
  end.
(* what a for loop sees: the dictionary when it is handed out *)
Definition seen_by_loop (b : block) : list (block * option nat) := map (fun z => (b, z)) (fst (run_events inversion_events None)).
(* what list() contains: the same dictionaries, as they are when the generator has finished *)
Definition seen_by_list (b : block) : list (block * option nat) := map (fun _ => (b, snd (run_events inversion_events None))) (fst (run_events inversion_events None)).
Definition inversion_loop : list (block * option nat) := flat_map seen_by_loop allowed_blocks.
Definition inversion_list : list (block * option nat) := flat_map seen_by_list allowed_blocks.
End Square.
