(* Model of the maps on fermion states:
   /repo/quspin/basis/basis_general/_basis_general_core/source/spinless_fermion_basis_core.h:12-60 mergeSort, getf_count,
   66-90 spinless_fermion_map_bits, 140-164 map_state; the spinful basis uses the same functions on twice the sites. *)
From Verif Require Import AuxN SpecSymm.
Local Open Scope nat_scope.

(* 24-35 the while loop and 37 the remaining inversions, 38-48 the copying; la and ra: the parts of lAr and rAr not yet
   consumed, j: number of elements taken from rAr *)
Fixpoint merge_loop (la : list Z) : list Z -> nat -> bool -> list Z * bool :=
  match la with
  | [] => fun ra j f => (ra, f)
  | x :: la' =>
    fix inner (ra : list Z) (j : nat) (f : bool) : list Z * bool :=
      match ra with
      | [] => (la, if (Nat.odd j && Nat.odd (length la))%bool then negb f else f)
      | y :: ra' =>
        if (y <=? x)%Z then let (l, f') := merge_loop la' ra j (if Nat.odd j then negb f else f) in (x :: l, f')
        else let (l, f') := inner ra' (S j) f in (y :: l, f')
      end
  end.
(* 53-60 getf_count on the segment nums[left..right], here the list l; mid = (left+right)/2, so that the left part has
   (length l - 1)/2 + 1 elements whatever left is.  None: out of fuel *)
Fixpoint getf_count (fuel : nat) (l : list Z) (f : bool) : option (list Z * bool) :=
  match fuel with
  | O => None
  | S fuel' =>
    if 1 <? length l then
      let k := S ((length l - 1) / 2) in
      match getf_count fuel' (firstn k l) f with
      | None => None
      | Some (la, f1) =>
        match getf_count fuel' (skipn k l) f1 with
        | None => None
        | Some (ra, f2) => Some (merge_loop la ra 0 f2)
        end
      end
    else Some (l, f)
  end.

(* 74-86 the loop i = N-1 .. 0; cnt = i+1; pos_list is built at its end *)
Fixpoint fermion_map_loop (n : Z) (m : list Z) (cnt : nat) (ss s : N) (pos : list Z) (f : bool) : N * list Z * bool :=
  match cnt with
  | O => (ss, pos, f)
  | S i =>
    let j := nth i m 0%Z in
    let nb := N.land s 1 in
    let neg := (j <? 0)%Z in
    let occ := negb (nb =? 0)%N in
    let pos' := if occ then pos ++ [if neg then (- (j + 1))%Z else j] else pos in
    let f' := if occ then xorb f (neg && Nat.odd i) else f in
    let ss' := N.lxor ss (if neg then N.shiftl (N.lxor nb 1) (Z.to_N (n + j)) else N.shiftl nb (Z.to_N (n - j - 1))) in
    fermion_map_loop n m i ss' (N.shiftr s 1) pos' f'
  end.
(* 66-90: new state and factor of sign *)
Definition fermion_map_bits (n : nat) (m : list Z) (s : N) : N * Z :=
  let '(ss, pos, f) := fermion_map_loop (Z.of_nat n) m n 0 s [] false in
  match getf_count (S (length pos)) pos f with
  | Some (_, f') => (ss, if f' then (-1)%Z else 1%Z)
  | None => (ss, 0%Z)
  end.
(* 140-147 map_state *)
Definition fermion_smap (n : nat) (mlist : list (list Z)) : smap := fun d s => fermion_map_bits n (nth d mlist []) s.
