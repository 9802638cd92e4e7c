(* Model of state -> index lookup:
   /repo/quspin/basis/basis_general/_basis_general_core/source/misc.h, make_general_basis.h, general_basis_op.h,
   general_basis_core.pyx, ../general_basis_utils.pyx. *)
From Verif Require Import AuxN SpecC SpecSymm M_symm.
Local Open Scope nat_scope.

(* std::lower_bound (C++ standard library, halving loop) with comp(a,b) = a > b (misc.h:32-36);
   first = index of the first element, len = number of elements *)
Fixpoint lower_bound (fuel : nat) (A : list N) (first len : nat) (s : N) : nat :=
  match fuel with
  | O => first
  | S f => if 0 <? len then
             let half := len / 2 in
             let middle := first + half in
             if (s <? nth middle A 0)%N then lower_bound f A (middle + 1) (len - half - 1) s
             else lower_bound f A first half s
           else first
  end.

(* misc.h:58-63 rep_position(N_A, A, s) *)
Definition rep_position (A : list N) (s : N) : Z :=
  let a := lower_bound (length A) A 0 (length A) s in
  if (negb (a =? length A) && negb (nth a A 0 <? s)%N)%bool then Z.of_nat a else (-1)%Z.

(* misc.h:41-56 rep_position with blocks; the arrays of block limits are functions of the prefix *)
Definition rep_position_blocks (A_begin A_end : Z -> Z) (A : list N) (s_p : Z) (s : N) : Z :=
  let b := A_begin s_p in
  let e := A_end s_p in
  if (b <? 0)%Z then (-1)%Z
  else let first := Z.to_nat b in
       let last := Z.to_nat e in
       let a := lower_bound (last - first) A first (last - first) s in
       if (negb (a =? last) && negb (nth a A 0 <? s)%N)%bool then Z.of_nat a else (-1)%Z.

(* bits_info.h:20-29 integer_cast<npy_intp>: -1 when the value does not fit 63 bits *)
Definition integer_cast (x : N) : Z := if (x <? 2 ^ 63)%N then Z.of_N x else (-1)%Z.
(* hcb_basis_core.h:74-76 get_prefix; spinful_fermion_basis_core.h and spinless inherit it *)
Definition hcb_prefix (n N_p : nat) (s : N) : Z := integer_cast (N.shiftr s (N.of_nat (n - N_p))).
(* boson_basis_core.h:53-55 get_prefix, M[i] = sps^i *)
Definition boson_prefix (sps : N) (n N_p : nat) (s : N) : Z := integer_cast (s / sps ^ N.of_nat (n - N_p))%N.

Definition upd (m : Z -> Z) (a v : Z) : Z -> Z := fun x => if (x =? a)%Z then v else m x.

(* make_general_basis.h:51-66: the loop over the basis *)
Record bstate := mkB { b_begin : Z; b_end : Z; b_sp : Z; b_next : Z; b_bb : Z -> Z; b_be : Z -> Z }.
Fixpoint blocks_loop (pfx : N -> Z) (A : list N) (st : bstate) : option bstate :=
  match A with
  | [] => Some st
  | s :: A' =>
    let q := pfx s in
    if (q <? 0)%Z then None
    else if (q =? b_sp st)%Z then blocks_loop pfx A' (mkB (b_begin st) (b_end st + 1) (b_sp st) q (b_bb st) (b_be st))
    else blocks_loop pfx A' (mkB (b_end st) (b_end st + 1) q q
           (upd (b_bb st) (b_sp st) (b_begin st)) (upd (b_be st) (b_sp st) (b_end st)))
  end.
(* make_general_basis.h:31-71 with the arrays initialised to -1 (general_basis_core.pyx:770-771); None = return value -1;
   junk: what is read from basis[0] when the basis is empty *)
Definition make_blocks (pfx : N -> Z) (N_p : nat) (A : list N) (junk : N) : option ((Z -> Z) * (Z -> Z)) :=
  if N_p =? 0 then Some (upd (fun _ => (-1)%Z) 0 0, upd (fun _ => (-1)%Z) 0 (Z.of_nat (length A)))
  else
    let s_p := pfx (nth 0 A junk) in
    if (s_p <? 0)%Z then None
    else match blocks_loop pfx A (mkB 0 0 s_p 0 (fun _ => (-1)%Z) (fun _ => (-1)%Z)) with
         | None => None
         | Some st => Some (upd (b_bb st) (b_next st) (b_begin st), upd (b_be st) (b_next st) (b_end st))
         end.

(* general_basis_op.h:67-171 get_index; None = the traversal of the orbit ran out of fuel (never happens, C08) *)
(* <true,false,false> *)
Definition index_full (Ns : Z) (r : N) : Z := (Ns - Z.of_N r - 1)%Z.
(* <false,true,false> and <false,true,true>: g is zeroed, then ref_state; result index, g, sign *)
Definition index_symm (find : N -> Z) (pers : list nat) (ms : smap) (nt : nat) (r : N) (sign : Z) : option (Z * list nat * Z) :=
  match ref_state (group_order pers) pers ms nt r (repeat 0 nt) sign with
  | Some (rr, g, sg) => Some (find rr, g, sg)
  | None => None
  end.

(* general_basis_utils.pyx:172-213 search_array and _get_basis_index; None = ValueError *)
Fixpoint search_array (A : list N) (i : nat) (val : N) : Z :=
  match A with [] => (-1)%Z | a :: A' => if (a =? val)%N then Z.of_nat i else search_array A' (S i) val end.
Definition get_basis_index (A : list N) (val : N) : option Z :=
  let i := search_array A 0 val in if (i <? 0)%Z then None else Some i.
