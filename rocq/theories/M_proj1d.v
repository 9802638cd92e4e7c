(* Model of the projectors of the one-dimensional bases (base_1d.py): _get_norms, get_proj with _get_proj_sparse, and
   project_from with _get_vec_dense and _get_vec_sparse.
   Simplified: real numbers instead of floats; the arrays N and M have the unbounded entries of M_op1d, but the int8 arrays
   of _get_norms wrap around; the arrays basis_in, sign and norms are followed entry by entry; the quantities "sign" of
   _get_norms are products of a sign and a period, at most L in modulus, and do not wrap; bases without states are left out. *)
From Verif Require Import AuxN SpecC M_ops M_symop M_bits1d SpecCheck1d M_check1d SpecBlock1d M_op1d.
Local Open Scope nat_scope.

(* conversion to numpy.int8 *)
Definition int8 (x : Z) : Z := ((x + 128) mod 256 - 128)%Z.

Section S.
Variables (w : btype) (k : kind) (L T : nat) (kb : nat) (b : block).
Notation LZ1 := (Z.of_nat L + 1)%Z.
Notation cosm := (cosm L T kb).
(* (self._L/a)**2 *)
Definition cells2 : R := (INR L / INR T * (INR L / INR T))%R.
(* base_1d.py:826, 897: abs(sin(k)) < 1.0/L *)
Definition small_sin : bool := if Rlt_dec (Rabs (sin (kval L T kb))) (1 / INR L) then true else false.
(* base_1d.py:875: 2*kblock == self._L or kblock == 0 *)
Definition special_k : bool := ((2 * kb =? L) || (kb =? 0))%bool.

(* base_1d.py:804-970 _get_norms, before the final square root, for one entry of the arrays *)
Definition norm2 (e : entry) : R :=
  let s := IZR (Z.sgn (e_N e)) in
  let N := IZR (e_N e) in
  match b with
  | BT_P_Z p z => (* 813-859 *)
    let c := int8 (e_m e / (LZ1 * LZ1)) in
    let nn := int8 (int8 (e_m e / LZ1) mod LZ1) in
    let mm := int8 (e_m e mod LZ1) in
    let base := ((if small_sin then 4 * cells2 else 2 * cells2) * s / N)%R in
    match c with
    | 1%Z => base * (1 - s * IZR p * cosm mm)
    | 2%Z => base * (1 + s * IZR p * cosm mm)
    | 3%Z => base * (1 - IZR z * cosm nn)
    | 4%Z => base * (1 + IZR z * cosm nn)
    | 5%Z => base * (1 - s * IZR (p * z) * cosm mm)
    | 6%Z => base * (1 + s * IZR (p * z) * cosm mm)
    | 7%Z => base * (1 - s * IZR p * cosm mm) * (1 - IZR z * cosm nn)
    | 8%Z => base * (1 + s * IZR p * cosm mm) * (1 - IZR z * cosm nn)
    | 9%Z => base * (1 - s * IZR p * cosm mm) * (1 + IZR z * cosm nn)
    | 10%Z => base * (1 + s * IZR p * cosm mm) * (1 + IZR z * cosm nn)
    | _ => base
    end%R
  | BT_A_B za zb => (* 860-873 *)
    let c := int8 (e_m e / LZ1) in
    let mm := int8 (e_m e mod LZ1) in
    let base := (4 * cells2 / N)%R in
    match c with
    | 2%Z => base * (1 + IZR za * cosm mm)
    | 3%Z => base * (1 + IZR zb * cosm mm)
    | 4%Z => base * (1 + IZR (za * zb) * cosm mm)
    | _ => base
    end%R
  | BT_P p => (* 874-895; m is as wide as the largest entry of M *)
    let base := ((if special_k then 2 * cells2 else cells2) * s / N)%R in
    let m := (e_m e mod LZ1 - 1)%Z in
    if (0 <=? m)%Z then (base * (1 + IZR (Z.sgn ((int8 (e_m e / LZ1) * 2 - 1) * e_N e)) * IZR p * cosm m))%R else base
  | BT_PZ q => (* 896-916 *)
    let base := ((if small_sin then 2 * cells2 else cells2) * s / N)%R in
    let m := (int8 (int8 (e_m e) mod LZ1) - 1)%Z in
    if (0 <=? m)%Z then (base * (1 + IZR (Z.sgn ((int8 (e_m e / LZ1) * 2 - 1) * e_N e)) * IZR q * cosm m))%R else base
  | BT_Z z => (* 917-932 *)
    let base := (2 * cells2 / N)%R in
    let m := (int8 (int8 (e_m e) mod LZ1) - 1)%Z in
    if (0 <=? m)%Z then (base * (1 + IZR (int8 (e_m e / LZ1) * 2 - 1) * IZR z * cosm m))%R else base
  | BT_A q | BT_B q => (* 933-948 *)
    let base := (2 * cells2 / N)%R in
    if (0 <? e_m e)%Z then (base * (1 + IZR q * cosm (int8 (e_m e - 1))))%R else base
  | BP _ | BZ _ | BPZ _ | BA _ | BB _ | BP_Z _ _ | BA_B _ _ => N (* 949-962 *)
  | BT => (cells2 / N)%R (* 963-965 *)
  | BFull | BNo => 1%R (* 966-967 *)
  end.
(* 969 *)
Definition norm_of (e : entry) : R := sqrt (norm2 e).

(* a = L when there is no kblock (base_1d.py:1301-1305) *)
Definition step : nat := if translates b then T else L.
(* the labels that are set for the block, in the order in which the loops use them; spin.py:172-180, boson.py:172-178,
   fermion.py:342-345 and base_1d.py:148, 174: reflection and inversion also set the product, both sublattice
   inversions also set the inversion of all sites.  Label, operations, operations that undo them *)
Definition flips (pz : list letter) : list (Z * list letter * list letter) :=
  let A q := (q, [LA], [LA]) in let B q := (q, [LB], [LB]) in let Zl q := (q, [LZ], [LZ]) in let P q := (q, [LP], [LP]) in
  let PZ q := (q, pz, [LP; LZ]) in
  match b with
  | BFull | BNo | BT => []
  | BP p | BT_P p => [P p]
  | BZ z | BT_Z z => [Zl z]
  | BPZ q | BT_PZ q => [PZ q]
  | BA q | BT_A q => [A q]
  | BB q | BT_B q => [B q]
  | BP_Z p z | BT_P_Z p z => [Zl z; P p; PZ (p * z)%Z]
  | BA_B za zb | BT_A_B za zb => [A za; B zb; Zl (za * zb)%Z]
  end.

(* one addition to the result: number r of translations, label, state and sign *)
Record visit := vis { v_r : nat; v_label : Z; v_state : N; v_sign : Z }.
(* base_1d.py:1323-1433: "ops...; data *= label; data *= sign; v += ...; (undo); ops..." *)
Fixpoint flip_stage (r : nat) (fs : list (Z * list letter * list letter)) (st : N * Z) : option (list visit * (N * Z)) :=
  match fs with
  | [] => Some ([], st)
  | (label, go, back) :: fs =>
    match run_ops (map (act w k L T) go) st with
    | None => None
    | Some st1 =>
      match run_ops (map (act w k L T) back) st1 with
      | None => None
      | Some st2 => match flip_stage r fs st2 with None => None | Some (vs, st3) => Some (vis r label (fst st1) (snd st1) :: vs, st3) end
      end
    end
  end.
(* base_1d.py:1322-1435 "for r in range(0,L//a)"; the last call moves the states of the basis: ops.py_shift(basis_in,a,...) *)
Fixpoint stages (fs : list (Z * list letter * list letter)) (cnt r : nat) (st : N * Z) : option (list visit * N) :=
  match cnt with
  | 0 => Some ([], fst st)
  | S cnt =>
    match flip_stage r fs st with
    | None => None
    | Some (vs, st1) =>
      match op_shift w k L (Z.of_nat step) st1 with
      | None => None
      | Some st2 => match stages fs cnt (S r) st2 with None => None | Some (vs', s) => Some (vis r 1 (fst st) (snd st) :: vs ++ vs', s) end
      end
    end
  end.
(* all additions for one state of the basis, and what the array of the basis holds afterwards *)
Definition visits (pz : list letter) (s : N) : option (list visit * N) := stages (flips pz) (L / step) 0 (s, 1%Z).

(* base_1d.py:685-710 and 772-797: the function C, before the division by the norm; an entry N = 0 is in neither index array *)
Definition C_fun (e : entry) (r : nat) : C :=
  if semi b then
    (if (0 <? e_N e)%Z then RtoC (cos (kval L T kb * INR r)) else if (e_N e <? 0)%Z then RtoC (- sin (kval L T kb * INR r)) else C0)
  else if translates b then
    (if kb =? 0 then C1 else if 2 * kb * T =? L then RtoC ((-1) ^ r) else cis (kval L T kb * INR r))
  else C1.
Definition weight (e : entry) (v : visit) : C := (C_fun e (v_r v) * RtoC (/ norm_of e) * RtoC (IZR (v_label v)) * RtoC (IZR (v_sign v)))%C.

Variable basis : list entry.
Notation en i := (nth i basis entry0).
(* base_1d.py:783-785 (get_proj raises TypeError); 1054-1055, dtype(1.0j*k*r) (project_from raises TypeError): real numbers
   for a momentum other than 0 and pi *)
Definition real_refused (real : bool) : bool := (real && translates b && negb (semi b) && negb (flat L T kb))%bool.

(* base_1d.py:1311-1316 get_index; without and with the states of the particle sector (searchsorted: the number of smaller
   states in the ascending array) *)
Definition get_index (rows : nat) (pcon : option (list N)) (s : N) : nat :=
  match pcon with
  | None => rows - N.to_nat s - 1
  | Some sec => rows - length (filter (fun x => (x <? s)%N) sec) - 1
  end.
Definition n_rows (pcon : option (list N)) : nat := match pcon with None => Mst k L | Some sec => length sec end.
Definition spread (rows : nat) (pcon : option (list N)) (e : entry) (vs : list visit) (x : nat) : C :=
  Csum vs (fun v => if get_index rows pcon (v_state v) =? x then weight e v else C0).
(* get_proj: the matrix (row, column) and the states that the basis holds afterwards; None: an exception, or undefined behaviour *)
Definition get_proj (real : bool) (pcon : option (list N)) : option ((nat -> nat -> C) * list N) :=
  if real_refused real then None
  else match all_some (map (fun e => visits [LP; LZ] (e_s e)) basis) with
       | None => None
       | Some vs => Some (fun x i => spread (n_rows pcon) pcon (en i) (fst (nth i vs ([], 0%N))) x, map snd vs)
       end.
(* base_1d.py:1131-1289 _get_vec_sparse, one column of v0: sums of sparse matrices *)
Definition vec_sparse (real : bool) (v0 : nat -> C) : option ((nat -> C) * list N) :=
  if real_refused real then None
  else match all_some (map (fun e => visits [LZ; LP] (e_s e)) basis) with
       | None => None
       | Some vs => Some (fun x => Csum (seq 0 (length basis)) (fun i => v0 i * spread (Mst k L) None (en i) (fst (nth i vs ([], 0%N))) x)%C, map snd vs)
       end.
(* "v_rev[idx] += vals" of numpy: the right-hand side is computed first, and of several entries for one index the last one stays *)
Definition add_at (v : N -> C) (l : list (N * C)) (s : N) : C :=
  match find (fun p => (fst p =? s)%N) (rev l) with Some (_, x) => (v s + x)%C | None => v s end.
(* base_1d.py:1046-1129 _get_vec_dense, one column of v0: number j counts the additions of the loop; first the entries with
   N > 0 (all of them without semi-momentum), then those with N < 0; v_rev[s] is entry Ns_full - 1 - s of the result *)
Definition pos_ind (i : nat) : bool := if semi b then (0 <? e_N (en i))%Z else true.
Definition neg_ind (i : nat) : bool := if semi b then (e_N (en i) <? 0)%Z else false.
Definition dense_pairs (vs : list (list visit * N)) (v0 : nat -> C) (sel : nat -> bool) (j : nat) : list (N * C) :=
  map (fun i => let v := nth j (fst (nth i vs ([], 0%N))) (vis 0 0 0 0) in (v_state v, (v0 i * weight (en i) v)%C)) (filter sel (seq 0 (length basis))).
Definition dense_step (vs : list (list visit * N)) (v0 : nat -> C) (acc : N -> C) (j : nat) : N -> C :=
  add_at (add_at acc (dense_pairs vs v0 pos_ind j)) (dense_pairs vs v0 neg_ind j).
Definition vec_dense (real : bool) (v0 : nat -> C) : option ((nat -> C) * list N) :=
  if real_refused real then None
  else match all_some (map (fun e => visits [LP; LZ] (e_s e)) basis) with
       | None => None
       | Some vs =>
         let steps := (L / step) * S (length (flips [LP; LZ])) in
         Some (fun x => fold_left (dense_step vs v0) (seq 0 steps) (fun _ => C0) (N.of_nat (Mst k L - 1 - x)), map snd vs)
       end.
(* base_1d.py:675-676: sparse v0 are multiplied by get_proj(v0.dtype); there dtype is not a type but an instance of
   numpy.dtype, and calling it raises TypeError: at cos(dtype(k*r)), dtype(1.0) and exp(dtype(1.0j*k*r)) *)
Definition dtype_called : bool := (semi b || (translates b && negb (flat L T kb)))%bool.
Definition vec_of_sparse (real : bool) (v0 : nat -> C) : option (nat -> C) :=
  if dtype_called then None
  else match get_proj real None with None => None | Some (P, _) => Some (fun x => Csum (seq 0 (length basis)) (fun i => P x i * v0 i)%C) end.
End S.
