(* Model of the one-dimensional bases: the arrays of states, norms and labels built for every combination of block labels
   (basis_templates.pyx, base_1d.py) and the matrix elements computed in them (op_templates.pyx, base_1d.py _Op).
   Simplified: real numbers instead of doubles; the integer arrays N and m are unbounded (int8 and uint8/uint16 in the code,
   int32/uint32 for Python integers: for L <= 64 the stored values are at most 64, 129 and 46474 and fit); the enumeration of the
   states by next_state is an argument (C02, C03, C04); a matrix element that the code sets to nan is left out. *)
From Verif Require Import AuxN SpecC M_ops M_symop M_bits1d SpecCheck1d M_check1d SpecBlock1d.
From Coq Require Import Permutation.
Local Open Scope nat_scope.

Record entry := mk { e_s : N; e_N : Z; e_m : Z }.

Section S.
Variables (w : btype) (k : kind) (L T : nat) (kb : nat).
Notation LZ1 := (Z.of_nat L + 1)%Z.
(* k = (2.0*_np.pi*kblock*a)/L *)
Definition kval : R := (2 * PI * INR kb * INR T / INR L)%R.
(* ((2*kblock*a) % L) == 0: momenta 0 and pi *)
Definition flat : bool := ((2 * kb * T) mod L =? 0).
Definition cosm (m : Z) : R := cos (kval * IZR m).
Definition sinm (m : Z) : R := sin (kval * IZR m).
Definition sigmas : list Z := if flat then [1%Z] else [(-1)%Z; 1%Z].

(* basis_templates.pyx:19-42 make_p, 48-66 make_p_z, 72-93 make_pz, 564-585 make_z, 590-610 make_zA, 615-635 make_zB,
   642-663 make_zA_zB, 99-121 make_t: "if cs_p and r > 0" *)
Definition keep1 (v : option Z) (s : N) : option (list entry) := match v with None => None | Some r => Some (if (0 <? r)%Z then [mk s r 0] else []) end.
(* basis_templates.pyx:471-515 make_t_z *)
Definition keep_TZ (z : Z) (s : N) : option (list entry) :=
  match check_T_Z w k L kb T s with
  | Some [r; mz; sign] =>
    let '(r, sign) := if (mz =? -1)%Z then (r, (-1)%Z) else ((if Rzero (1 + IZR sign * IZR z * cosm mz) then (-1)%Z else r), sign) in
    Some (if (0 <? r)%Z then [mk s r (mz + 1 + ((sign + 1) / 2) * LZ1)] else [])
  | _ => None
  end.
(* basis_templates.pyx:361-399 make_t_zA, 522-561 make_t_zB *)
Definition keep_Tsub (check : nat -> nat -> N -> option (list Z)) (z : Z) (s : N) : option (list entry) :=
  match check kb T s with
  | Some [r; m] =>
    Some (if (0 <? r)%Z then
            let r := if (negb (m =? -1)%Z && Rzero (1 + IZR z * cosm m))%bool then (-1)%Z else r in
            if (0 <? r)%Z then [mk s r (m + 1)] else []
          else [])
  | _ => None
  end.
(* basis_templates.pyx:405-465 make_t_zA_zB *)
Definition keep_TAB (a b : Z) (s : N) : option (list entry) :=
  match check_T_ZA_ZB w k L kb T s with
  | Some (r :: mA :: mB :: mz :: _) =>
    let no m := (m =? -1)%Z in
    Some (if (0 <? r)%Z then
      (if (no mA && no mB && no mz)%bool then [mk s r LZ1] else []) ++
      (if (negb (no mA) && no mB && no mz)%bool then (if Rzero (1 + IZR a * cosm mA) then [] else [mk s r (mA + 2 * LZ1)]) else []) ++
      (if (no mA && negb (no mB) && no mz)%bool then (if Rzero (1 + IZR b * cosm mB) then [] else [mk s r (mB + 3 * LZ1)]) else []) ++
      (if (no mA && no mB && negb (no mz))%bool then (if Rzero (1 + IZR a * IZR b * cosm mz) then [] else [mk s r (mz + 4 * LZ1)]) else [])
    else [])
  | _ => None
  end.
(* the test of basis_templates.pyx:158-162 and similar: "r_temp = -1 if 1 + sigma*x == 0; if sigma == -1 and 1 - sigma*x != 0: r_temp = -1";
   x: the product sign*pblock*cos(mp*k) *)
Definition kept_sigma (x : R) (sigma : Z) : bool :=
  (negb (Rzero (1 + IZR sigma * x)) && negb ((sigma =? -1)%Z && negb (Rzero (1 - IZR sigma * x))))%bool.
(* basis_templates.pyx:127-183 make_t_p, 296-355 make_t_pz *)
Definition keep_TP (check : nat -> nat -> N -> option (list Z)) (p : Z) (s : N) : option (list entry) :=
  match check kb T s with
  | Some [r; mp; sign] =>
    Some (if (0 <? r)%Z then
      if negb (mp =? -1)%Z then
        map (fun sigma => mk s (sigma * r) (mp + 1 + LZ1 * ((sign + 1) / 2))) (filter (kept_sigma (IZR sign * IZR p * cosm mp)) sigmas)
      else map (fun sigma => mk s (sigma * r) 0) sigmas
    else [])
  | _ => None
  end.
(* basis_templates.pyx:190-294 make_t_p_z *)
Definition keep_TPZ (p z : Z) (s : N) : option (list entry) :=
  match check_T_P_Z w k L kb T s with
  | Some [r; mp; mz; mpz; sp; sz; spz] =>
    let no m := (m =? -1)%Z in
    let half x := ((x + 1) / 2)%Z in
    Some (if (0 <? r)%Z then
      (if (no mp && no mz && no mpz)%bool then map (fun sigma => mk s (sigma * r) 0) sigmas else []) ++
      (if (negb (no mp) && no mz && no mpz)%bool then
         map (fun sigma => mk s (sigma * r) (mp + (1 + half sp) * (LZ1 * LZ1))) (filter (kept_sigma (IZR sp * IZR p * cosm mp)) sigmas) else []) ++
      (if (no mp && negb (no mz) && no mpz)%bool then
         map (fun sigma => mk s (sigma * r) (mz * LZ1 + (3 + half sz) * (LZ1 * LZ1))) (filter (fun _ => negb (Rzero (1 + IZR z * IZR sz * cosm mz))) sigmas) else []) ++
      (if (no mp && no mz && negb (no mpz))%bool then
         map (fun sigma => mk s (sigma * r) (mpz + (5 + half spz) * (LZ1 * LZ1))) (filter (kept_sigma (IZR spz * IZR p * IZR z * cosm mpz)) sigmas) else []) ++
      (if (negb (no mp) && negb (no mz))%bool then
         map (fun sigma => mk s (sigma * r) (mp + LZ1 * mz + (7 + half sp + 2 * half sz) * (LZ1 * LZ1)))
           (filter (fun sigma => (negb (Rzero (1 + IZR sigma * IZR sp * IZR p * cosm mp) || Rzero (1 + IZR z * IZR sz * cosm mz)) &&
              negb ((sigma =? -1)%Z && (negb (Rzero (1 - IZR sigma * IZR sp * IZR p * cosm mp)) || negb (Rzero (1 - IZR z * IZR sz * cosm mz)))))%bool) sigmas) else [])
    else [])
  | _ => None
  end.
Definition keep (b : block) (s : N) : option (list entry) :=
  match b with
  | BFull | BNo => Some [mk s 1 0]
  | BP p => keep1 (check_P w k L p s) s
  | BZ z => keep1 (check_Z w k L z s) s
  | BPZ q => keep1 (check_PZ w k L q s) s
  | BA a => keep1 (check_ZA w k L a s) s
  | BB b => keep1 (check_ZB w k L b s) s
  | BP_Z p z => keep1 (check_P_Z w k L p z s) s
  | BA_B a b => keep1 (check_ZA_ZB w k L a b s) s
  | BT => keep1 (check_T w k L kb T s) s
  | BT_Z z => keep_TZ z s
  | BT_A a => keep_Tsub (check_T_ZA w k L) a s
  | BT_B b => keep_Tsub (check_T_ZB w k L) b s
  | BT_A_B a b => keep_TAB a b s
  | BT_P p => keep_TP (check_T_P w k L) p s
  | BT_PZ q => keep_TP (check_T_PZ w k L) q s
  | BT_P_Z p z => keep_TPZ p z s
  end.
(* the arrays as they are filled, for the states of the particle sector in the order of next_state *)
Definition collect (b : block) (states : list N) : option (list entry) := option_map (@concat _) (all_some (map (keep b) states)).
(* base_1d.py:427-478: the arrays are reversed, or, for a list of particle numbers, sorted by argsort()[::-1]: some
   arrangement of the same entries with the states in descending order *)
Fixpoint descends (A : list N) : Prop := match A with s :: ((t :: _) as B) => (t <= s)%N /\ descends B | _ => True end.
Definition arranged (es basis : list entry) : Prop := Permutation es basis /\ descends (map e_s basis).
(* the basis arrays of the constructor *)
Definition constructed (b : block) (states : list N) (basis : list entry) : Prop := exists es, collect b states = Some es /\ arranged es basis.

(* ---- refstate.pyx:6-25 findzstate: binary search in the descending array ---- *)
Fixpoint findz (fuel : nat) (A : list N) (bmin bmax : Z) (s : N) : option nat :=
  match fuel with
  | 0 => None
  | S fuel =>
    if (bmin <=? bmax)%Z then
      let b := ((bmin + bmax) / 2)%Z in
      let a := nth (Z.to_nat b) A 0%N in
      if (s =? a)%N then Some (Z.to_nat b)
      else if (s <? a)%N then findz fuel A (b + 1) bmax s
      else findz fuel A bmin (b - 1) s
    else None
  end.
Definition findzstate (A : list N) (s : N) : option nat := findz (S (length A)) A 0 (Z.of_nat (length A) - 1) s.

Definition entry0 : entry := mk 0 0 0.
Section Cols.
Variables (real : bool) (blk : block) (basis : list entry).
Notation Ns := (length basis).
Notation en i := (nth i basis entry0).
Notation st i := (e_s (en i)).
(* "if s != basis[i]: findzstate, else i" *)
Definition locate (i : nat) (s : N) : option nat := if negb (s =? st i)%N then findzstate (map e_s basis) s else Some i.

(* the reference state, the sign and the counts of the block's RefState function *)
Definition ref_of (s : N) : option (N * Z * list nat) :=
  match blk with
  | BFull | BNo => Some (s, 1%Z, [])
  | BP _ => ref_P w k L s | BZ _ => ref_Z w k L s | BPZ _ => ref_PZ w k L s | BA _ => ref_ZA w k L s | BB _ => ref_ZB w k L s
  | BP_Z _ _ => ref_P_Z w k L s | BA_B _ _ => ref_ZA_ZB w k L s
  | BT => ref_T w k L T s | BT_Z _ => ref_T_Z w k L T s | BT_A _ => ref_T_ZA w k L T s | BT_B _ => ref_T_ZB w k L T s | BT_A_B _ _ => ref_T_ZA_ZB w k L T s
  | BT_P _ => ref_T_P w k L T s | BT_PZ _ => ref_T_PZ w k L T s | BT_P_Z _ _ => ref_T_P_Z w k L T s
  end.
(* me.real for real types *)
Definition real_of (m : C) : C := if real then RtoC (fst m) else m.
Definition pw (q : Z) (n : nat) : R := IZR (q ^ Z.of_nat n).
(* op_templates.pyx:262-265: (-1.0)**(l*2*a*kblock/L) for real types, cos(k*l) - 1.0j*sin(k*l) for complex ones *)
Definition phase_t (l : nat) : C :=
  if real then RtoC ((-1) ^ (l * 2 * T * kb / L)) else (cosm (Z.of_nat l), - sinm (Z.of_nat l))%R.
(* op_templates.pyx:853-856 and the same lines of the other matrix elements *)
Definition phase_f (l : nat) : C :=
  if flat then RtoC ((-1) ^ (2 * l * T * kb / L)) else (cosm (Z.of_nat l), - sinm (Z.of_nat l))%R.
(* op_templates.pyx:834-858 MatrixElement_T_ZA, 1045-1070 T_ZB: the norm of one state *)
Definition norm_sub (z : Z) (e : entry) : R := ((if (0 <=? e_m e - 1)%Z then 1 + IZR z * cosm (e_m e - 1) else 1) / IZR (e_N e))%R.
(* 932-976 MatrixElement_T_ZA_ZB *)
Definition norm_AB (a b : Z) (e : entry) : R :=
  let mm := (e_m e mod LZ1)%Z in
  match (e_m e / LZ1)%Z with
  | 1%Z => (1 / IZR (e_N e))%R
  | 2%Z => ((1 + IZR a * cosm mm) / IZR (e_N e))%R
  | 3%Z => ((1 + IZR b * cosm mm) / IZR (e_N e))%R
  | 4%Z => ((1 + IZR a * IZR b * cosm mm) / IZR (e_N e))%R
  | _ => 1%R
  end.
(* 1132-1162 MatrixElement_T_Z *)
Definition norm_TZ (z : Z) (e : entry) : R :=
  let mm := (e_m e mod LZ1 - 1)%Z in
  let s := (2 * (e_m e / LZ1) - 1)%Z in
  ((if (0 <=? mm)%Z then 1 + IZR s * IZR z * cosm mm else 1) / IZR (e_N e))%R.
(* the factor of the matrix element: lines 91-94 (p), 139-143 (pz), 186-190 (p_z), 255-265 (t), 905-911 (t_zA), 1034-1039 (t_zA_zB),
   1116-1122 (t_zB), 1208-1214 (t_z), 1262-1265 (zA), 1311-1314 (zA_zB), 1353-1356 (zB), 1398-1401 (z); column c, row r *)
Definition factor (sign : Z) (Rc : list nat) (c r : entry) : C :=
  let sg := RtoC (IZR sign) in
  let one q := (sg * RtoC (pw q (nth 0 Rc 0%nat) * sqrt (IZR (e_N r) / IZR (e_N c))))%C in
  let two q1 q2 := (sg * RtoC (sqrt (IZR (e_N r) / IZR (e_N c)) * pw q1 (nth 0 Rc 0%nat) * pw q2 (nth 1 Rc 0%nat)))%C in
  let l := nth 0 Rc 0%nat in
  let trans nrm q := (sg * real_of (RtoC (sqrt (nrm r / nrm c) * q) * phase_f l))%C in
  match blk with
  | BP q | BZ q | BPZ q | BA q | BB q => one q
  | BP_Z q1 q2 | BA_B q1 q2 => two q1 q2
  | BT => (RtoC (sqrt (IZR (e_N c) / IZR (e_N r))) * (sg * phase_t l))%C
  | BT_Z z => trans (norm_TZ z) (pw z (nth 1 Rc 0%nat))
  | BT_A a => trans (norm_sub a) (pw a (nth 1 Rc 0%nat))
  | BT_B b => trans (norm_sub b) (pw b (nth 1 Rc 0%nat))
  | BT_A_B a b => trans (norm_AB a b) (pw a (nth 1 Rc 0%nat) * pw b (nth 2 Rc 0%nat))%R
  | _ => C1
  end.
(* ---- semi-momentum blocks ---- *)
Definition sgn (x : Z) : Z := if (0 <? x)%Z then 1%Z else (-1)%Z.
(* op_templates.pyx:276-322 MatrixElement_T_P, 437-487 T_PZ *)
Definition fTP (e : entry) : Z := if (0 <=? e_m e mod LZ1 - 1)%Z then (2 * (e_m e / LZ1) - 1)%Z else 1%Z.
Definition norm_TP (p : Z) (e : entry) : R :=
  let mm := (e_m e mod LZ1 - 1)%Z in let s := sgn (e_N e) in
  ((if (0 <=? mm)%Z then (1 + IZR (fTP e) * IZR s * IZR p * cosm mm) / IZR (e_N e) else 1 / IZR (e_N e)) * IZR s)%R.
Definition mix (f mm : Z) (q : Z) (sr sc : Z) (l : Z) : R :=
  if (sr =? sc)%Z then ((cosm l + IZR f * IZR sc * IZR q * cosm (l - mm)) / (1 + IZR f * IZR sc * IZR q * cosm mm))%R
  else ((- IZR sc * sinm l + IZR f * IZR q * sinm (l - mm)) / (1 - IZR f * IZR sc * IZR q * cosm mm))%R.
Definition plain (sr sc l : Z) : R := if (sr =? sc)%Z then cosm l else (- IZR sc * sinm l)%R.
Definition me_TP (p : Z) (Rc : list nat) (c r : entry) : R :=
  let l := Z.of_nat (nth 0 Rc 0%nat) in
  let sc := sgn (e_N c) in let sr := sgn (e_N r) in
  let mmr := (e_m r mod LZ1 - 1)%Z in
  (sqrt (norm_TP p r / norm_TP p c) * pw (sc * p) (nth 1 Rc 0%nat) * (if (mmr <? 0)%Z then plain sr sc l else mix (fTP r) mmr p sr sc l))%R.
(* 605-715 MatrixElement_T_P_Z *)
Definition mmTPZ (e : entry) : Z := (e_m e mod LZ1)%Z.
Definition nnTPZ (e : entry) : Z := ((e_m e / LZ1) mod LZ1)%Z.
Definition cTPZ (e : entry) : Z := (e_m e / LZ1 / LZ1)%Z.
Definition f1TPZ (e : entry) : Z := match cTPZ e with 1%Z | 3%Z | 5%Z | 7%Z | 9%Z => (-1)%Z | _ => 1%Z end.
Definition norm_TPZ (p z : Z) (e : entry) : R :=
  let s := IZR (sgn (e_N e)) in let f := IZR (f1TPZ e) in
  let mm := mmTPZ e in let nn := nnTPZ e in
  (match cTPZ e with
   | 0%Z => 1 / IZR (e_N e)
   | 1%Z | 2%Z => (1 + f * IZR p * s * cosm mm) / IZR (e_N e)
   | 3%Z | 4%Z => (1 + f * IZR z * cosm nn) / IZR (e_N e)
   | 5%Z | 6%Z => (1 + f * IZR p * IZR z * s * cosm mm) / IZR (e_N e)
   | 7%Z | 8%Z => (1 + f * IZR p * s * cosm mm) * (1 + -1 * IZR z * cosm nn) / IZR (e_N e)
   | 9%Z | 10%Z => (1 + f * IZR p * s * cosm mm) * (1 + 1 * IZR z * cosm nn) / IZR (e_N e)
   | _ => 1
   end * s)%R.
Definition me_TPZ (p z : Z) (Rc : list nat) (c r : entry) : R :=
  let l := Z.of_nat (nth 0 Rc 0%nat) in
  let sc := sgn (e_N c) in let sr := sgn (e_N r) in
  (sqrt (norm_TPZ p z r / norm_TPZ p z c) * pw (sc * p) (nth 1 Rc 0%nat) * pw z (nth 2 Rc 0%nat) *
   match cTPZ r with
   | 1%Z | 2%Z | 7%Z | 8%Z | 9%Z | 10%Z => mix (f1TPZ r) (mmTPZ r) p sr sc l
   | 5%Z | 6%Z => mix (f1TPZ r) (mmTPZ r) (p * z) sr sc l
   | _ => plain sr sc l
   end)%R.
Definition me_semi (Rc : list nat) (c r : entry) : R :=
  match blk with BT_P p => me_TP p Rc c r | BT_PZ q => me_TP q Rc c r | BT_P_Z p z => me_TPZ p z Rc c r | _ => 1%R end.

(* rows and elements as returned by op_func *)
Variable rm : list (N * C).
Notation row i := (fst (nth i rm (0%N, C0))).
Notation me i := (snd (nth i rm (0%N, C0))).
(* one column of the templates without semi-momentum: 16-18 (full space), 40-48 (n_op), and the others *)
Definition col_plain (i : nat) : option (list (C * nat * nat)) :=
  match blk with
  | BFull => Some [(me i, Ns - N.to_nat (row i) - 1, i)]
  | BNo => Some (match locate i (row i) with Some j => [(me i, j, i)] | None => [] end)
  | _ =>
    match ref_of (row i) with
    | None => None
    | Some (s, sign, Rc) => Some (match locate i s with Some j => [((me i * factor sign Rc (en i) (en j))%C, j, i)] | None => [] end)
    end
  end.
(* the branch for momenta 0 and pi: 358-379 (t_p), 520-541 (t_pz), 752-775 (t_p_z) *)
Definition col_semi_flat (i : nat) : option (list (C * nat * nat)) :=
  match ref_of (row i) with
  | None => None
  | Some (s, sign, Rc) => Some (match locate i s with Some j => [((me i * (RtoC (IZR sign) * RtoC (me_semi Rc (en i) (en j))))%C, j, i)] | None => [] end)
  end.
(* the other momenta: 381-431, 543-595, 777-826; o and p count the entries with the same state *)
Definition col_semi (i : nat) : option (list (C * nat * nat)) :=
  if ((0 <? i) && (st i =? st (i - 1))%N)%bool then Some [] else
  let o := if ((i <? Ns - 1) && (st i =? st (i + 1))%N)%bool then 2 else 1 in
  match ref_of (row i) with
  | None => None
  | Some (s, sign, Rc) =>
    Some match locate i s with
    | None => []
    | Some ss =>
      if ((ss =? i) && forallb (fun x => x =? 0) Rc)%bool then
        map (fun j => ((me j * (RtoC (IZR sign) * RtoC (me_semi Rc (en j) (en j))))%C, j, j)) (seq i o)
      else
        let '(ss, p) := if ((0 <? ss) && (st ss =? st (ss - 1))%N)%bool then (ss - 1, 2)
                        else if ((ss <? Ns - 1) && (st ss =? st (ss + 1))%N)%bool then (ss, 2) else (ss, 1) in
        flat_map (fun c => map (fun b => ((RtoC (IZR sign) * me (i + c) * RtoC (me_semi Rc (en (i + c)) (en (ss + b))))%C, ss + b, i + c)) (seq 0 p)) (seq 0 o)
    end
  end.
Definition column (i : nat) : option (list (C * nat * nat)) :=
  if semi blk then (if flat then col_semi_flat i else col_semi i) else col_plain i.
End Cols.

(* hcp_ops.pyx:27-75, boson_ops.pyx:31-72, spf_ops.pyx:26-65 op_func for one state: the string acts with the factor 1, the
   result is multiplied by J; a real matrix type demands a real element *)
Definition op_func (real : bool) (op : N -> C -> option (N * C)) (J : C) (s : N) : option (N * C) :=
  match op s C1 with
  | None => None
  | Some (r, m) => if (real && negb (Rzero (snd (m * J)%C)))%bool then None else Some (r, (m * J)%C)
  end.
(* the error of lines 236-237 and the same lines of the other templates: real type and complex momentum *)
Definition needs_complex (blk : block) : bool := (translates blk && negb (semi blk) && negb flat)%bool.
Definition template (real : bool) (blk : block) (basis : list entry) (op : N -> C -> option (N * C)) (J : C) : option (list (C * nat * nat)) :=
  match all_some (map (fun e => op_func real op J (e_s e)) basis) with
  | None => None
  | Some rm => if (real && needs_complex blk)%bool then None
               else option_map (@concat _) (all_some (map (column real blk basis rm) (seq 0 (length basis))))
  end.
(* base_1d.py:563-600 _Op and spin.py:237-246 (scale: the factors of the Pauli matrices) *)
Definition Op1d (real : bool) (blk : block) (basis : list entry) (n_sites : nat) (allowed : list ascii) (scale : list ascii -> R)
  (op : list (ascii * nat) -> N -> C -> option (N * C)) (l : list (ascii * nat)) (J : C) : option (list (C * nat * nat)) :=
  if existsb (fun oi => n_sites <=? snd oi) l then None
  else if existsb (fun oi => negb (existsb (Ascii.eqb (fst oi)) allowed)) l then None
  else match basis with
  | [] => Some []
  | _ =>
    match template real blk basis (op l) J with
    | None => None
    | Some es => Some (map (fun e => ((fst (fst e) * RtoC (scale (map fst l)))%C, snd (fst e), snd e)) (filter (fun e => negb (Czero (fst (fst e)))) es))
    end
  end.
End S.
