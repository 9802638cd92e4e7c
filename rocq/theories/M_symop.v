(* Model of the construction of operator matrices in a (symmetry reduced) basis:
   /repo/quspin/basis/basis_general/_basis_general_core/source/general_basis_op.h, general_basis_core.pyx,
   /repo/quspin/basis/basis_general/base_general.py, spin.py, /repo/quspin/basis/base.py.
   Floating point is exact.  None: an exception is raised.
   basis: the list of (state, norm) in the order of the arrays basis[] and n[]. *)
From Verif Require Import AuxN SpecC SpecSymm M_symm M_index M_ops M_opstr.
Local Open Scope nat_scope.

(* general_basis_op.h:592-630 general_op (and 303-480 general_inplace_op): choice of the lookup; basis_full is
   general_basis_core.pyx:227 (Ns_full == basis.shape[0]).  First component: the template flag "symmetries".
   pfx = get_prefix(.,N_p), bb and be = basis_begin, basis_end *)
Definition get_index (Ns_full : nat) (A : list N) (pers : list nat) (ms : smap) (nt N_p : nat) (pfx : N -> Z) (bb be : Z -> Z)
  : bool * (N -> option (Z * list nat * Z)) :=
  if length A =? Ns_full then (false, fun r => Some (index_full (Z.of_nat (length A)) r, [], 1%Z))
  else
    let find := if 0 <? N_p then (fun r => rep_position_blocks bb be A (pfx r) r) else rep_position A in
    if 0 <? nt then (true, fun r => index_symm find pers ms nt r 1%Z) else (false, fun r => Some (find r, [], 1%Z)).

(* general_basis_op.h:189-205 scale_matrix_ele<J,P,true> *)
Definition scale_matrix_ele (qs : list Z) (pers : list nat) (nt : nat) (sign nj ni : Z) (g : list nat) (m : C) : C :=
  let q := Rsum (seq 0 nt) (fun k => (ks qs pers k * INR (nth k g 0%nat))%R) in
  (m * (RtoC (IZR sign) * RtoC (sqrt (IZR nj / IZR ni)) * cis (- q)))%C.

(* misc.h:106-135 check_imag: for a real type the real part is stored and a large imaginary part is an error *)
Definition check_imag (real : bool) (m : C) : option C :=
  if real then (if Rlt_dec (11 / 10 ^ 16) (Rabs (snd m)) then None else Some (RtoC (fst m))) else Some m.

(* body of the loop, general_basis_op.h:549-584: the matrix element (value, row index) of column i, None when j < 0;
   outer None: error code *)
Definition matrix_element (sf : bool * (N -> option (Z * list nat * Z))) (basis : list (N * Z)) (qs : list Z) (pers : list nat) (nt : nat)
    (op : N -> C -> option (N * C)) (A : C) (i : nat) : option (option (C * nat)) :=
  let s := fst (nth i basis (0%N, 0%Z)) in
  match op s A with
  | None => None
  | Some (r, m) =>
    if (r =? s)%N then Some (Some (m, i))
    else match snd sf r with
         | None => None
         | Some (j, g, sign) =>
           if (j <? 0)%Z then Some None
           else let jn := Z.to_nat j in
                let m' := if fst sf then scale_matrix_ele qs pers nt sign (snd (nth jn basis (0%N, 0%Z))) (snd (nth i basis (0%N, 0%Z))) g m else m in
                Some (Some (m', jn))
         end
  end.

(* entry i of the arrays M, row, col (filled with 0 before); the iterations write disjoint entries, so the schedule does not matter *)
Definition op_cell (real : bool) sf basis qs pers nt op A (i : nat) : option (C * nat * nat) :=
  match matrix_element sf basis qs pers nt op A i with
  | None => None
  | Some None => Some (C0, 0, 0)
  | Some (Some (m, j)) => match check_imag real m with None => None | Some me => Some (me, j, i) end
  end.
Fixpoint all_some {X} (l : list (option X)) : option (list X) :=
  match l with
  | [] => Some []
  | None :: _ => None
  | Some x :: l' => match all_some l' with None => None | Some r => Some (x :: r) end
  end.
(* general_basis_op.h:502-592; any nonzero error code of any iteration makes general_basis_core.pyx:258-263 raise *)
Definition general_op_core real sf basis qs pers nt op A : option (list (C * nat * nat)) :=
  all_some (map (op_cell real sf basis qs pers nt op A) (seq 0 (length basis))).

(* base_general.py:244-287 _Op (after the check that the basis was made); the string and its sites are one list of pairs;
   spin.py:182-196 multiplies the elements by scale (1 for the other bases) *)
Definition Op real sf basis qs pers nt (n_sites : nat) (allowed : list ascii) (scale : list ascii -> R)
    (op : list (ascii * nat) -> N -> C -> option (N * C)) (l : list (ascii * nat)) (J : C) : option (list (C * nat * nat)) :=
  if existsb (fun oi => n_sites <=? snd oi) l then None
  else if existsb (fun oi => negb (existsb (Ascii.eqb (fst oi)) allowed)) l then None
  else match basis with
       | [] => Some []
       | _ => match general_op_core real sf basis qs pers nt (op l) J with
              | None => None
              | Some es => Some (map (fun e => ((fst (fst e) * RtoC (scale (map fst l)))%C, snd (fst e), snd e))
                                     (filter (fun e => negb (Czero (fst (fst e)))) es))
              end
       end.

(* scipy csr_matrix((ME,(row,col))) adds up repeated entries *)
Definition coo_matrix (es : list (C * nat * nat)) (r c : nat) : C :=
  Csum es (fun e => if ((snd (fst e) =? r) && (snd e =? c))%bool then fst (fst e) else C0).
(* base.py:17-23 *)
Definition is_diagonal (es : list (C * nat * nat)) : bool := forallb (fun e => snd (fst e) =? snd e) es.
(* base.py:25-28 *)
Definition update_diag (diag : nat -> C) (es : list (C * nat * nat)) : nat -> C :=
  fold_left (fun d e => fun i => if i =? snd (fst e) then (d i + fst (fst e))%C else d i) es diag.
(* base.py:220-251 _make_matrix: loop over the terms, then the combination of the two parts *)
Fixpoint make_matrix_loop (OpF : list (ascii * nat) -> C -> option (list (C * nat * nat))) (ts : list (list (ascii * nat) * C))
    (off : option (nat -> nat -> C)) (diag : option (nat -> C)) : option (option (nat -> nat -> C) * option (nat -> C)) :=
  match ts with
  | [] => Some (off, diag)
  | (l, J) :: ts' =>
    match OpF l J with
    | None => None
    | Some es =>
      if 0 <? length es then
        if is_diagonal es then
          make_matrix_loop OpF ts' off (Some (update_diag (match diag with None => fun _ => C0 | Some d => d end) es))
        else make_matrix_loop OpF ts' (Some (match off with None => coo_matrix es | Some o => fun r c => (o r c + coo_matrix es r c)%C end)) diag
      else make_matrix_loop OpF ts' off diag
    end
  end.
Definition diag_matrix (d : nat -> C) (r c : nat) : C := if r =? c then d r else C0.
Definition make_matrix OpF ts : option (nat -> nat -> C) :=
  match make_matrix_loop OpF ts None None with
  | None => None
  | Some (Some o, Some d) => Some (fun r c => (o r c + diag_matrix d r c)%C)
  | Some (Some o, None) => Some o
  | Some (None, Some d) => Some (diag_matrix d)
  | Some (None, None) => Some (fun _ _ => C0)
  end.
