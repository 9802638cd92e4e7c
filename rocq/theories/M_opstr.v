(* Model of the python functions on operator strings:
   /repo/quspin/basis/base.py, basis/basis_general/{spin,boson,fermion,base_general}.py (the functions of basis_1d are textual
   copies), operators/_make_hamiltonian.py.
   An operator string with its sites is one list of pairs (the ValueErrors for unequal lengths and stray '|' cannot occur
   then); a term is such a list with its coupling.  Couplings are exact complex numbers. *)
From Verif Require Import AuxN SpecC M_ops.
Local Open Scope nat_scope.

Notation opl := (list (ascii * nat)).
Notation term := (list (ascii * nat) * C)%type.

(* spin.py:251-264, boson.py:244-257 _sort_opstr: list.sort(key=site), python's sort is stable *)
Fixpoint insert_site (x : ascii * nat) (l : opl) : opl :=
  match l with
  | [] => [x]
  | y :: l' => if snd x <=? snd y then x :: l else y :: insert_site x l'
  end.
Definition stable_sort (l : opl) : opl := fold_right insert_site [] l.
Definition sort_opstr (t : term) : term := (stable_sort (fst t), snd t).

(* fermion.py:185-213 _sort_opstr: bubble sort with sign; one pass of the for loop, x is the element at position i *)
Definition is_pm (o : ascii) : bool := ((o =? "+")%char || (o =? "-")%char)%bool.
Fixpoint bubble_pass (x : ascii * nat) (rest : opl) : opl * Z * bool :=
  match rest with
  | [] => ([x], 1%Z, false)
  | y :: rest' =>
    if snd y <? snd x then
      let '(l, sg, _) := bubble_pass x rest' in
      (y :: l, if (is_pm (fst y) && is_pm (fst x))%bool then (- sg)%Z else sg, true)
    else let '(l, sg, sw) := bubble_pass y rest' in (x :: l, sg, sw)
  end.
(* the while loop; None: out of fuel *)
Fixpoint bubble_sort (fuel : nat) (l : opl) (sg : Z) : option (opl * Z) :=
  match fuel with
  | O => None
  | S f => match l with
           | [] => Some ([], sg)
           | x :: rest => let '(l', sg', sw) := bubble_pass x rest in
                          if sw then bubble_sort f l' (sg * sg')%Z else Some (l', (sg * sg')%Z)
           end
  end.
Definition fermion_sort_opstr (t : term) : option term :=
  match bubble_sort (S (length (fst t) * length (fst t))) (fst t) 1 with
  | None => None
  | Some (l, sg) => Some (l, (snd t * RtoC (IZR sg))%C)
  end.

(* replace("+","%").replace("-","+").replace("%","-") and reverse *)
Definition swap_pm (o : ascii) : ascii := if (o =? "+")%char then "-"%char else if (o =? "-")%char then "+"%char else o.
Definition hc_list (l : opl) : opl := rev (map (fun oi => (swap_pm (fst oi), snd oi)) l).
(* spin.py:279-289, boson.py:275-285 _hc_opstr *)
Definition hc_opstr (t : term) : term := sort_opstr (hc_list (fst t), Cconj (snd t)).
(* fermion.py:230-240 _hc_opstr *)
Definition fermion_hc_opstr (t : term) : option term := fermion_sort_opstr (hc_list (fst t), Cconj (snd t)).

(* spinful basis: a string "left|right" is a pair of lists *)
Notation sterm := (list (ascii * nat) * list (ascii * nat) * C)%type.
(* fermion.py:766-806 _sort_opstr, simple form *)
Definition spinful_sort_opstr (t : sterm) : option sterm :=
  let '(l, r, J) := t in
  match fermion_sort_opstr (l, C1), fermion_sort_opstr (r, C1) with
  | Some (l', a), Some (r', b) => Some (l', r', (J * (a * b))%C)
  | _, _ => None
  end.
(* fermion.py:808-850 _hc_opstr, simple form *)
Definition count_pm (l : opl) : nat := length (filter (fun oi => is_pm (fst oi)) l).
Definition spinful_hc_opstr (t : sterm) : option sterm :=
  let '(l, r, J) := t in
  match fermion_hc_opstr (l, J), fermion_hc_opstr (r, C1) with
  | Some (l', a), Some (r', b) => Some (l', r', (RtoC ((-1) ^ (count_pm l * count_pm r)) * a * b)%C)
  | _, _ => None
  end.

(* spin.py:291-360 _expand_opstr of spin-1/2 bases; the index number appended to each term is not modelled (used in messages
   only).  None: out of fuel *)
Definition expand_one (pauli : Z) (oi : ascii * nat) (J : C) : list term :=
  let hf := if ((pauli =? 0) || (pauli =? 1))%Z%bool then RtoC (1 / 2) else C1 in
  if (fst oi =? "x")%char then [([("+"%char, snd oi)], (J * hf)%C); ([("-"%char, snd oi)], (J * hf)%C)]
  else if (fst oi =? "y")%char then [([("+"%char, snd oi)], (J * (Copp Ci * hf))%C); ([("-"%char, snd oi)], (J * (Ci * hf))%C)]
  else [([oi], J)].
Fixpoint expand_opstr (fuel : nat) (pauli : Z) (l : opl) (J : C) : option (list term) :=
  match fuel with
  | O => None
  | S f =>
    match l with
    | [] => Some [([], J)]
    | [oi] => Some (expand_one pauli oi J)
    | _ =>
      let i := length l / 2 in
      match expand_opstr f pauli (firstn i l) J, expand_opstr f pauli (skipn i l) C1 with
      | Some l1, Some l2 => Some (flat_map (fun a => map (fun b => (fst a ++ fst b, (snd a * snd b)%C)) l2) l1)
      | _, _ => None
      end
    end
  end.

(* spin.py:266-277, boson.py:261-272 (sps-1), fermion.py:216-227 (1) _non_zero: m = maximal number of + (or -) per site;
   np.any(indx) is false when all sites are 0 *)
Definition non_zero (m : nat) (l : opl) : bool :=
  if existsb (fun oi => negb (snd oi =? 0)) l then
    let few c := forallb (fun x => length (filter (fun oi => ((fst oi =? c)%char && (snd oi =? x))%bool) l) <=? m)
                   (map snd (filter (fun oi => (fst oi =? c)%char) l)) in
    (few "+"%char && few "-"%char)%bool
  else true.

(* base.py:753-769 _get_local_lists: flattened and sorted; static: list of (opstr, bonds), a bond = (coupling, sites) *)
Definition flatten (static : list (list ascii * list (C * list nat))) : list term :=
  flat_map (fun ob => map (fun b => (combine (fst ob) (snd b), fst b)) (snd ob)) static.

(* python dict as association list in insertion order *)
Fixpoint dict_upd {K V} (eqb : K -> K -> bool) (k : K) (f : option V -> V) (d : list (K * V)) : list (K * V) :=
  match d with
  | [] => [(k, f None)]
  | (k', v) :: d' => if eqb k k' then (k', f (Some v)) :: d' else (k', v) :: dict_upd eqb k f d'
  end.
Fixpoint list_eqb {A} (eqb : A -> A -> bool) (a b : list A) : bool :=
  match a, b with
  | [], [] => true
  | x :: a', y :: b' => (eqb x y && list_eqb eqb a' b')%bool
  | _, _ => false
  end.
Definition opstr_eqb := list_eqb Ascii.eqb.
Definition indx_eqb := list_eqb Nat.eqb.
(* numpy.abs(J) > eps *)
Definition Cabs_gt (J : C) (eps : R) : bool := if Rlt_dec eps (sqrt (fst J * fst J + snd J * snd J)) then true else false.

(* base.py:806-826 _consolidate_local_lists (static part, without the index numbers) and _make_hamiltonian.py:23-46
   _consolidate_static: nested dict opstr -> indx -> J *)
Definition dict2 := list (list ascii * list (list nat * C)).
Definition add_term (d : dict2) (t : term) : dict2 :=
  let opstr := map fst (fst t) in
  let indx := map snd (fst t) in
  dict_upd opstr_eqb opstr (fun o =>
    let inner := match o with None => [] | Some i => i end in
    dict_upd indx_eqb indx (fun j => match j with None => snd t | Some J => (J + snd t)%C end) inner) d.
Definition dict_terms (eps : R) (d : dict2) : list term :=
  flat_map (fun od => flat_map (fun ij => if Cabs_gt (snd ij) eps then [(combine (fst od) (fst ij), snd ij)] else []) (snd od)) d.
Definition consolidate (eps : R) (l : list term) : list term := dict_terms eps (fold_left add_term l []).

(* base.py:827-847 _consolidate_local_lists (dynamic part): the key does not contain the function; F: type of (f, f_args) *)
Notation dterm F := (list (ascii * nat) * C * F)%type.
Definition add_dterm {F} (d : list (list ascii * list (list nat * (C * F)))) (t : dterm F) :=
  let '(l, J, f) := t in
  dict_upd opstr_eqb (map fst l) (fun o =>
    let inner := match o with None => [] | Some i => i end in
    dict_upd indx_eqb (map snd l) (fun j => match j with None => (J, f) | Some (J0, f0) => ((J0 + J)%C, f0) end) inner) d.
Definition consolidate_dynamic_local {F} (eps : R) (l : list (dterm F)) : list (dterm F) :=
  flat_map (fun od => flat_map (fun ij => if Cabs_gt (fst (snd ij)) eps then [(combine (fst od) (fst ij), fst (snd ij), snd (snd ij))] else []) (snd od))
    (fold_left add_dterm l []).

(* _make_hamiltonian.py:49-76 _consolidate_dynamic: dict (opstr,f,f_args) -> indx -> J, then regrouped by the function *)
Definition add_fterm {F} (feqb : F -> F -> bool) (d : list (list ascii * F * list (list nat * C))) (t : dterm F) :=
  let '(l, J, f) := t in
  dict_upd (fun a b => (opstr_eqb (fst a) (fst b) && feqb (snd a) (snd b))%bool) (map fst l, f) (fun o =>
    let inner := match o with None => [] | Some i => i end in
    dict_upd indx_eqb (map snd l) (fun j => match j with None => J | Some J0 => (J0 + J)%C end) inner) d.
Definition regroup {F} (feqb : F -> F -> bool) (eps : R) (d : list (list ascii * F * list (list nat * C))) : list (F * list term) :=
  fold_left (fun acc of =>
    let new := flat_map (fun ij => if Cabs_gt (snd ij) eps then [(combine (fst (fst of)) (fst ij), snd ij)] else []) (snd of) in
    dict_upd feqb (snd (fst of)) (fun o => match o with None => new | Some l => l ++ new end) acc) d [].
Definition consolidate_dynamic {F} (feqb : F -> F -> bool) (eps : R) (l : list (dterm F)) : list (F * list term) :=
  regroup feqb eps (fold_left (add_fterm feqb) l []).

(* equality of terms as used by python's set and "in": opstr, sites and coupling equal *)
Definition Ceqb (a b : C) : bool := ((if Req_EM_T (fst a) (fst b) then true else false) && (if Req_EM_T (snd a) (snd b) then true else false))%bool.
Definition oi_eqb (a b : ascii * nat) : bool := ((fst a =? fst b)%char && (snd a =? snd b)%nat)%bool.
Definition term_eqb (a b : term) : bool := (list_eqb oi_eqb (fst a) (fst b) && Ceqb (snd a) (snd b))%bool.
Definition term_in (t : term) (l : list term) : bool := existsb (term_eqb t) l.

(* base.py:447-505 check_hermitian, static part: set(list) - set(list of h.c.) is empty; sort, hc: those of the basis *)
Definition check_hermitian (sort hc : term -> term) (l : list term) : bool :=
  let expand := map sort l in
  let expand_hc := map hc expand in
  forallb (fun t => term_in t expand_hc) expand.
(* dynamic part: couplings multiplied with f(t0) at one fixed time t0; a dynamic term is (list, J, f) *)
Definition check_hermitian_dynamic (sort hc : term -> term) (t0 : R) (l : list (dterm (R -> C))) : bool :=
  let sorted := map (fun d => let '(x, J, f) := d in let s := sort (x, J) in (fst s, snd s, f)) l in
  let at_t0 := map (fun d : dterm (R -> C) => let '(x, J, f) := d in (x, (J * f t0)%C)) sorted in
  forallb (fun t => term_in t (map hc at_t0)) (map sort at_t0).

(* base.py:795-804 _expand_local_list *)
Definition expand_local_list (sort : term -> term) (expand : term -> list term) (m : nat) (l : list term) : list term :=
  map sort (filter (fun t => non_zero m (fst t)) (flat_map expand l)).
(* base.py:389-430 expanded_form, static part (the final regrouping by operator string only changes the notation) *)
Definition expanded_form (sort : term -> term) (expand : term -> list term) (m : nat) (eps : R) (l : list term) : list term :=
  consolidate eps (expand_local_list sort expand m (map sort l)).
(* dynamic part *)
Definition expanded_form_dynamic {F} (sort : term -> term) (expand : term -> list term) (m : nat) (eps : R) (l : list (dterm F)) : list (dterm F) :=
  let dsort (d : dterm F) : dterm F := let '(x, J, f) := d in let s := sort (x, J) in (fst s, snd s, f) in
  consolidate_dynamic_local eps (map dsort (filter (fun d => non_zero m (fst (fst d)))
    (flat_map (fun d => map (fun t : term => (fst t, snd t, snd d)) (expand (fst d))) (map dsort l)))).

(* base.py:637-665 check_pcon, static part *)
Definition count_letter (c : ascii) (l : opl) : nat := length (filter (fun oi => (fst oi =? c)%char) l).
Definition check_pcon (sort : term -> term) (expand : term -> list term) (m : nat) (eps : R) (l : list term) : bool :=
  forallb (fun t => count_letter "+"%char (fst t) =? count_letter "-"%char (fst t)) (expanded_form sort expand m eps l).
(* base.py:666-700, dynamic part *)
Definition check_pcon_dynamic {F} (sort : term -> term) (expand : term -> list term) (m : nat) (eps : R) (l : list (dterm F)) : bool :=
  forallb (fun d => count_letter "+"%char (fst (fst d)) =? count_letter "-"%char (fst (fst d))) (expanded_form_dynamic sort expand m eps l).

(* base_general.py:1151-1179 _check_symm_map for one map; the inner loop over the positions of the string: opstr is replaced
   as a whole at every inverted site.  Result: whether the term is odd, and the new term before sorting *)
Fixpoint symm_loop (mp : nat -> Z) (indx : list nat) (j : nat) (opstr : list ascii) (J : C) (odd : bool) (acc : list nat)
  : list ascii * list nat * C * bool :=
  match indx with
  | [] => (opstr, rev acc, J, odd)
  | ind :: rest =>
    let i := mp ind in
    if (i <? 0)%Z then
      let o := nth j opstr "000"%char in
      let odd' := (odd || (o =? "n")%char)%bool in
      let J' := if ((o =? "z")%char || (o =? "y")%char)%bool then (J * RtoC (-1))%C else J in
      symm_loop mp rest (S j) (map swap_pm opstr) J' odd' (Z.to_nat (- (i + 1)) :: acc)
    else symm_loop mp rest (S j) opstr J odd (Z.to_nat i :: acc)
  end.
Definition symm_term (mp : nat -> Z) (t : term) : term * bool :=
  let '(opstr, indx, J, odd) := symm_loop mp (map snd (fst t)) 0 (map fst (fst t)) (snd t) false [] in
  ((combine opstr indx, J), odd).
(* check_symm raises unless no odd and no missing operators; l: the sorted static list *)
Definition check_symm_map (sort : term -> term) (mp : nat -> Z) (l : list term) : bool :=
  let sl := map sort l in
  forallb (fun t => let '(t', odd) := symm_term mp t in (negb odd && term_in (sort t') sl)%bool) sl.

(* the fermion routines as total functions; the fuel never runs out (C21) *)
Definition fermion_sort (t : term) : term := match fermion_sort_opstr t with Some t' => t' | None => t end.
Definition fermion_hc (t : term) : term := match fermion_hc_opstr t with Some t' => t' | None => t end.
(* _expand_opstr of spin-1/2 bases as used by the list functions *)
Definition spin_expand (pauli : Z) (t : term) : list term :=
  match expand_opstr (S (length (fst t))) pauli (fst t) (snd t) with Some ts => ts | None => [] end.
(* boson.py:288, fermion.py:243 _expand_opstr *)
Definition no_expand (t : term) : list term := [t].
