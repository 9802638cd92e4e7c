(* Model of the partial traces of lattice states:
   /repo/quspin/basis/_reshape_subsys.py, _basis_utils.pyx, _basis_utils/shuffle_sites.h.
   A dense array is the function of its flat index in C order, so that reshape(..., order="C") is the identity; every
   leading ("extra") dimension is a separate array.  numpy's transpose is modelled from its definition. *)
From Verif Require Import AuxN SpecC.
Local Open Scope nat_scope.

(* ---- _reduce_transpose, _basis_utils.pyx:58-97 ---- *)
(* lines 73-79: the longest run T[0], T[0]+1, ... at the front *)
Fixpoint run_front (t0 : nat) (rest : list nat) : list nat :=
  match rest with
  | t1 :: rest' => if t0 + 1 =? t1 then t0 :: run_front t1 rest' else [t0]
  | [] => [t0]
  end.
(* list.remove: the first occurrence *)
Fixpoint remove_first (s : nat) (l : list nat) : list nat :=
  match l with [] => [] | x :: l' => if x =? s then l' else x :: remove_first s l' end.
(* lines 71-85: the while loop; fuel is the length of T_tup (every pass removes at least one entry) *)
Fixpoint sub_lists (fuel : nat) (T : list nat) : list (list nat) :=
  match fuel, T with
  | S f, t0 :: rest => let sl := run_front t0 rest in sl :: sub_lists f (fold_left (fun l s => remove_first s l) sl T)
  | _, _ => []
  end.
(* line 87: sorted(sub_lists, key = first entry): a stable sort *)
Fixpoint insert_sl (x : list nat) (l : list (list nat)) : list (list nat) :=
  match l with
  | [] => [x]
  | y :: l' => if hd 0 x <=? hd 0 y then x :: l else y :: insert_sl x l'
  end.
Definition sort_sl (l : list (list nat)) : list (list nat) := fold_right insert_sl [] l.
(* list.index *)
Fixpoint index_sl (x : list nat) (l : list (list nat)) : nat :=
  match l with [] => 0 | y :: l' => if list_eq_dec Nat.eq_dec y x then 0 else S (index_sl x l') end.
(* lines 89-97: (T_tup, R_tup) *)
Definition reduce_transpose (sps : nat) (T : list nat) : list nat * list nat :=
  let sl := sub_lists (length T) T in
  let so := sort_sl sl in
  (map (fun x => index_sl x so) sl, map (fun x => sps ^ length x) so).

(* ---- _shuffle_sites, _basis_utils.pyx:101-127 ---- *)
Definition prod_l (l : list nat) : nat := fold_right Nat.mul 1 l.
(* flat index of a multi-index, and back, for an array of the given shape in C order *)
Fixpoint flat (shape idx : list nat) : nat :=
  match shape, idx with _ :: sh, i :: ix => i * prod_l sh + flat sh ix | _, _ => 0 end.
Fixpoint unflat (shape : list nat) (j : nat) : list nat :=
  match shape with [] => [] | d :: sh => (j / prod_l sh) mod d :: unflat sh j end.
Fixpoint pos (x : nat) (l : list nat) : nat := match l with [] => 0 | y :: l' => if y =? x then 0 else S (pos x l') end.
(* numpy: B = A.transpose(T) has B[i_0, ..., i_m] = A[j_0, ..., j_m] with j_{T[k]} = i_k *)
Definition np_transpose {X} (shape T : list nat) (A : nat -> X) : nat -> X :=
  fun j => let idx := unflat (map (fun t => nth t shape 1) T) j in
           A (flat shape (map (fun p => nth (pos p T) idx 0) (seq 0 (length shape)))).
(* shuffle_sites.h:8-48 shuffle_sites_strid, one row: AT[j] = A[i] for i = 0, ..., n_col - 1; the array AT starts as
   zeros.  stride k is the product of the later dimensions *)
Definition strides (shape : list nat) : list nat := map (fun k => prod_l (skipn (S k) shape)) (seq 0 (length shape)).
Definition shuffle_target (shape T : list nat) (i : nat) : nat :=
  let AT_shape := map (fun t => nth t shape 1) T in
  let A_strides := map (fun t => nth t (strides shape) 1) T in
  let AT_strides := strides AT_shape in
  fold_left (fun j k => j + ((i / nth k A_strides 1) mod nth k AT_shape 1) * nth k AT_strides 1) (seq 0 (length T)) 0.
Definition shuffle_strid {X} (zero : X) (shape T : list nat) (n_col : nat) (A : nat -> X) : nat -> X :=
  fold_left (fun AT i => fun j => if j =? shuffle_target shape T i then A i else AT j) (seq 0 n_col) (fun _ => zero).
(* lines 101-127; None is the ValueError of _shuffle_sites_core for more than 64 groups *)
Definition shuffle_sites {X} (zero : X) (sps : nat) (T : list nat) (n_col : nat) (A : nat -> X) : option (nat -> X) :=
  let (Tr, Rr) := reduce_transpose sps T in
  if 1 <? length Tr then
    if length Tr <? 32 then Some (np_transpose Rr Tr A)
    else if 64 <? length Tr then None else Some (shuffle_strid zero Rr Tr n_col A)
  else Some A.

(* ---- set(range(L)) - set(sub_sys_A): the order in which CPython iterates over the result ----
   Not part of /repo: Objects/setobject.c (3.7 - 3.10).  Small integers are their own hash; a table of 2^k slots, at most
   nine linear probes, then i := 5 i + 1 + perturb; the table grows to more than 4 * used slots when 5 fill >= 3 mask. *)
Fixpoint free_slot (table : list (option nat)) (i cnt : nat) : option nat :=
  match nth i table None with
  | None => Some i
  | Some _ => match cnt with O => None | S c => free_slot table (S i) c end
  end.
Fixpoint probe (fuel : nat) (table : list (option nat)) (i perturb : nat) : nat :=
  let mask := length table - 1 in
  match free_slot table i (if i + 9 <=? mask then 9 else 0) with
  | Some k => k
  | None => match fuel with O => 0 | S f => probe f table ((i * 5 + 1 + perturb / 32) mod length table) (perturb / 32) end
  end.
Definition put (table : list (option nat)) (k x : nat) : list (option nat) := firstn k table ++ Some x :: skipn (S k) table.
Definition set_insert (table : list (option nat)) (x : nat) : list (option nat) := put table (probe 1000 table (x mod length table) x) x.
Definition set_members (table : list (option nat)) : list nat := flat_map (fun o => match o with Some x => [x] | None => [] end) table.
Fixpoint grow (fuel size minused : nat) : nat := match fuel with O => size | S f => if size <=? minused then grow f (2 * size) minused else size end.
Definition set_add (table : list (option nat)) (x : nat) : list (option nat) :=
  let t := set_insert table x in
  let used := length (set_members t) in
  if 3 * (length t - 1) <=? 5 * used then fold_left set_insert (set_members t) (repeat None (grow 64 8 (4 * used))) else t.
Definition set_of (l : list nat) : list (option nat) := fold_left set_add l (repeat None 8).
(* set.__sub__: a copy from which the elements of the other set are discarded if that set is small, otherwise a new set
   of the remaining elements *)
Definition complement_order (L : nat) (sub_A : list nat) : list nat :=
  let all := set_members (set_of (seq 0 L)) in
  let rest := filter (fun i => negb (existsb (Nat.eqb i) sub_A)) all in
  if length sub_A <? L / 4 then rest else set_members (set_of rest).

(* ---- _reshape_subsys.py ---- *)
(* lines 58-79 _lattice_reshape_pure: psi_v[i, j]; sub_B is the order of the complement *)
Definition lattice_reshape_pure (sps L : nat) (sub_A sub_B : list nat) (psi : nat -> C) : option (nat -> nat -> C) :=
  match shuffle_sites C0 sps (sub_A ++ sub_B) (sps ^ L) psi with
  | Some v => Some (fun i j => v (i * sps ^ length sub_B + j))
  | None => None
  end.
(* lines 14-28 _lattice_partial_trace_pure: both matrices (squeeze only drops unit dimensions).
   rdm_A: einsum("...ij,...kj->...ik", psi_v, psi_v.conj()), rdm_B: einsum("...ji,...jk->...ik", psi_v.conj(), psi_v) *)
Definition rdm_A_pure (sps : nat) (sub_B : list nat) (v : nat -> nat -> C) : nat -> nat -> C :=
  fun i k => Csum (seq 0 (sps ^ length sub_B)) (fun j => v i j * Cconj (v k j))%C.
Definition rdm_B_pure (sps : nat) (sub_A : list nat) (v : nat -> nat -> C) : nat -> nat -> C :=
  fun i k => Csum (seq 0 (sps ^ length sub_A)) (fun j => Cconj (v j i) * v j k)%C.
Definition lattice_partial_trace_pure (sps L : nat) (sub_A sub_B : list nat) (psi : nat -> C) : option ((nat -> nat -> C) * (nat -> nat -> C)) :=
  match lattice_reshape_pure sps L sub_A sub_B psi with
  | Some v => Some (rdm_A_pure sps sub_B v, rdm_B_pure sps sub_A v)
  | None => None
  end.
(* lines 108-136 _lattice_reshape_mixed: rho_v[i, j, k, l]; rho.reshape(-1) has the flat index r * sps^L + s *)
Definition lattice_reshape_mixed (sps L : nat) (sub_A sub_B : list nat) (rho : nat -> nat -> C) : option (nat -> nat -> nat -> nat -> C) :=
  let T := sub_A ++ sub_B in
  match shuffle_sites C0 sps (T ++ map (fun s => L + s) T) (sps ^ (2 * L)) (fun x => rho (x / sps ^ L) (x mod sps ^ L)) with
  | Some v => Some (fun i j k l => v (((i * sps ^ length sub_B + j) * sps ^ length sub_A + k) * sps ^ length sub_B + l))
  | None => None
  end.
(* lines 30-41 _lattice_partial_trace_mixed: einsum("...jlkl->...jk", rho_v), einsum("...ljlk->...jk", rho_v.conj()) *)
Definition lattice_partial_trace_mixed (sps L : nat) (sub_A sub_B : list nat) (rho : nat -> nat -> C) : option ((nat -> nat -> C) * (nat -> nat -> C)) :=
  match lattice_reshape_mixed sps L sub_A sub_B rho with
  | Some v => Some (fun j k => Csum (seq 0 (sps ^ length sub_B)) (fun l => v j l k l),
                    fun j k => Csum (seq 0 (sps ^ length sub_A)) (fun l => Cconj (v l j l k)))
  | None => None
  end.
(* lines 169-209 _lattice_reshape_sparse_pure: the entries (column, value) of a row matrix in COO format become entries
   (row, column, value); the division of integers is exact below 2^53 *)
Definition sparse_index (sps L : nat) (T : list nat) (col : nat) : nat :=
  fold_left (fun acc x => acc + ((col / sps ^ (L - snd x - 1)) mod sps) * sps ^ (L - fst x - 1)) (combine (seq 0 (length T)) T) 0.
Definition lattice_reshape_sparse (sps L : nat) (sub_A sub_B : list nat) (coo : list (nat * C)) : list (nat * nat * C) :=
  let T := sub_A ++ sub_B in
  let same := if list_eq_dec Nat.eq_dec T (seq 0 L) then true else false in
  map (fun x => let indx := if same then fst x else sparse_index sps L T (fst x) in
                (indx / sps ^ length sub_B, indx mod sps ^ length sub_B, snd x)) coo.
(* the entry of a COO matrix: duplicates are added *)
Definition coo_entry (m : list (nat * nat * C)) (i j : nat) : C :=
  Csum m (fun x => if ((fst (fst x) =? i) && (snd (fst x) =? j))%bool then snd x else C0).
(* lines 43-55 _lattice_partial_trace_sparse_pure: psi.dot(psi.H), psi.H.dot(psi) *)
Definition lattice_partial_trace_sparse (sps L : nat) (sub_A sub_B : list nat) (coo : list (nat * C)) : (nat -> nat -> C) * (nat -> nat -> C) :=
  let v := coo_entry (lattice_reshape_sparse sps L sub_A sub_B coo) in
  (rdm_A_pure sps sub_B v, rdm_B_pure sps sub_A v).
