(* Model of tensor_basis: /repo/quspin/basis/tensor.py and the _tensor_ functions of /repo/quspin/basis/_reshape_subsys.py.
   A factor is the record of what tensor.py uses of it.  None: an exception is raised.  Matrix elements and vectors are
   exact complex numbers; row and column indices are machine integers of the type the code picks. *)
From Coq Require Export Ascii.
From Verif Require Import AuxN SpecC M_opstr.
Local Open Scope nat_scope.

Notation triples := (list (C * Z * Z)).
(* what tensor.py uses of a basis object: Ns; Op(opstr,indx,J) as the arrays (ME,row,col); index(states...);
   get_proj: number of rows and entries; project_from of one column *)
Record basis := { b_Ns : nat; b_Op : list ascii -> list nat -> C -> option triples; b_index : list (list ascii) -> option nat;
                  b_full : nat; b_proj : nat -> nat -> C; b_project : (nat -> C) -> nat -> C }.

Definition bar : ascii := "|"%char.
(* str.count("|") *)
Definition count_bar (s : list ascii) : nat := length (filter (fun c => (c =? bar)%char) s).
(* opstr.index("|") (the length of the first part) and opstr.split("|",1) *)
Fixpoint split_bar (s : list ascii) : option (list ascii * list ascii) :=
  match s with
  | [] => None
  | c :: s' => if (c =? bar)%char then Some ([], s') else match split_bar s' with Some (l, r) => Some (c :: l, r) | None => None end
  end.

(* tensor.py:88: numpy.min_scalar_type(-Ns): the bits of the smallest signed type that holds -Ns; None: python integers *)
Definition index_bits (Ns : nat) : option Z :=
  let n := Z.of_nat Ns in
  if (n <=? 2 ^ 7)%Z then Some 8%Z else if (n <=? 2 ^ 15)%Z then Some 16%Z else if (n <=? 2 ^ 31)%Z then Some 32%Z
  else if (n <=? 2 ^ 63)%Z then Some 64%Z else None.
(* a value stored in an array of that type *)
Definition store (b : option Z) (x : Z) : Z := match b with Some b => ((x + 2 ^ (b - 1)) mod 2 ^ b - 2 ^ (b - 1))%Z | None => x end.

(* lines 172-200: numpy.kron of the two arrays; row_left *= Ns_right; row += ... *)
Definition kron_triples (b : option Z) (NsR : nat) (tl tr : triples) : triples :=
  let idx x y := store b (store b (store b x * Z.of_nat NsR) + store b y) in
  flat_map (fun t1 => let '(v1, r1, c1) := t1 in map (fun t2 => let '(v2, r2, c2) := t2 in ((v1 * v2)%C, idx r1 r2, idx c1 c2)) tr) tl.
(* tensor.py:120-206 Op; the arrays of the factors have a shape attribute (factors with at least one state) *)
Definition tensor_Op (L R : basis) (opstr : list ascii) (indx : list nat) (J : C) : option triples :=
  if negb (length opstr - count_bar opstr =? length indx) then None
  else match split_bar opstr with
       | None => None
       | Some (opl, opr) =>
         let i := length opl in
         let '(Jl, Jr) := if b_Ns L <? b_Ns R then (J, C1) else (C1, J) in
         match b_Op L opl (firstn i indx) Jl, b_Op R opr (skipn i indx) Jr with
         | Some tl, Some tr =>
           if ((0 <? length tl) && (0 <? length tr))%bool then Some (kron_triples (index_bits (b_Ns L * b_Ns R)) (b_Ns R) tl tr)
           else Some []
         | _, _ => None
         end
       end.
(* tensor.py:209-241 index *)
Definition tensor_index (L R : basis) (states : list (list ascii)) : option nat :=
  match states with
  | s :: (_ :: _) as rest =>
    match b_index L [s], b_index R (tl states) with Some sl, Some sr => Some (sr + b_Ns R * sl) | _, _ => None end
  | _ => None
  end.
(* scipy.sparse.kron *)
Definition kron_matrix (m2 n2 : nat) (P1 P2 : nat -> nat -> C) (i j : nat) : C := (P1 (i / m2) (j / n2) * P2 (i mod m2) (j mod n2))%C.
Definition identity (i j : nat) : C := if i =? j then C1 else C0.
(* tensor.py:312-354 get_proj *)
Definition tensor_proj (full_left full_right : bool) (L R : basis) : nat -> nat -> C :=
  let P1 := if full_left then b_proj L else identity in
  let P2 := if full_right then b_proj R else identity in
  kron_matrix (if full_right then b_full R else b_Ns R) (b_Ns R) P1 P2.
(* tensor.py:989-1098 _combine_project_froms, dense branch, one column v0: svd of the Ns1 by Ns2 matrix, then one term for
   every singular value, the last one first.  numpy.kron(v1, ones(len v2)) times numpy.kron(ones(len v1), v2).
   svd m n A: the three results of numpy.linalg.svd(A, full_matrices=False) *)
Definition svd_result := ((nat -> nat -> C) * (nat -> R) * (nat -> nat -> C))%type.
Definition combine_project (svd : nat -> nat -> (nat -> nat -> C) -> svd_result) (full_left full_right : bool) (L R : basis) (v : nat -> C) : nat -> C :=
  let n1 := b_Ns L in let n2 := b_Ns R in
  let '(V1, sv, V2) := svd n1 n2 (fun i j => v (i * n2 + j)) in
  let m := Nat.min n1 n2 in
  let len2 := if full_right then b_full R else n2 in
  let term k := let v1 := fun i => V1 i k in let v2 := fun j => V2 k j in
                let w1 := if full_left then b_project L v1 else v1 in
                let w2 := if full_right then b_project R v2 else v2 in
                fun i => (RtoC (sv k) * (w1 (i / len2) * w2 (i mod len2)))%C in
  fold_left (fun acc k i => (acc i + term k i)%C) (seq 0 (m - 1)) (term (m - 1)).

(* tensor.py:53-97 the constructor for two factors *)
Definition tensor2 (svd : nat -> nat -> (nat -> nat -> C) -> svd_result) (L R : basis) : basis :=
  {| b_Ns := b_Ns L * b_Ns R; b_Op := tensor_Op L R; b_index := tensor_index L R; b_full := b_full L * b_full R;
     b_proj := tensor_proj true true L R; b_project := combine_project svd true true L R |}.
(* and for a list: the first factor on the left, the tensor basis of the others on the right *)
Fixpoint tensor_basis (svd : nat -> nat -> (nat -> nat -> C) -> svd_result) (bs : list basis) : option basis :=
  match bs with
  | a :: ((b :: rest) as others) =>
    match rest with [] => Some (tensor2 svd a b) | _ => match tensor_basis svd others with Some r => Some (tensor2 svd a r) | None => None end end
  | _ => None
  end.

(* ---- partial traces, _reshape_subsys.py:217-290 ---- *)
(* _tensor_reshape_pure: an array of shape (Ns_A, Ns_B) *)
Definition tensor_reshape_pure (left : bool) (Nr : nat) (psi : nat -> C) : nat -> nat -> C :=
  if left then fun i j => psi (i * Nr + j) else fun i j => psi (j * Nr + i).
(* _tensor_reshape_mixed: shape (Ns_A, Ns_B, Ns_A, Ns_B); rho as a function of row and column *)
Definition tensor_reshape_mixed (left : bool) (Nr : nat) (rho : nat -> nat -> C) : nat -> nat -> nat -> nat -> C :=
  if left then fun i j k l => rho (i * Nr + j) (k * Nr + l) else fun i j k l => rho (j * Nr + i) (l * Nr + k).
(* the einsums of _tensor_partial_trace_pure: "...ij,...kj->...ik" of psi and psi*, "...ji,...jk->...ik" of psi* and psi *)
Definition tensor_trace_pure (left : bool) (Nl Nr : nat) (psi : nat -> C) : (nat -> nat -> C) * (nat -> nat -> C) :=
  let v := tensor_reshape_pure left Nr psi in
  let '(nA, nB) := if left then (Nl, Nr) else (Nr, Nl) in
  (fun i k => Csum (seq 0 nB) (fun j => v i j * Cconj (v k j))%C, fun i k => Csum (seq 0 nA) (fun j => Cconj (v j i) * v j k)%C).
(* and of _tensor_partial_trace_mixed: "...ijkj->...ik" of rho, "...jijk->...ik" of rho* *)
Definition tensor_trace_mixed (left : bool) (Nl Nr : nat) (rho : nat -> nat -> C) : (nat -> nat -> C) * (nat -> nat -> C) :=
  let v := tensor_reshape_mixed left Nr rho in
  let '(nA, nB) := if left then (Nl, Nr) else (Nr, Nl) in
  (fun i k => Csum (seq 0 nB) (fun j => v i j k j), fun i k => Csum (seq 0 nA) (fun j => Cconj (v j i j k))).
(* _tensor_partial_trace_sparse_pure: a sparse row is the list of (column, value); row = col / Ns_r, col = col % Ns_r; the
   matrix is psi.dot(psi.H) or psi.H.dot(psi) *)
Definition sparse_entry (l : list (nat * nat * C)) (i j : nat) : C := Csum l (fun t => let '(r, c, v) := t in if ((r =? i) && (c =? j))%bool then v else C0).
Definition tensor_sparse_pure (left : bool) (Nl Nr : nat) (row : list (nat * C)) : (nat -> nat -> C) * (nat -> nat -> C) :=
  let m := map (fun t => let '(c, v) := t in if left then (c / Nr, c mod Nr, v) else (c mod Nr, c / Nr, v)) row in
  let v := sparse_entry m in
  let '(nA, nB) := if left then (Nl, Nr) else (Nr, Nl) in
  (fun i k => Csum (seq 0 nB) (fun j => v i j * Cconj (v k j))%C, fun i k => Csum (seq 0 nA) (fun j => Cconj (v j i) * v j k)%C).
(* tensor.py:397-432 partial_trace of a one-dimensional array with sparse=True.  scipy.sparse.csr_matrix of it has one row;
   after .T there are Ns rows of one entry each, and for Ns > 1 every row is taken as a state.  The result: one pair of
   matrices for every row *)
Definition partial_trace_vector_sparse (left : bool) (Nl Nr : nat) (psi : nat -> C) : list ((nat -> nat -> C) * (nat -> nat -> C)) :=
  if Nl * Nr =? 1 then [tensor_sparse_pure left Nl Nr [(0, psi 0)]]
  else map (fun i => tensor_sparse_pure left Nl Nr [(0, psi i)]) (seq 0 (Nl * Nr)).

(* ---- operator strings; a string "left|right" with its sites is a pair of lists ---- *)
(* tensor.py:811-845 _sort_opstr: the couplings of the sorted parts are not used *)
Definition tensor_sort (sortL sortR : term -> term) (t : opl * opl * C) : opl * opl * C :=
  let '(l, r, J) := t in (fst (sortL (l, J)), fst (sortR (r, J)), J).
(* tensor.py:847-883 _hc_opstr *)
Definition tensor_hc (hcL hcR : term -> term) (t : opl * opl * C) : opl * opl * C :=
  let '(l, r, J) := t in let a := hcL (l, J) in let b := hcR (r, C1) in (fst a, fst b, (snd a * snd b)%C).
(* base.py:447-484 check_hermitian, static part: every sorted term occurs among the h.c. of the sorted terms *)
Definition tensor_check_hermitian (sort hc : opl * opl * C -> opl * opl * C) (l : list (opl * opl * C)) : Prop :=
  let expand := map sort l in forall t, In t expand -> In t (map hc expand).
