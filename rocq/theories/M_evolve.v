(* Model of the right-hand sides of the equations of motion in quspin/operators/hamiltonian_core.py (__LO, __ISO, __SO_real, __SO), on top of
   the model of the matrix products in M_sparse.v.  Arrays are memories; a C-contiguous array with k columns has strides k and 1. *)
From Verif Require Import AuxN SpecC SpecExpm SpecSparse SpecEvolve M_sparse.
Local Open Scope nat_scope.

(* scipy: csr.T is the csc matrix of the same arrays and conversely; dia.T negates the offsets and moves the data (dia_matrix.transpose of
   scipy: data[r, c - offsets % n], with a negative index counted from the end of the row padded to width max(n, L)); a dense array is viewed *)
Definition dia_T_data (n L : nat) (off : nat -> Z) (d : Z -> C) (p : Z) : C :=
  let r := (p / Zn n)%Z in let c := (p mod Zn n)%Z in let W := Z.max (Zn n) (Zn L) in
  let e := (c - (- off (Z.to_nat r)) mod Zn n)%Z in
  let e := if (e <? 0)%Z then (e + W)%Z else e in
  if (e <? Zn L)%Z then d (r * Zn L + e)%Z else C0.
Definition transposed (n : nat) (M : matrix) : matrix :=
  match M with
  | Csr Ap Aj Ax => Csc Ap Aj Ax
  | Csc Ap Ai Ax => Csr Ap Ai Ax
  | Dia nd L off d => Dia nd n (fun k => (- off k)%Z) (dia_T_data n L off d)
  | Other A => Other (fun i j => A j i)
  end.
(* 560-564 _get_matvecs: the function is chosen by the format of the stored matrix; _csr_dot and _csc_dot read indptr, indices and data of
   whatever matrix they are given; None: AttributeError *)
Definition kernel_for (stored given : matrix) : option matrix :=
  match stored, given with
  | Csr _ _ _, (Csr Ap Aj Ax | Csc Ap Aj Ax) => Some (Csr Ap Aj Ax)
  | Csc _ _ _, (Csr Ap Ai Ax | Csc Ap Ai Ax) => Some (Csc Ap Ai Ax)
  | Dia _ _ _ _, Dia nd L off d => Some (Dia nd L off d)
  | Other _, Other A => Some (Other A)
  | _, _ => None
  end.
(* _oputils.pyx:515, 532, 547  a = array(a, dtype=mat_obj.dtype) drops the imaginary part for matrices of a real type (a python complex
   raises TypeError instead, which is not modelled); _other_dot 556-573 does not cast *)
Definition cast (real : bool) (K : matrix) (a : C) : C := match K with Other _ => a | _ => if real then RtoC (fst a) else a end.
(* _other_dot raises if a complex result has to be added to a real array *)
Definition rejected (out_real : bool) (K : matrix) (a_complex : bool) : bool := match K with Other _ => out_real && a_complex | _ => false end.

Section RHS.
Variables (threads n : nat) (shp : option nat).
Notation k := (Z.of_nat (columns shp)).
(* a product out (+)= a M V for C-contiguous V and out, one- or two-dimensional *)
Definition prod (real out_real : bool) (M : matrix) (ov : bool) (a : C) (a_complex : bool) (V y y' : mem) : Prop :=
  exists K, kernel_for M M = Some K /\ rejected out_real K a_complex = false /\
  match shp with
  | None => dot1 threads K n n ov (cast real K a) 1 V 1 y y'
  | Some k => y' = dotn K n n k ov (cast real K a) (Zn k) 1 V (Zn k) 1 y
  end.
(* V_out *= c *)
Definition scale (c : C) (y : mem) : mem := fun p => if ((0 <=? p) && (p <? Zn n * k))%Z then (c * y p)%C else y p.
Fixpoint dyn_prods (real out_real : bool) (ds : list term) (t : R) (V y y' : mem) : Prop :=
  match ds with
  | [] => y' = y
  | d :: ds' => exists y1, prod real out_real (mat d) false (coef d t) (is_complex d) V y y1 /\ dyn_prods real out_real ds' t V y1 y'
  end.
(* 1343-1350  __SO; V_out is complex *)
Definition SO (H : op) (t : R) (V out res : mem) : Prop :=
  exists y0 y1, prod (real_dtype H) false (static H) true C1 false V out y0 /\ dyn_prods (real_dtype H) false (dynamic H) t V y0 y1 /\ res = scale (- Ci)%C y1.
(* 1301-1307  __ISO; V_out is real if the state and the matrices are (1445) *)
Definition ISO (out_real : bool) (H : op) (t : R) (V out res : mem) : Prop :=
  exists y0 y1, prod (real_dtype H) out_real (static H) true C1 false V out y0 /\ dyn_prods (real_dtype H) out_real (dynamic H) t V y0 y1 /\ res = scale (- C1)%C y1.
(* V[Ns:] and V_out[:Ns], ...: windows of the arrays that begin at row r *)
Definition window (r : nat) (y : mem) : mem := fun p => y (p + Zn r * k)%Z.
Definition prod_w (real : bool) (M : matrix) (rx ry : nat) (ov : bool) (a : C) (a_complex : bool) (V y y' : mem) : Prop :=
  prod real true M ov a a_complex (window rx V) (window ry y) (window ry y').
Fixpoint dyn_prods_real (real : bool) (ds : list term) (t : R) (V y y' : mem) : Prop :=
  match ds with
  | [] => y' = y
  | d :: ds' => exists y1 y2, prod_w real (mat d) n 0 false (coef d t) (is_complex d) V y y1 /\
                  prod_w real (mat d) 0 n false (- coef d t)%C (is_complex d) V y1 y2 /\ dyn_prods_real real ds' t V y2 y'
  end.
(* 1324-1332  __SO_real; all arrays are real *)
Definition SO_real (H : op) (t : R) (V out res : mem) : Prop :=
  exists y0 y1, prod_w (real_dtype H) (static H) n 0 true C1 false V out y0 /\ prod_w (real_dtype H) (static H) 0 n true (- C1)%C false V y0 y1 /\
    dyn_prods_real (real_dtype H) (dynamic H) t V y1 res.
End RHS.

(* 1269-1289  __LO: rho and rho_out are C-contiguous and complex, rho.T and rho_out.T are views with the strides swapped *)
Section Liouville.
Variable n : nat.
Definition prod_T (real : bool) (stored given : matrix) (ov : bool) (a : C) (sr sc : Z) (rho y : mem) : option mem :=
  match kernel_for stored given with
  | None => None
  | Some K => Some (dotn K n n n ov (cast real K a) sr sc rho sr sc y)
  end.
Definition both (real : bool) (M : matrix) (ov : bool) (a : C) (rho y : mem) : option mem :=
  match prod_T real M M ov a (Zn n) 1 rho y with
  | None => None
  | Some y => prod_T real M (transposed n M) false (- a)%C 1 (Zn n) rho y
  end.
Fixpoint dyn_both (real : bool) (ds : list term) (t : R) (rho y : mem) : option mem :=
  match ds with
  | [] => Some y
  | d :: ds' => match both real (mat d) false (coef d t) rho y with None => None | Some y => dyn_both real ds' t rho y end
  end.
Definition LO (H : op) (t : R) (rho out : mem) : option mem :=
  match both (real_dtype H) (static H) true C1 rho out with
  | None => None
  | Some y => match dyn_both (real_dtype H) (dynamic H) t rho y with
              | None => None
              | Some y => Some (scale n (Some n) (- Ci)%C y)
              end
  end.
End Liouville.
