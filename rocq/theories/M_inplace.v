(* Model of the matrix-free application of operators, inplace_Op:
   /repo/quspin/basis/basis_general/_basis_general_core/source/general_basis_op.h:215-302 general_inplace_op_core,
   openmp.h:19-37 atomic_add, misc.h:88-135, general_basis_core.pyx:441-498, base_general.py:290-325, spin.py:199-217.
   Vectors: v r k is component r of column k.  v_in and v_out are different arrays.  Floating point is exact. *)
From Verif Require Import AuxN SpecC SpecSymm SpecBasis M_symm M_index M_ops M_opstr M_symop.
Local Open Scope nat_scope.

Definition dvec : Type := nat -> nat -> C.

(* openmp.h:19-37: one atomic addition, to the real (part = false) or the imaginary part of v[r][k] *)
Record event := Event { ev_row : nat; ev_col : nat; ev_imag : bool; ev_val : R }.
Definition add_event (v : dvec) (e : event) : dvec :=
  fun r k => if ((r =? ev_row e) && (k =? ev_col e))%bool
             then (if ev_imag e then (fst (v r k), snd (v r k) + ev_val e) else (fst (v r k) + ev_val e, snd (v r k)))%R
             else v r k.
(* atomic_add(mul(v_in_col[k], m), &v_out_row[k]) for k < nvecs; for a real type only the real part is added *)
Definition row_events (real : bool) (nvecs : nat) (v_in : dvec) (m : C) (i j : nat) : list event :=
  flat_map (fun k => let x := (v_in i k * m)%C in
    Event j k false (fst x) :: if real then [] else [Event j k true (snd x)]) (seq 0 nvecs).

(* the body of the loop, general_basis_op.h:249-299, None = error code *)
Definition inplace_events (real transpose conjugate : bool) sf basis qs pers nt op (A : C) (nvecs : nat) (v_in : dvec) (ii : nat) : option (list event) :=
  match matrix_element sf basis qs pers nt op A ii with
  | None => None
  | Some None => Some []
  | Some (Some (m, j)) =>
    let '(i', j') := if transpose then (j, ii) else (ii, j) in
    let m' := if conjugate then Cconj m else m in
    match check_imag real m' with
    | None => None
    | Some _ => Some (row_events real nvecs v_in m' i' j')
    end
  end.
(* One call of general_inplace_op_core: the iterations are distributed over the threads in any way (parts), the atomic additions of
   the threads are interleaved in any way.  If an iteration fails the others may be skipped and the call raises
   (general_basis_core.pyx:492-497); the content of v_out is then not modelled. *)
Inductive inplace_core (events : nat -> option (list event)) (Ns : nat) (v0 : dvec) : option dvec -> Prop :=
| ip_ok : forall parts evs,
    Permutation (concat parts) (seq 0 Ns) ->
    (forall ii, ii < Ns -> events ii <> None) ->
    interleave (map (flat_map (fun ii => match events ii with Some l => l | None => [] end)) parts) evs ->
    inplace_core events Ns v0 (Some (fold_left add_event evs v0))
| ip_err : forall ii, ii < Ns -> events ii = None -> inplace_core events Ns v0 None.

(* base_general.py:318-323: for opstr,indx,J in op_list; spin.py:210 multiplies J by scale; a = 1 for inplace_Op (base.py:178) *)
Inductive inplace_Op (real transpose conjugate : bool) sf basis qs pers nt (scale : list ascii -> R) (op : list (ascii * nat) -> N -> C -> option (N * C))
    (a : C) (nvecs : nat) (v_in : dvec) : list (list (ascii * nat) * C) -> dvec -> option dvec -> Prop :=
| io_nil : forall v, inplace_Op real transpose conjugate sf basis qs pers nt scale op a nvecs v_in [] v (Some v)
| io_err : forall l J ts v,
    inplace_core (inplace_events real transpose conjugate sf basis qs pers nt (op l) (a * (J * RtoC (scale (map fst l))))%C nvecs v_in) (length basis) v None ->
    inplace_Op real transpose conjugate sf basis qs pers nt scale op a nvecs v_in ((l, J) :: ts) v None
| io_cons : forall l J ts v v1 res,
    inplace_core (inplace_events real transpose conjugate sf basis qs pers nt (op l) (a * (J * RtoC (scale (map fst l))))%C nvecs v_in) (length basis) v (Some v1) ->
    inplace_Op real transpose conjugate sf basis qs pers nt scale op a nvecs v_in ts v1 res ->
    inplace_Op real transpose conjugate sf basis qs pers nt scale op a nvecs v_in ((l, J) :: ts) v res.
