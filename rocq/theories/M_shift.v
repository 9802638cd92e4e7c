(* Model of Op_shift_sector and Op_bra_ket of the general bases:
   /repo/quspin/basis/basis_general/_basis_general_core/source/general_basis_op.h:1132-1403, general_basis_core.pyx:274-436 and 811-885,
   /repo/quspin/basis/basis_general/base_general.py:324-420 and 838-915, spin.py:221-238 and 362-376, fermion.py:637-646.
   Floating point is exact.  None: an exception is raised. *)
From Verif Require Import AuxN SpecC SpecSymm SpecProj M_symm M_index M_ops M_opstr M_symop M_inplace.
Local Open Scope nat_scope.

(* ---- Op_shift_sector ---- *)
(* general_basis_op.h:1161-1197: iteration i.  basis_in, basis_out: the lists of (state, norm).  Value and row of v_out; inner None when the
   representative is not in the output basis.  The second test r != s (1184) compares the representative, not the image, with s. *)
Definition shift_element (pers : list nat) (qs_out : list Z) (ms : smap) (nt : nat) (basis_out basis_in : list (N * Z))
    (op : N -> C -> option (N * C)) (A : C) (i : nat) : option (option (C * nat)) :=
  let s := fst (nth i basis_in (0%N, 0%Z)) in
  match op s A with
  | None => None
  | Some (r, m) =>
    match (if (r =? s)%N then Some (r, repeat 0 nt, 1%Z) else ref_state (group_order pers) pers ms nt r (repeat 0 nt) 1%Z) with
    | None => None
    | Some (rr, g, sign) =>
      let j := rep_position (map fst basis_out) rr in
      if (j <? 0)%Z then Some None
      else
        let jn := Z.to_nat j in
        let m := if (rr =? s)%N then m
                 else (m * (RtoC (IZR sign) * cis (- Rsum (seq 0 nt) (fun k => (ks qs_out pers k * INR (nth k g 0%nat))%R))))%C in
        Some (Some ((m * RtoC (sqrt (IZR (snd (nth jn basis_out (0%N, 0%Z))) / IZR (snd (nth i basis_in (0%N, 0%Z))))))%C, jn))
    end
  end.
(* 1198-1212: the additions of iteration i *)
Definition shift_events (real : bool) pers qs_out ms nt basis_out basis_in op (A : C) (nvecs : nat) (v_in : dvec) (i : nat) : option (list event) :=
  match shift_element pers qs_out ms nt basis_out basis_in op A i with
  | None => None
  | Some None => Some []
  | Some (Some (m, j)) => match check_imag real m with None => None | Some _ => Some (row_events real nvecs v_in m i j) end
  end.
(* base_general.py:404-415: for opstr,indx,J in op_list; spin.py:231 multiplies J by scale (1 for the other bases) *)
Inductive shift_loop (real : bool) pers qs_out ms nt basis_out basis_in (scale : list ascii -> R) (op : list (ascii * nat) -> N -> C -> option (N * C))
    (nvecs : nat) (v_in : dvec) : list (list (ascii * nat) * C) -> dvec -> option dvec -> Prop :=
| sl_nil : forall v, shift_loop real pers qs_out ms nt basis_out basis_in scale op nvecs v_in [] v (Some v)
| sl_err : forall l J ts v,
    inplace_core (shift_events real pers qs_out ms nt basis_out basis_in (op l) (J * RtoC (scale (map fst l)))%C nvecs v_in) (length basis_in) v None ->
    shift_loop real pers qs_out ms nt basis_out basis_in scale op nvecs v_in ((l, J) :: ts) v None
| sl_cons : forall l J ts v v1 res,
    inplace_core (shift_events real pers qs_out ms nt basis_out basis_in (op l) (J * RtoC (scale (map fst l)))%C nvecs v_in) (length basis_in) v (Some v1) ->
    shift_loop real pers qs_out ms nt basis_out basis_in scale op nvecs v_in ts v1 res ->
    shift_loop real pers qs_out ms nt basis_out basis_in scale op nvecs v_in ((l, J) :: ts) v res.
(* base_general.py:366-415.  v_out = None: an array of zeros is made, otherwise the given array is used as it is.  An empty op_list fails at 378
   (unpacking of zip).  The checks of shapes and types are not modelled. *)
Definition Op_shift_sector (real : bool) pers qs_out ms nt basis_out basis_in scale op nvecs (v_in : dvec) (ts : list (list (ascii * nat) * C))
    (v_out : option dvec) (res : option dvec) : Prop :=
  match ts with
  | [] => res = None
  | _ => shift_loop real pers qs_out ms nt basis_out basis_in scale op nvecs v_in ts (match v_out with Some v => v | None => fun _ _ => C0 end) res
  end.
(* fermion.py:637-646 spinful fermions: the method of the base class is called without self, so that v_in, a required argument, is missing
   and Python raises a TypeError before anything is computed *)
Definition spinful_Op_shift_sector (v_in : dvec) (ts : list (list (ascii * nat) * C)) (v_out : option dvec) : option dvec := None.

(* ---- Op_bra_ket ---- *)
(* an entry of the array M: NaN, an infinite value (norm of the ket 0), a number *)
Inductive cell := CNan | CInf | CVal (z : C).
(* general_basis_op.h:1241-1249, 1345-1353: the factors exp(-2 pi i q g / p), g the array of the thread *)
Definition g_phase (pers : list nat) (qs : list Z) (nt : nat) (g : list nat) : C :=
  cis (- Rsum (seq 0 nt) (fun k => (ks qs pers k * INR (nth k g 0%nat))%R)).
(* one iteration of general_op_bra_ket (pcon = None, 1244-1289) or general_op_bra_ket_pcon (pcon = Some check_pcon, 1324-1392).
   g: what the array g[] of the thread contains before; it is not initialised, and ref_state writes it only when it finds a larger state.
   Result: M[i], bra[i] and g[] afterwards.  int_norm > 0 (1261) is norm_r >= 1.  local_err of check_imag(m,&M[i]) is never looked at again,
   so a real M[i] gets the real part.  The entries of g are natural numbers here. *)
Definition bra_ket_step (real : bool) (pcon : option (N -> bool)) (pers : list nat) (qs : list Z) (ms : smap) (nt : nat)
    (op : N -> C -> option (N * C)) (A : C) (g : list nat) (s : N) : option (cell * N * list nat) :=
  match op s A with
  | None => None
  | Some (r, m) =>
    if (r =? s)%N then
      let m := match pcon with Some _ => (m * g_phase pers qs nt g)%C | None => m end in
      Some (CVal (as_type real m), s, g)
    else
      match ref_state (group_order pers) pers ms nt r g 1%Z with
      | None => None
      | Some (rr, g', sign) =>
        if match pcon with Some p => p rr | None => true end then
          match check_state (group_order pers) pers qs ms nt rr with
          | None => None
          | Some NaN => Some (CNan, s, g')
          | Some (Norm norm_r) =>
            if (match pcon with Some _ => if Rlt_dec 0 norm_r then true else false | None => if Rle_dec 1 norm_r then true else false end) then
              match check_state (group_order pers) pers qs ms nt s with
              | None => None
              | Some NaN => Some (CNan, rr, g')
              | Some (Norm norm_s) =>
                if Req_EM_T norm_s 0 then Some (CInf, rr, g')
                else Some (CVal (as_type real (m * g_phase pers qs nt g' * (RtoC (IZR sign) * RtoC (sqrt (norm_r / norm_s))))%C), rr, g')
              end
            else Some (CNan, s, g')
          end
        else Some (CNan, s, g')
      end
  end.
(* the iterations of one thread *)
Fixpoint bra_ket_thread real pcon pers qs ms nt op A (g : list nat) (kets : list N) : option (list (cell * N)) :=
  match kets with
  | [] => Some []
  | s :: kets' =>
    match bra_ket_step real pcon pers qs ms nt op A g s with
    | None => None
    | Some (c, b, g') => match bra_ket_thread real pcon pers qs ms nt op A g' kets' with None => None | Some l => Some ((c, b) :: l) end
    end
  end.
(* all threads: schedule(static) gives each a contiguous part; each has its own array g[nt] with arbitrary content *)
Definition bra_ket_core real pcon pers qs ms nt op A (kets : list N) (res : option (list (cell * N))) : Prop :=
  exists parts : list (list nat * list N), concat (map snd parts) = kets /\ (forall p, In p parts -> length (fst p) = nt) /\
    res = match all_some (map (fun p => bra_ket_thread real pcon pers qs ms nt op A (fst p) (snd p)) parts) with Some l => Some (concat l) | None => None end.
(* base_general.py:905-915: removal of the NaN and zero elements, or NaN -> 0; entries (ME, bra, ket); inf is kept *)
Definition keep_entry (reduce_output : bool) (x : (cell * N) * N) : list (cell * N * N) :=
  match fst (fst x) with
  | CNan => if reduce_output then [] else [(CVal C0, snd (fst x), snd x)]
  | CInf => [(CInf, snd (fst x), snd x)]
  | CVal z => if (reduce_output && Czero z)%bool then [] else [(CVal z, snd (fst x), snd x)]
  end.
Definition scale_cell (x : R) (c : cell * N * N) : cell * N * N :=
  match fst (fst c) with CVal z => (CVal (z * RtoC x)%C, snd (fst c), snd c) | _ => c end.
(* base_general.py:838-915 Op_bra_ket; spin.py:362-372 multiplies by scale *)
Definition Op_bra_ket real pcon pers qs ms nt (n_sites : nat) (allowed : list ascii) (scale : list ascii -> R) (op : list (ascii * nat) -> N -> C -> option (N * C))
    (l : list (ascii * nat)) (J : C) (kets : list N) (reduce_output : bool) (res : option (list (cell * N * N))) : Prop :=
  if existsb (fun oi => n_sites <=? snd oi) l then res = None
  else if existsb (fun oi => negb (existsb (Ascii.eqb (fst oi)) allowed)) l then res = None
  else exists out, bra_ket_core real pcon pers qs ms nt (op l) J kets out /\
    res = match out with None => None | Some o => Some (map (scale_cell (scale (map fst l))) (flat_map (keep_entry reduce_output) (combine o kets))) end.
(* spin.py:373-374: spins larger than 1/2 do not pass reduce_output on, the default True is used *)
Definition spinS_Op_bra_ket real pcon pers qs ms nt n_sites allowed op l J kets (reduce_output : bool) res : Prop :=
  Op_bra_ket real pcon pers qs ms nt n_sites allowed (fun _ => 1%R) op l J kets true res.
