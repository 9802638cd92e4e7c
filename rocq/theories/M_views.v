(* Model of taking views of quantum_LinearOperator (quspin/operators/quantum_LinearOperator_core.py), exp_op (exp_op_core.py) and
   quantum_operator (quantum_operator_core.py) objects and of using them afterwards.  A method that returns self makes the new name stand
   for the same object. *)
From Verif Require Import AuxN SpecC SpecExpm SpecHam SpecPars SpecViews.
Local Open Scope nat_scope.

Section Model.
Variable n : nat.

(* --- quantum_LinearOperator: the terms that are not diagonal, the stored diagonal and the two flags --- *)
Record lin := { terms : nat; off : cmat; diag : nat -> C; transposed : bool; conjugated : bool }.
Record lin_world := { lobjs : list lin; lnames : list (option nat) }.
Definition lin0 : lin := {| terms := 0; off := zero_mat; diag := fun _ => C0; transposed := false; conjugated := false |}.
Definition flagged (t c : bool) (A : cmat) : cmat := fun i j => let x := if t then A j i else A i j in if c then Cconj x else x.
(* 488-499  _matvec: the diagonal first (as stored), then inplace_Op with the flags *)
Definition lin_matvec (o : lin) (v : list C) : list C :=
  map (fun i => (diag o i * nth i v C0 + Csum (seq 0 n) (fun j => flagged (transposed o) (conjugated o) (off o) i j * nth j v C0))%C) (seq 0 n).
(* 548-566 transpose, 568-583 conjugate, 600-619 getH = conj().transpose(): they change the flags of the object and return it *)
Definition toggle (k : view) (o : lin) : lin :=
  {| terms := terms o; off := off o; diag := diag o;
     transposed := match k with Cj => transposed o | _ => negb (transposed o) end;
     conjugated := match k with Tr => conjugated o | _ => negb (conjugated o) end |}.
(* 624-628  copy: the constructor is given triples where it expects pairs, and fails unless there are none; the flags are not copied *)
Definition lin_copy (o : lin) : option lin :=
  if terms o =? 0 then Some {| terms := 0; off := off o; diag := diag o; transposed := false; conjugated := false |} else None.
Definition obj_of (w : lin_world) (h : nat) : option nat := nth h (lnames w) None.
Definition put_obj (w : lin_world) (i : nat) (o : lin) : lin_world := {| lobjs := set_at (lobjs w) i o; lnames := lnames w |}.
Definition name_it (w : lin_world) (x : option nat) : lin_world := {| lobjs := lobjs w; lnames := lnames w ++ [x] |}.
Definition lin_use (w : lin_world) (u : use) : lin_world * result :=
  match obj_of w (name_of u) with
  | None => ((if names_one u then name_it w None else w), Fails)
  | Some i =>
    let o := nth i (lobjs w) lin0 in
    match u with
    | View k false h => (name_it (put_obj w i (toggle k o)) (Some i), Named_)
    (* 560-561; 615-616 calls get_H, which does not exist; conjugate has no argument copy *)
    | View Tr true h => match lin_copy o with
                        | Some o' => ({| lobjs := lobjs w ++ [toggle Tr o']; lnames := lnames w ++ [Some (length (lobjs w))] |}, Named_)
                        | None => (name_it w None, Fails) end
    | View _ true h => (name_it w None, Fails)
    | Copy h => match lin_copy o with
                | Some o' => ({| lobjs := lobjs w ++ [o']; lnames := lnames w ++ [Some (length (lobjs w))] |}, Named_)
                | None => (name_it w None, Fails) end
    (* 633-634, 693-697, 764-766  _mul_scalar changes a field that is never read and returns None *)
    | Neg h => (name_it w None, Named_)
    | Scale c h => ({| lobjs := lobjs w; lnames := set_at (lnames w) h None |}, Named_)
    | Act h v => (w, VecR (lin_matvec o v))
    (* 748-749  self.T._matvec *)
    | LeftAct h v => (put_obj w i (toggle Tr o), VecR (lin_matvec (toggle Tr o) v))
    (* 501-502  self.H._matvec *)
    | AdjAct h v => (put_obj w i (toggle Ad o), VecR (lin_matvec (toggle Ad o) v))
    | Sandwich h X => (w, Fails)
    end
  end.
Fixpoint lin_run (w : lin_world) (us : list use) : list result :=
  match us with [] => [] | u :: us' => let '(w', r) := lin_use w u in r :: lin_run w' us' end.
Definition lin_start (m : nat) (A : cmat) (d : nat -> C) : lin_world :=
  {| lobjs := [{| terms := m; off := A; diag := d; transposed := false; conjugated := false |}]; lnames := [Some 0] |}.

(* --- exp_op without a grid: the exponentiated operator and the prefactor; expm is the exponential of a matrix --- *)
Variable expm : cmat -> cmat.
Record expo := { op : cmat; pre : C }.
Record exp_world := { eobjs : list expo; enames : list nat }.
Definition expo0 : expo := {| op := zero_mat; pre := C0 |}.
Definition exponent (o : expo) : cmat := mat_scale (pre o) (op o).
(* 227-231 transpose, 245-247 conj, 267-272 getH *)
Definition exp_view (k : view) (o : expo) : expo :=
  match k with
  | Tr => {| op := mat_T (op o); pre := pre o |}
  | Cj => {| op := mat_conj (op o); pre := Cconj (pre o) |}
  | Ad => {| op := mat_H (op o); pre := Cconj (pre o) |}
  end.
Definition put_exp (w : exp_world) (i : nat) (o : expo) : exp_world := {| eobjs := set_at (eobjs w) i o; enames := enames w |}.
Definition new_exp (w : exp_world) (o : expo) : exp_world := {| eobjs := eobjs w ++ [o]; enames := enames w ++ [length (eobjs w)] |}.
Definition exp_use (w : exp_world) (u : use) : exp_world * result :=
  let i := nth (name_of u) (enames w) 0 in
  let o := nth i (eobjs w) expo0 in
  match u with
  | View k false h => ({| eobjs := set_at (eobjs w) i (exp_view k o); enames := enames w ++ [i] |}, Named_)
  (* conj has no argument copy *)
  | View Cj true h => (w, Fails)
  | View k true h => (new_exp w (exp_view k o), Named_)
  | Copy h => (new_exp w o, Named_)
  (* not defined for exp_op *)
  | Neg _ | Scale _ _ | AdjAct _ _ => (w, Fails)
  (* 428-431  dot *)
  | Act h v => (w, VecR (mat_vec n (expm (exponent o)) v))
  (* 517-520, 540  rdot: the exponential of the transposed matrix applied to the transposed array *)
  | LeftAct h v => (w, VecR (mat_vec n (expm (mat_T (exponent o))) v))
  (* 677-680  other = self.dot(other); other = self.H.rdot(other) *)
  | Sandwich h X =>
      let Y := mat_mul n (expm (exponent o)) (entry X) in
      let o' := exp_view Ad o in
      (put_exp w i o', MatR (table n (mat_T (mat_mul n (expm (mat_T (exponent o'))) (mat_T Y)))))
  end.
Fixpoint exp_run (w : exp_world) (us : list use) : list result :=
  match us with [] => [] | u :: us' => let '(w', r) := exp_use w u in r :: exp_run w' us' end.
Definition exp_start (A : cmat) (a : C) : exp_world := {| eobjs := [{| op := A; pre := a |}]; enames := [0] |}.

(* --- quantum_operator with all parameters one: named matrices held by reference; a reference may be a transposed view --- *)
Record mref := { cell : nat; flip : bool }.
Record qworld := { cells : list cmat; qobjs : list (list mref); qnames : list nat }.
Definition deref (cs : list cmat) (r : mref) : cmat := let A := nth (cell r) cs zero_mat in if flip r then mat_T A else A.
Definition total (cs : list cmat) (o : list mref) : cmat := fun i j => Csum o (fun r => deref cs r i j).
Definition flip_ref (r : mref) : mref := {| cell := cell r; flip := negb (flip r) |}.
(* op.conjugate() makes a new array *)
Definition conj_refs (cs : list cmat) (o : list mref) : list cmat * list mref :=
  (cs ++ map (fun r => mat_conj (deref cs r)) o, map (fun k => {| cell := length cs + k; flip := false |}) (seq 0 (length o))).
(* 1359-1361  for op in itervalues(...): op *= other, which works on the arrays in place *)
Definition scale_cells (c : C) (o : list mref) (cs : list cmat) : list cmat :=
  fold_left (fun cs r => set_at cs (cell r) (mat_scale c (nth (cell r) cs zero_mat))) o cs.
Definition q_use (w : qworld) (u : use) : qworld * result :=
  let i := nth (name_of u) (qnames w) 0 in
  let o := nth i (qobjs w) [] in
  let make cs o' := {| cells := cs; qobjs := qobjs w ++ [o']; qnames := qnames w ++ [length (qobjs w)] |} in
  match u with
  (* 1111-1127, 1129-1145, 1160-1176  the argument copy is passed to the constructor, which ignores it; transpose() of an array is a view *)
  | View Tr _ h => (make (cells w) (map flip_ref o), Named_)
  | View Cj _ h => let '(cs, o') := conj_refs (cells w) o in (make cs o', Named_)
  | View Ad _ h => let '(cs, o') := conj_refs (cells w) o in (make cs (map flip_ref o'), Named_)
  (* 1178-1181  copy *)
  | Copy h => (make (cells w) o, Named_)
  (* 1299-1300  __neg__ returns self.__imul__(-1) *)
  | Neg h => ({| cells := scale_cells (- C1)%C o (cells w); qobjs := qobjs w; qnames := qnames w ++ [i] |}, Named_)
  | Scale c h => ({| cells := scale_cells c o (cells w); qobjs := qobjs w; qnames := qnames w |}, Named_)
  (* 421-514; rmatvec 377-398 is self.H.dot *)
  | Act h v => (w, VecR (mat_vec n (total (cells w) o) v))
  | LeftAct h v => (w, VecR (mat_vec n (total (cells w) (map flip_ref o)) v))
  | AdjAct h v => let '(cs, o') := conj_refs (cells w) o in (w, VecR (mat_vec n (total cs (map flip_ref o')) v))
  | Sandwich h X => (w, Fails)
  end.
Fixpoint q_run (w : qworld) (us : list use) : list result :=
  match us with [] => [] | u :: us' => let '(w', r) := q_use w u in r :: q_run w' us' end.
Definition q_start (ms : list cmat) : qworld :=
  {| cells := ms; qobjs := [map (fun k => {| cell := k; flip := false |}) (seq 0 (length ms))]; qnames := [0] |}.
End Model.
