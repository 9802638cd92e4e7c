(* Model of the parameter dictionaries of quspin/operators/quantum_operator_core.py.  A default argument {} of a Python method is one
   dictionary object created with the function and shared by all calls on all objects; each method has its own.  Dictionaries keep
   insertion order.  Simplifications: complex numbers are exact; states are one-dimensional dense arrays of the right length; the formats of
   the stored matrices do not matter; the order in which the set of missing keys is enumerated is a parameter. *)
From Verif Require Import AuxN SpecC SpecExpm SpecHam SpecPars.
Local Open Scope nat_scope.

Definition pydict := list (key * C).
Fixpoint dget (d : pydict) (k : key) : option C :=
  match d with [] => None | (k', v) :: d' => if key_dec k' k then Some v else dget d' k end.
(* d[k] = v: keeps the place of an existing key *)
Fixpoint dset (d : pydict) (k : key) (v : C) : pydict :=
  match d with [] => [(k, v)] | (k', v') :: d' => if key_dec k' k then (k', v) :: d' else (k', v') :: dset d' k v end.
Definition has {V} (d : list (key * V)) (k : key) : bool := if in_dec key_dec k (map fst d) then true else false.
Fixpoint matrix_of (o : qop) (k : key) : option cmat :=
  match o with [] => None | (k', m) :: o' => if key_dec k' k then Some m else matrix_of o' k end.

Section Model.
Variable n : nat.
(* np.finfo(dtype).eps *)
Variable eps : R.
(* order of the elements of a Python set *)
Variable order : list key -> list key.

(* quantum_operator_core.py:1415-1428  _check_scalar_pars; the dictionary is changed in place, so the new one is returned *)
Definition check_scalar_pars (o : qop) (pars : pydict) : option pydict :=
  if existsb (fun e => negb (has o (fst e))) pars then None
  else Some (fold_left (fun d k => dset d k C1) (order (filter (fun k => negb (has pars k)) (map fst o))) pars).

(* result of the matvec kernels of lines 508-511: out + a (O V) *)
Definition add_matvec (a : C) (M : cmat) (V out : list C) : list C :=
  map (fun i => (nth i out C0 + a * Csum (seq 0 n) (fun j => M i j * nth j V C0))%C) (seq 0 n).
(* :462-514  dot after the check of the parameters, dense V, out = None *)
Definition dot_core (o : qop) (pars : pydict) (a : C) (V : list C) : option (list C) :=
  fold_left (fun acc e => match acc, matrix_of o (fst e) with
                          | Some out, Some M => Some (if Rlt_dec eps (Cabs (snd e)) then add_matvec (a * snd e)%C M V out else out)
                          | _, _ => None end) pars (Some (map (fun _ => C0) (seq 0 n))).
(* np.vdot *)
Definition vdot (V W : list C) : C := Csum (seq 0 n) (fun i => Cconj (nth i V C0) * nth i W C0)%C.
(* :968-1000  toarray; tocsr, tocsc (857-923), todense (925-966) run the same loop *)
Definition toarray_core (o : qop) (pars : pydict) : option (list (list C)) :=
  fold_left (fun acc e => match acc, matrix_of o (fst e) with
                          | Some out, Some M => Some (map (fun i => map (fun j => (nth j (nth i out []) C0 + snd e * M i j)%C) (seq 0 n)) (seq 0 n))
                          | _, _ => None end) pars (Some (map (fun _ => map (fun _ => C0) (seq 0 n)) (seq 0 n))).
(* :1227-1251  diagonal *)
Definition diagonal_core (o : qop) (pars : pydict) : option (list C) :=
  fold_left (fun acc e => match acc, dget pars (fst e) with
                          | Some out, Some J => Some (map (fun i => (nth i out C0 + J * snd e i i)%C) (seq 0 n))
                          | _, _ => None end) o (Some (map (fun _ => C0) (seq 0 n))).
(* :1253-1280  trace *)
Definition trace_core (o : qop) (pars : pydict) : option C :=
  fold_left (fun acc e => match acc, dget pars (fst e) with
                          | Some tr, Some J => Some (tr + J * Csum (seq 0 n) (fun i => snd e i i))%C
                          | _, _ => None end) o (Some C0).
(* :1111-1127  transpose, as used by rdot *)
Definition transposed (o : qop) : qop := map (fun e => (fst e, mat_T (snd e))) o.

Definition ofV (x : option (list C)) : option value := match x with Some l => Some (Vec l) | None => None end.
Definition ofN (x : option C) : option value := match x with Some c => Some (Num c) | None => None end.
(* what a method computes with the dictionary it was given (possibly its default), after the first statement has checked it.
   dot 421-517, rdot 519-552 (out.T of the default None raises), matvec 351-375, expt_value 615-660, matrix_ele 676-735. *)
Definition method (o : qop) (pars : pydict) (r : request) : option value :=
  match r with
  | Dot a V => ofV (dot_core o pars a V)
  | RDot a V out => if out then ofV (dot_core (transposed o) pars a V) else None
  | Matvec V => ofV (dot_core o pars C1 V)
  | Expt V => ofN (match dot_core o pars C1 V with Some W => Some (vdot V W) | None => None end)
  | Element Vl Vr => ofN (match dot_core o pars C1 Vr with Some W => Some (vdot Vl W) | None => None end)
  | Array => match toarray_core o pars with Some m => Some (Arr m) | None => None end
  | Diagonal => ofV (diagonal_core o pars)
  | Trace => ofN (trace_core o pars)
  end.
(* the function whose default argument is used; matvec calls dot *)
Definition slot (r : request) : nat :=
  match r with Dot _ _ | Matvec _ => 0 | RDot _ _ _ => 1 | Expt _ => 2 | Element _ _ => 3 | Array => 4 | Diagonal => 5 | Trace => 6 end.
(* rdot evaluates out.T before the dictionary is looked at (552) *)
Definition checks (r : request) : bool := match r with RDot _ _ out => out | _ => true end.

(* the dictionaries of the program: one default for each method, and the user's *)
Record world := { defaults : nat -> pydict; users : nat -> pydict }.
Definition upd (f : nat -> pydict) (i : nat) (d : pydict) : nat -> pydict := fun j => if j =? i then d else f j.
Definition fetch (w : world) (r : request) (p : option nat) : pydict := match p with None => defaults w (slot r) | Some d => users w d end.
Definition put_back (w : world) (r : request) (p : option nat) (d : pydict) : world :=
  match p with None => {| defaults := upd (defaults w) (slot r) d; users := users w |}
             | Some i => {| defaults := defaults w; users := upd (users w) i d |} end.
Definition reply (x : option value) : outcome := match x with Some v => Answer v | None => Raises end.
(* one method call *)
Definition ask (w : world) (o : qop) (r : request) (p : option nat) : world * outcome :=
  if checks r then
    match check_scalar_pars o (fetch w r p) with
    | None => (w, Raises)
    | Some d => (put_back w r p d, reply (method o d r))
    end
  else (w, Raises).
(* :1292-1297  __call__(self, **pars): Python builds a new dictionary for the named arguments; todense and tocsr check it again *)
Definition named (o : qop) (items : bindings) : outcome :=
  match check_scalar_pars o items with
  | None => Raises
  | Some d => match check_scalar_pars o d with None => Raises | Some d' => reply (method o d' Array) end
  end.
Fixpoint run (w : world) (h : list step) : world * list outcome :=
  match h with
  | [] => (w, [])
  | Bind d items :: h' => run {| defaults := defaults w; users := upd (users w) d items |} h'
  | SetItem d k v :: h' => run {| defaults := defaults w; users := upd (users w) d (dset (users w d) k v) |} h'
  | Ask o r p :: h' => let '(w1, a) := ask w o r p in let '(w2, l) := run w1 h' in (w2, a :: l)
  | Named o items :: h' => let '(w2, l) := run w h' in (w2, named o items :: l)
  end.
(* the state after import: every default is {} *)
Definition start : world := {| defaults := fun _ => []; users := fun _ => [] |}.

(* :1003-1028 and 33-34  aslinearoperator keeps a reference to the checked dictionary; matvec passes it to dot, rmatvec passes it to the dot of
   the adjoint operator *)
Definition adjoint (o : qop) : qop := map (fun e => (fst e, mat_H (snd e))) o.
Definition linop_matvec (o : qop) (pars : pydict) (V : list C) : outcome :=
  match check_scalar_pars o pars with None => Raises | Some d => reply (ofV (dot_core o d C1 V)) end.
Definition linop_rmatvec (o : qop) (pars : pydict) (V : list C) : outcome := linop_matvec (adjoint o) pars V.
End Model.
