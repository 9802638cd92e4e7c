(* Specification: an operator sum_k lambda_k O_k with named parameters, and what a program that only writes its own dictionaries
   expects every request to answer. *)
From Coq Require Export Ascii.
From Verif Require Import AuxN SpecC SpecExpm SpecHam.
Local Open Scope nat_scope.

Definition key := list ascii.
Definition key_dec : forall a b : key, {a = b} + {a <> b} := list_eq_dec ascii_dec.
Definition bindings := list (key * C).
(* an operator: named square matrices *)
Definition qop := list (key * cmat).

(* the value written for a name, 1 if none is *)
Fixpoint coupling (d : bindings) (k : key) : C :=
  match d with [] => C1 | (k', v) :: d' => if key_dec k' k then v else coupling d' k end.
(* the matrix sum_k lambda_k O_k *)
Definition at_couplings (o : qop) (d : bindings) : cmat := fun i j => Csum o (fun e => coupling d (fst e) * snd e i j)%C.
(* every name written is the name of a matrix *)
Definition expected_names (o : qop) (d : bindings) : Prop := forall k, In k (map fst d) -> In k (map fst o).

Inductive request :=
  | Dot (a : C) (V : list C) | RDot (a : C) (V : list C) (out : bool) | Matvec (V : list C) | Expt (V : list C) | Element (Vl Vr : list C)
  | Array | Diagonal | Trace.
Inductive value := Vec (l : list C) | Num (c : C) | Arr (l : list (list C)).
Inductive outcome := Raises | Answer (v : value).

Section Answers.
Variable n : nat.
Definition mat_vec (H : cmat) (V : list C) : list C := map (fun i => Csum (seq 0 n) (fun j => H i j * nth j V C0)%C) (seq 0 n).
Definition inner (V W : list C) : C := Csum (seq 0 n) (fun i => Cconj (nth i V C0) * nth i W C0)%C.
(* the mathematical answer for the matrix H *)
Definition answer (H : cmat) (r : request) : value :=
  match r with
  | Dot a V => Vec (map (Cmul a) (mat_vec H V))
  | RDot a V _ => Vec (map (Cmul a) (mat_vec (mat_T H) V))
  | Matvec V => Vec (mat_vec H V)
  | Expt V => Num (inner V (mat_vec H V))
  | Element Vl Vr => Num (inner Vl (mat_vec H Vr))
  | Array => Arr (map (fun i => map (H i) (seq 0 n)) (seq 0 n))
  | Diagonal => Vec (map (fun i => H i i) (seq 0 n))
  | Trace => Num (Csum (seq 0 n) (fun i => H i i))
  end.

(* what a user's program does: bind a fresh dictionary, write an entry, send a request with no dictionary or with one of its own, or call
   the operator with named arguments *)
Inductive step :=
  | Bind (d : nat) (items : bindings)
  | SetItem (d : nat) (k : key) (v : C)
  | Ask (o : qop) (r : request) (p : option nat)
  | Named (o : qop) (items : bindings).
(* the dictionaries as the user's program wrote them *)
Definition write_user (u : nat -> bindings) (s : step) : nat -> bindings :=
  match s with
  | Bind d items => fun i => if i =? d then items else u i
  | SetItem d k v => fun i => if i =? d then (k, v) :: u i else u i
  | _ => u
  end.
Definition passed (u : nat -> bindings) (p : option nat) : bindings := match p with None => [] | Some d => u d end.
(* each request is answered from its own operator and the entries the program wrote into its own argument *)
Inductive expected : (nat -> bindings) -> list step -> list outcome -> Prop :=
  | ex_nil u : expected u [] []
  | ex_bind u d items h out : expected (write_user u (Bind d items)) h out -> expected u (Bind d items :: h) out
  | ex_set u d k v h out : expected (write_user u (SetItem d k v)) h out -> expected u (SetItem d k v :: h) out
  | ex_ask u o r p h out : expected_names o (passed u p) -> expected u h out ->
      expected u (Ask o r p :: h) (Answer (answer (at_couplings o (passed u p)) r) :: out)
  | ex_ask_bad u o r p h out : ~ expected_names o (passed u p) -> expected u h out -> expected u (Ask o r p :: h) (Raises :: out)
  | ex_named u o items h out : expected_names o items -> expected u h out ->
      expected u (Named o items :: h) (Answer (answer (at_couplings o items) Array) :: out)
  | ex_named_bad u o items h out : ~ expected_names o items -> expected u h out -> expected u (Named o items :: h) (Raises :: out).
End Answers.
