(* Specification: a set of named matrices as a user sees it, and when a name contains a text. *)
From Coq Require Export Ascii String List.
From Verif Require Import AuxN.
Local Open Scope nat_scope.

Definition name := list ascii.
Definition text (s : string) : name := list_ascii_of_string s.
Definition contains (p s : name) : Prop := exists a b, s = a ++ p ++ b.

(* data types of matrices and numpy's result_type *)
Inductive dtype := I64 | F32 | F64 | C64 | C128.
Definition is_complex (t : dtype) : bool := match t with C64 | C128 => true | _ => false end.
Definition is_double (t : dtype) : bool := match t with F64 | C128 | I64 => true | _ => false end.
Definition result_type (a b : dtype) : dtype :=
  match a, b with
  | I64, I64 => I64
  | _, _ => if is_complex a || is_complex b then (if is_double a || is_double b then C128 else C64)
            else (if is_double a || is_double b then F64 else F32)
  end.
Definition supported (t : dtype) : bool := match t with I64 => false | _ => true end.

(* an operator: named matrices, each stored sparse or dense, a data type and perhaps a basis *)
Record op (M B : Type) := { terms : list (name * (bool * M)); op_dtype : dtype; op_basis : option B }.
Arguments terms {M B}.
Arguments op_dtype {M B}.
Arguments op_basis {M B}.
(* the names that survive: nothing in them looks like the texts added to the file names *)
Definition plain (sparse : bool) (k : name) : Prop :=
  ~ contains (text ".npz") k /\ if sparse then ~ contains (text "sparse_") k else ~ contains (text "sparse") k /\ ~ contains (text "dense_") k.
