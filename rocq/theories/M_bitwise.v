(* Model of the array bit operations: /repo/quspin/basis/basis_general/_basis_general_core/source/general_basis_bitops.h:10-175 and the functions bitwise_not,
   bitwise_and, bitwise_or, bitwise_xor, bitwise_leftshift, bitwise_rightshift of general_basis_utils.pyx:411-1110.
   Arrays live in a heap, so that out can be one of the inputs.  Every thread of the outer "omp parallel" meets the inner "omp parallel for", which shares out the
   whole loop among the threads of a new team: the loop is run once per outer thread.  Loads and stores of different iterations interleave freely. *)
From Verif Require Import AuxN.
Local Open Scope N_scope.

(* general_basis_bitops.h:12-43, 155, 167: the operation on one element of width w *)
Inductive bop := Not | And | Or | Xor | Shl | Shr.
Definition op_val (w : N) (o : bop) (a b : N) : N :=
  match o with
  | Not => N.lnot a w | And => N.land a b | Or => N.lor a b | Xor => N.lxor a b | Shl => N.shiftl a b mod 2 ^ w | Shr => N.shiftr a b
  end.
Definition heap := nat -> list N.
Definition set_arr (h : heap) (p : nat) (l : list N) : heap := fun q => if (q =? p)%nat then l else h q.
Fixpoint set_nth (l : list N) (i : nat) (v : N) : list N := match l, i with [], _ => [] | _ :: l', O => v :: l' | x :: l', S i' => x :: set_nth l' i' v end.
(* general_basis_bitops.h:52-86 (and the copies for shifts and not): the iterations, as many times as there are outer threads *)
Definition instances (threads n : nat) : list nat := concat (repeat (seq 0 n) threads).
Inductive act := Load (k : nat) | Store (k : nat).
Section K.
Variables (w : N) (o : bop) (p1 p2 po : nat) (wh : option (list bool)) (inst : list nat).
Definition on (i : nat) : bool := match wh with None => true | Some l => nth i l false end.
(* if(where[i]) out[i] = op(x1[i], x2[i]) *)
Definition step (s : heap * (nat -> N)) (a : act) : heap * (nat -> N) :=
  let (h, reg) := s in
  match a with
  | Load k => let i := nth k inst 0%nat in if on i then (h, fun j => if (j =? k)%nat then op_val w o (nth i (h p1) 0) (nth i (h p2) 0) else reg j) else s
  | Store k => let i := nth k inst 0%nat in if on i then (set_arr h po (set_nth (h po) i (reg k)), reg) else s
  end.
Definition run (t : list act) (s : heap * (nat -> N)) : heap * (nat -> N) := fold_left step t s.
End K.
(* an execution of the loops: every iteration loads and then stores, in any interleaving *)
Definition execution (inst : list nat) (t : list act) : Prop :=
  NoDup t /\ (forall a, In a t <-> exists k, (k < length inst)%nat /\ (a = Load k \/ a = Store k)) /\ (forall t1 t2 k, t = t1 ++ Store k :: t2 -> In (Load k) t1).

(* the checks of the python functions: bitwise_and 515-632 and the others (bitwise_not has no x2, the shifts do not look at the type of x2) *)
Record arr_info := { width : N; len : nat }.
Definition known_w (x : N) : bool := (x =? 32) || (x =? 64) || (x =? 256) || (x =? 1024) || (x =? 4096) || (x =? 16384).
Inductive call := Runs (w : N) (n : nat) | Type_error.
Definition bitwise_call (x1 x2 : arr_info) (out : option arr_info) : call :=
  if negb (len x1 =? len x2)%nat then Type_error else
  if negb (known_w (width x1)) then Type_error else
  if negb (known_w (width x2)) then Type_error else
  match out with
  | None => Runs (width x1) (len x1)
  | Some u => if negb (len u =? len x1)%nat then Type_error else if negb (known_w (width u)) then Type_error else Runs (width x1) (len x1)
  end.
