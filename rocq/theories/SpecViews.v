(* Specification: programs that take views of operators and use them.  A name, once given to an operator, stands for the same matrix until
   the program itself changes it in place under that name. *)
From Verif Require Import AuxN SpecC SpecExpm SpecHam SpecPars.
Local Open Scope nat_scope.

Inductive view := Tr | Cj | Ad.
Definition view_of (k : view) (A : cmat) : cmat := match k with Tr => mat_T A | Cj => mat_conj A | Ad => mat_H A end.

(* names are numbered in the order they are given *)
Inductive use :=
  | View (k : view) (copy : bool) (h : nat) | Copy (h : nat) | Neg (h : nat) | Scale (c : C) (h : nat)
  | Act (h : nat) (v : list C) | LeftAct (h : nat) (v : list C) | AdjAct (h : nat) (v : list C) | Sandwich (h : nat) (X : list (list C)).
Inductive result := Fails | Named_ | VecR (l : list C) | MatR (l : list (list C)).

Section Uses.
Variable n : nat.
Definition table (A : cmat) : list (list C) := map (fun i => map (A i) (seq 0 n)) (seq 0 n).
Definition entry (X : list (list C)) : cmat := fun i j => nth j (nth i X []) C0.
Definition zero_mat : cmat := fun _ _ => C0.
Definition mat_at (ms : list cmat) (h : nat) : cmat := nth h ms zero_mat.
Definition set_at {A} (l : list A) (h : nat) (x : A) : list A := firstn h l ++ match skipn h l with [] => [] | _ :: r => x :: r end.
(* the meaning of one step: the matrices the names stand for afterwards, and the result *)
Definition meaning (ms : list cmat) (u : use) : list cmat * result :=
  match u with
  | View k _ h => (ms ++ [view_of k (mat_at ms h)], Named_)
  | Copy h => (ms ++ [mat_at ms h], Named_)
  | Neg h => (ms ++ [mat_opp (mat_at ms h)], Named_)
  | Scale c h => (set_at ms h (mat_scale c (mat_at ms h)), Named_)
  | Act h v => (ms, VecR (mat_vec n (mat_at ms h) v))
  | LeftAct h v => (ms, VecR (mat_vec n (mat_T (mat_at ms h)) v))
  | AdjAct h v => (ms, VecR (mat_vec n (mat_H (mat_at ms h)) v))
  | Sandwich h X => (ms, MatR (table (mat_mul n (mat_mul n (mat_H (mat_at ms h)) (entry X)) (mat_at ms h))))
  end.
Fixpoint meanings (ms : list cmat) (us : list use) : list result :=
  match us with [] => [] | u :: us' => let '(ms', r) := meaning ms u in r :: meanings ms' us' end.
End Uses.

Definition name_of (u : use) : nat :=
  match u with View _ _ h | Copy h | Neg h | Scale _ h | Act h _ | LeftAct h _ | AdjAct h _ | Sandwich h _ => h end.
Definition names_one (u : use) : bool := match u with View _ _ _ | Copy _ | Neg _ => true | _ => false end.
(* every name is used after it was given *)
Fixpoint scoped (k : nat) (us : list use) : Prop :=
  match us with [] => True | u :: us' => name_of u < k /\ scoped (if names_one u then S k else k) us' end.
