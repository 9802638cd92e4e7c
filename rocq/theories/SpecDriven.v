(* Specification of an operator with drives: the sum of its terms, each with its own function of time. *)
From Verif Require Import AuxN SpecC SpecExpm SpecLanczos SpecExpect SpecBlock.
Local Open Scope nat_scope.

(* m x = matrix of term x, v f t = value of drive f at time t *)
Definition driven {T D} (m : T -> mat) (v : D -> R -> C) (static : list T) (dynamic : list (T * D)) (t : R) : mat :=
  fun i j => (Csum static (fun x => m x i j) + Csum dynamic (fun e => v (snd e) t * m (fst e) i j))%C.
