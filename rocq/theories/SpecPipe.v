(* Specification of a pipeline that advances several sequences in lock step. *)
From Verif Require Import AuxN.
Local Open Scope nat_scope.

(* the k-th tuple holds the k-th element of every sequence, in the order of the sequences *)
Definition kth {A} (d : A) (gens : list (list A)) (k : nat) : list A := map (fun g => nth k g d) gens.
Definition lock_step {A} (d : A) (gens : list (list A)) (n : nat) : list (list A) := map (kth d gens) (seq 0 n).
