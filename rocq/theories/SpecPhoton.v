(* Specification: the harmonic oscillator with all its states |0>, |1>, ..., and operator words acting on it. *)
From Coq Require Export Ascii.
From Verif Require Import AuxN SpecC.
Local Open Scope nat_scope.

(* one letter on |n>: amplitude and new level; a |0> has amplitude 0 *)
Definition osc (o : ascii) (n : nat) : R * nat :=
  match o with
  | "n" => (INR n, n)
  | "+" => (sqrt (INR (S n)), S n)
  | "-" => (sqrt (INR n), pred n)
  | _ => (1%R, n)
  end%char.
(* a word acts from the right *)
Definition osc_word (w : list ascii) (n : nat) : R * nat := fold_right (fun o s => let '(a, m) := s in let '(f, m') := osc o m in ((f * a)%R, m')) (1%R, n) w.
(* <i| w |j> *)
Definition osc_element (w : list ascii) (i j : nat) : R := let '(a, m) := osc_word w j in if m =? i then a else 0%R.
Definition osc_letters : list ascii := ["I"; "n"; "+"; "-"]%char.
Definition letters (c : ascii) (w : list ascii) : nat := length (filter (fun o => (o =? c)%char) w).

(* amplitude of |n> in the coherent state of a real number a *)
Definition coherent (a : R) (n : nat) : R := (exp (- (a * a) / 2) * a ^ n / sqrt (INR (fact n)))%R.
