(* What a Floquet time vector promises (docstrings of tools/Floquet.py:420-460, 592-640, 645-672), independent of the model. *)
From Coq Require Import List ZArith Reals.
Import ListNotations.
Local Open Scope R_scope.

(* x is a whole number of periods *)
Definition stroboscopic (T x : R) : Prop := exists m : Z, x = IZR m * T.

(* "fixed number of points per period": N periods of length T with len points each, the first one starting n_up periods
   before 0, and the end point of the last period *)
Definition even_grid (T : R) (n_up N len : nat) (vals : list R) : Prop :=
  length vals = (N * len + 1)%nat /\
  nth_error vals 0 = Some (- INR n_up * T) /\
  forall k x y, nth_error vals k = Some x -> nth_error vals (S k) = Some y -> y - x = T / INR len.

(* the positions inds of the vector all, and the values vals found there, are the stroboscopic times of the piece *)
Definition strobo_of (T : R) (all piece : list R) (inds : list nat) (vals : list R) : Prop :=
  map (nth_error all) inds = map Some vals /\
  forall x, In x vals <-> In x piece /\ stroboscopic T x.
