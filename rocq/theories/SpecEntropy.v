(* Specification: entropies and divergences of finite distributions, ratios of level spacings. *)
From Verif Require Import AuxN SpecC.
Local Open Scope R_scope.

Definition total (p : list R) : R := Rsum p (fun x => x).
Definition distribution (p : list R) : Prop := Forall (fun x => 0 <= x) p /\ total p = 1.
(* - sum p log p and log (sum p^alpha) / (1 - alpha), over the entries that are not zero *)
Definition support (p : list R) : list R := filter (fun x => if Rlt_dec 0 x then true else false) p.
Definition shannon (p : list R) : R := - Rsum (support p) (fun x => x * ln x).
Definition renyi (alpha : R) (p : list R) : R := ln (Rsum (support p) (fun x => Rpower x alpha)) / (1 - alpha).
(* sum p log (p / q) *)
Definition divergence (p q : list R) : R := Rsum (combine p q) (fun x => fst x * ln (fst x / snd x)).
(* the spacings of a spectrum and the mean of the ratios (smaller over larger) of consecutive ones *)
Definition spacing (E : list R) (n : nat) : R := nth (S n) E 0 - nth n E 0.
Definition mean_ratio (E : list R) : R :=
  Rsum (seq 0 (length E - 2)) (fun n => Rmin (spacing E n) (spacing E (S n)) / Rmax (spacing E n) (spacing E (S n))) / INR (length E - 2).
Definition increasing (E : list R) : Prop := forall n, (S n < length E)%nat -> nth n E 0 < nth (S n) E 0.
