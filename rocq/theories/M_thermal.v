(* Model of quspin/tools/lanczos/_expm.py, _FTLM.py and _LTLM.py for one operator O, given by its matrix.  qs: the Lanczos vectors in the order
   they are iterated; E, V: arrays of shapes (M,) and (M,M).  None: an exception.  Numbers are exact. *)
From Verif Require Import AuxN SpecC SpecExpm SpecLanczos M_lanczos.
Local Open Scope nat_scope.

(* _expm.py:50-51 *)
Definition expm_lanczos (M : nat) (E : nat -> R) (V : nat -> nat -> R) (qs : list vec) (z : C) : option vec :=
  let c := map (fun x => Csum (seq 0 M) (fun j => RtoC (V x j) * (Cexp (z * RtoC (E j)) * RtoC (V 0 j)))%C) (seq 0 M) in
  lin_comb c qs.
(* _FTLM.py:94-95, one value of beta *)
Definition ftlm_c (M : nat) (E : nat -> R) (V : nat -> nat -> R) (beta : R) (x : nat) : R := Rsum (seq 0 M) (fun j => V 0%nat j * V x j * exp (- (beta * E j)))%R.
(* _FTLM.py:97-110: 103 c[i] raises IndexError for more vectors than eigenvalues; next raises on none *)
Definition ftlm (n M : nat) (E : nat -> R) (V : nat -> nat -> R) (qs : list vec) (O : nat -> nat -> C) (beta : R) : option (C * R) :=
  match qs with
  | [] => None
  | q0 :: _ =>
    if M <? length qs then None else
    let Ar := apply n O q0 in
    let term i lv := (RtoC (ftlm_c M E V beta i) * inner n lv Ar)%C in
    Some (fold_left (fun acc p => acc + term (fst p) (snd p))%C (combine (seq 0 (length qs)) qs) C0, ftlm_c M E V beta 0)
  end.
(* _LTLM.py:95-100 the number of eigenvalues kept: the first one with a small weight at the smallest beta is the first one dropped *)
Definition weight (M : nat) (E : nat -> R) (V : nat -> nat -> R) (beta : R) (j : nat) : R :=
  (exp (- E j * beta) * fold_right (fun j x => Rmax (Rabs (V 0%nat j)) x) 0 (seq 0 M))%R.
Definition beta_min (betas : list R) : R := match betas with [] => 0%R | x :: l => fold_left Rmin l x end.
Fixpoint first_small (eps : R) (p : nat -> R) (l : list nat) : option nat :=
  match l with [] => None | j :: l' => if Rlt_dec (p j) eps then Some j else first_small eps p l' end.
(* _LTLM.py:93-140; eps: finfo(float64).eps.  nv = 0: 130 V[0,:] of an empty array raises *)
Definition ltlm (n M : nat) (eps : R) (E : nat -> R) (V : nat -> nat -> R) (qs : list vec) (O : nat -> nat -> C) (betas : list R) : option (list (C * R)) :=
  match betas with
  | [] => None
  | _ =>
    let nv := match first_small eps (weight M E V (beta_min betas)) (seq 0 M) with Some j => j | None => M end in
    if nv =? 0 then None else
    let Ome i j := if (i <? length qs) && (j <? length qs) then inner n (member qs j) (apply n O (member qs i)) else C0 in
    let diag j l := Csum (seq 0 nv) (fun x => RtoC (V x j) * Csum (seq 0 nv) (fun y => Ome x y * RtoC (V y l)))%C in
    let c beta j := (V 0%nat j * exp (- (E j * (beta / 2))))%R in
    Some (map (fun beta => (Csum (seq 0 nv) (fun j => Csum (seq 0 nv) (fun l => RtoC (c beta j) * RtoC (c beta l) * diag j l))%C,
                            Rsum (seq 0 nv) (fun j => V 0%nat j * V 0%nat j * exp (- (E j * beta)))%R)) betas)
  end.
