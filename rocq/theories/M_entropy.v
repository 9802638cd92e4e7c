(* Model of the entropies of ent_entropy (/repo/quspin/basis/lattice.py:263-411, 421-468, /repo/quspin/basis/tensor.py:622-660, 673-699), of the
   diagonal ensemble (/repo/quspin/tools/measurements.py:1228-1239) and of KL_div and mean_level_spacing (/repo/quspin/tools/misc.py:119-222).
   Floating point is exact apart from the special values of IEEE arithmetic.  None: an exception is raised. *)
From Verif Require Import AuxN SpecC.
Local Open Scope R_scope.

(* ---- numpy (not part of /repo): numbers with nan and infinities ---- *)
Inductive num := Nan | PInf | NInf | Fin (x : R).
Definition np_log (x : num) : num :=
  match x with
  | Nan => Nan | NInf => Nan | PInf => PInf
  | Fin x => if Rlt_dec x 0 then Nan else if Req_EM_T x 0 then NInf else Fin (ln x)
  end.
Definition np_neg (x : num) : num := match x with Nan => Nan | PInf => NInf | NInf => PInf | Fin x => Fin (- x) end.
Definition np_add (x y : num) : num :=
  match x, y with
  | Nan, _ => Nan | _, Nan => Nan
  | PInf, NInf => Nan | NInf, PInf => Nan
  | PInf, _ => PInf | _, PInf => PInf
  | NInf, _ => NInf | _, NInf => NInf
  | Fin x, Fin y => Fin (x + y)
  end.
(* a finite number times y *)
Definition np_mul (x : R) (y : num) : num :=
  match y with
  | Fin y => Fin (x * y)
  | Nan => Nan
  | PInf => if Req_EM_T x 0 then Nan else if Rlt_dec 0 x then PInf else NInf
  | NInf => if Req_EM_T x 0 then Nan else if Rlt_dec 0 x then NInf else PInf
  end.
(* x divided by a finite number *)
Definition np_div (x : num) (c : R) : num :=
  match x with
  | Fin x => if Req_EM_T c 0 then (if Req_EM_T x 0 then Nan else if Rlt_dec 0 x then PInf else NInf) else Fin (x / c)
  | Nan => Nan
  | PInf => if Rlt_dec c 0 then NInf else PInf
  | NInf => if Rlt_dec c 0 then PInf else NInf
  end.
(* numpy.power for a finite base and an exponent a >= 0 *)
Definition np_power (x a : R) : num :=
  if Rlt_dec 0 x then Fin (Rpower x a)
  else if Req_EM_T x 0 then (if Req_EM_T a 0 then Fin 1 else Fin 0)
  else if Req_EM_T (IZR (Int_part a)) a then Fin (x ^ Z.to_nat (Int_part a)) else Nan.
Definition is_nan (x : num) : bool := match x with Nan => true | _ => false end.
Definition nansum (l : list num) : num := fold_left np_add (filter (fun x => negb (is_nan x)) l) (Fin 0).

(* ---- the entropy of the eigenvalues p ---- *)
(* lattice.py:371-386; density: division by the number of sites n of the subsystem *)
Definition lattice_entropy (alpha : R) (p : list R) (density : bool) (n : nat) : option num :=
  let finish s := Some (if density then np_div s (INR n) else s) in
  if Req_EM_T alpha 1 then finish (np_neg (nansum (map (fun x => np_mul x (np_log (Fin x))) p)))
  else if Rle_dec 0 alpha then finish (np_div (np_log (nansum (map (fun x => np_power x alpha) p))) (1 - alpha))
  else None.
(* tensor.py:626-637 (photon.py:634 uses it as well): the division is inside of the logarithm *)
Definition tensor_entropy (alpha : R) (p : list R) : option num :=
  if Req_EM_T alpha 1 then Some (np_neg (nansum (map (fun x => np_mul x (np_log (Fin x))) p)))
  else if Rle_dec 0 alpha then Some (np_log (np_div (nansum (map (fun x => np_power x alpha) p)) (1 - alpha)))
  else None.
(* measurements.py:1182-1183, 1229-1239 *)
Definition ensemble_entropy (alpha : R) (p : list R) : option num :=
  if Rlt_dec alpha 0 then None
  else if Req_EM_T alpha 1 then Some (np_neg (nansum (map (fun x => np_mul x (np_log (Fin x))) p)))
  else Some (np_mul (1 / (1 - alpha)) (np_log (nansum (map (fun x => np_power x alpha) p)))).

(* ---- pure states: lattice.py:421-461, tensor.py:673-699 ---- *)
(* the eigenvalues: squares of the singular values plus finfo(dtype).eps *)
Definition p_pure (eps : R) (lmbda : list R) : list R := map (fun l => l * l + eps) lmbda.
(* the density matrices from v = U diag(lmbda) V with k singular values: einsum('ij,j,kj->ik', U, lmbda**2, U.conj()), einsum('ji,j,jk->ik', V.conj(), lmbda**2, V) *)
Definition svd_rdm_A (k : nat) (U : nat -> nat -> C) (lmbda : nat -> R) (i i' : nat) : C :=
  Csum (seq 0 k) (fun j => U i j * RtoC (lmbda j * lmbda j) * Cconj (U i' j))%C.
Definition svd_rdm_B (k : nat) (V : nat -> nat -> C) (lmbda : nat -> R) (i i' : nat) : C :=
  Csum (seq 0 k) (fun j => Cconj (V j i) * RtoC (lmbda j * lmbda j) * V j i')%C.

(* ---- misc.py:119-165 KL_div; tol = 1E-13.  Lists are one-dimensional arrays ---- *)
Definition KL_div (tol : R) (p1 p2 : list R) : option R :=
  if negb (length p1 =? length p2)%nat then None
  else if existsb (fun x => if Rle_dec x 0 then true else false) p1 then None
  else if existsb (fun x => if Rle_dec x 0 then true else false) p2 then None
  else if Rlt_dec tol (Rabs (Rsum p1 (fun x => x) - 1)) then None
  else if Rlt_dec tol (Rabs (Rsum p2 (fun x => x) - 1)) then None
  else (* lines 157-162 remove the zeros of p1, of which there are none here *)
    Some (Rsum (combine p1 p2) (fun x => fst x * ln (fst x / snd x))).

(* ---- misc.py:166-222 mean_level_spacing ---- *)
Fixpoint diff (E : list R) : list R := match E with a :: ((b :: _) as E') => (b - a) :: diff E' | _ => [] end.
(* numpy.roll(sn,-1) *)
Definition roll (l : list R) : list R := match l with [] => [] | x :: l' => l' ++ [x] end.
(* np.any(np.sort(E)!=E): E is not in ascending order *)
Fixpoint unsorted (E : list R) : bool := match E with a :: ((b :: _) as E') => (if Rlt_dec b a then true else false) || unsorted E' | _ => false end.
(* len(np.unique(E)) != len(E) for a sorted list *)
Fixpoint repeated (E : list R) : bool := match E with a :: ((b :: _) as E') => (if Req_EM_T a b then true else false) || repeated E' | _ => false end.
(* np.mean: nan for an empty array *)
Definition mean (l : list R) : num := match l with [] => Nan | _ => Fin (Rsum l (fun x => x) / INR (length l)) end.
Definition mean_level_spacing (E : list R) : option num :=
  if unsorted E then None
  else if repeated E then Some Nan
  else match E with
       | [] => None (* np.zeros((-1,2)) *)
       | _ => let sn := diff E in Some (mean (removelast (map (fun x => Rmin (fst x) (snd x) / Rmax (fst x) (snd x)) (combine sn (roll sn)))))
       end.
