(* Model of ED_state_vs_time (tools/evolution.py 21-140): checks (57-74), generators (81-97) and arrays (100-140).
   Arrays have one to three axes; a sparse matrix becomes an array without axes.  V and E are arrays, V with any number of axes.
   Left out: a scalar in place of the list of times (the TypeError is created but not raised; len raises it later). *)
From Verif Require Import AuxN SpecC SpecExpm SpecLanczos SpecExpect.
Local Open Scope nat_scope.

Inductive fault := ValueError | TypeError | IndexError.
Inductive result :=
  | Error (e : fault) | States (l : list vec) | Matrices (l : list mat)      (* generators *)
  | Arr2 (d0 d1 : nat) (f : nat -> nat -> C) | Arr3 (d0 d1 d2 : nat) (f : nat -> nat -> nat -> C).
(* 57 numpy.squeeze(numpy.asarray(psi)) *)
Inductive squeezed := S0 | S1 (r : nat) (f : vec) | S2 (r k : nat) (f : mat) | S3 (r : nat).
Definition squeeze1 (r : nat) (f : vec) : squeezed := if r =? 1 then S0 else S1 r f.
Definition squeeze2 (r k : nat) (f : mat) : squeezed :=
  if r =? 1 then squeeze1 k (fun j => f 0 j) else if k =? 1 then squeeze1 r (fun i => f i 0) else S2 r k f.
Definition squeeze (a : array) : squeezed := match a with
  | V1 r f => squeeze1 r f
  | V2 r k f => squeeze2 r k f
  | V3 r m k f => if r =? 1 then squeeze2 m k (f 0) else if m =? 1 then squeeze2 r k (fun i c => f i 0 c)
                  else if k =? 1 then squeeze2 r m (fun i j => f i j 0) else S3 r
  | Sp _ _ _ => S0
  end.
Section Run.
Variables (V : mat) (E : list R).
Definition n := length E.
Definition En (j : nat) : C := RtoC (nth j E 0%R).
(* 77 -1j*times *)
Definition turned (t : R) : C := (- Ci * RtoC t)%C.
(* 84, 103 V.T.conj().dot(psi) *)
Definition amplitudes (psi : vec) : vec := fun j => Csum (seq 0 n) (fun i => Cconj (V i j) * psi i)%C.
(* 81-86 pure_t_iter *)
Definition pure_t_iter (psi : vec) (times : list C) : list vec :=
  let a_n := amplitudes psi in map (fun t i => Csum (seq 0 n) (fun j => V i j * (Cexp (En j * t) * a_n j)))%C times.
(* 91, 127 V.T.conj().dot(psi.dot(V)) *)
Definition rotated (rho : mat) : mat := fun j k => Csum (seq 0 n) (fun i => Cconj (V i j) * Csum (seq 0 n) (fun l => rho i l * V l k))%C.
(* 88-95 mixed_t_iter *)
Definition mixed_t_iter (rho : mat) (times : list C) : list mat :=
  let rho_d := rotated rho in
  map (fun t i l => let e := fun j => Cexp (t * En j)%C in
    Csum (seq 0 n) (fun j => Csum (seq 0 n) (fun k => V i j * e j * rho_d j k * Cconj (e k) * Cconj (V l k))))%C times.
(* 103-120: rows of psi_t are the times; V.dot(psi_t.T) *)
Definition pure_array (psi : vec) (times : list C) : result :=
  let c_n := amplitudes psi in
  let psi_t := fun k j => (Cexp (nth k times C0 * En j) * c_n j)%C in
  Arr2 n (length times) (fun i k => Csum (seq 0 n) (fun j => V i j * psi_t k j)%C).
(* 124-138 *)
Definition mixed_array (rho : mat) (times : list C) : result :=
  let rho_d := rotated rho in
  let exp_t := fun t j => Cexp (nth t times C0 * En j)%C in
  Arr3 n n (length times) (fun i l t =>
    Csum (seq 0 n) (fun j => Csum (seq 0 n) (fun k => V i j * exp_t t j * rho_d j k * Cconj (exp_t t k) * Cconj (V l k))))%C.
End Run.
Definition ED_state_vs_time (psi : array) (E : list R) (V : array) (times : list R) (iterate : bool) : result :=
  match V with
  | V2 r k W =>
      if negb (r =? k) then Error ValueError
      else if negb (r =? length E) then Error TypeError
      else let ts := map turned times in
      match squeeze psi with
      | S0 => Error IndexError
      | S1 d f => if negb (d =? length E) then Error TypeError
                  else if iterate then States (pure_t_iter W E f ts) else pure_array W E f ts
      | S2 d d' f => if negb (d =? length E) then Error TypeError
                     else if negb (d =? d') then Error ValueError
                     else if iterate then Matrices (mixed_t_iter W E f ts) else mixed_array W E f ts
      | S3 d => if negb (d =? length E) then Error TypeError else Error ValueError
      end
  | _ => Error ValueError
  end.
