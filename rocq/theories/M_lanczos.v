(* Model of quspin/tools/lanczos/_lanczos_utils.py: lanczos_full, lanczos_iter, the generator of Lanczos vectors and lin_comb_Q_T.  Numbers
   are exact; dividing by a norm that is zero makes the coefficients NaN, on which eigh_tridiagonal raises (None).  The operator is its matrix:
   dot with and without out give the same.  Not modelled: the eigenvalues and vectors of the tridiagonal matrix (scipy), dtypes, the copies of
   v0 and A, and the QR decomposition of full_ortho. *)
From Verif Require Import AuxN SpecC SpecExpm SpecLanczos.
Local Open Scope nat_scope.

(* numpy.divide(v, c) and axpy(x, y, n, c): y + c x *)
Definition over (v : vec) (c : R) : vec := fun k => (RtoC (/ c) * v k)%C.
Definition axpy (x y : vec) (c : R) : vec := fun k => (y k + RtoC c * x k)%C.
(* the variables of the loop after step i: Q[i] (or q), a[i], r, b[i] *)
Record ent := { q : vec; a : R; r : vec; b : R }.

Section Lanczos.
Variables (n : nat) (A : nat -> nat -> C).
(* 155-158, 299-302, and 15-17 in the generator *)
Definition start (eps : R) (v0 : vec) : option vec :=
  let q_norm := norm n v0 in
  if Rlt_dec eps (Rabs (q_norm - 1)) then (if Req_EM_T q_norm 0 then None else Some (over v0 q_norm)) else Some v0.
(* 160-170, 304-313 *)
Definition first (q : vec) : ent :=
  let r := apply n A q in let a := fst (inner n q r) in let r := axpy q r (- a) in {| q := q; a := a; r := r; b := norm n r |}.
(* 174-187, 317-329: the body of the loop *)
Definition step (e : ent) : ent :=
  let v := q e in let q' := over (r e) (b e) in let r := axpy v (apply n A q') (- b e) in let a := fst (inner n q' r) in let r := axpy q' r (- a) in
  {| q := q'; a := a; r := r; b := norm n r |}.
(* the loop: at most rem more steps; stops after a step with b[i] < eps *)
Fixpoint loop (eps : R) (rem : nat) (e : ent) : option (list ent) :=
  match rem with
  | O => Some []
  | S rem' =>
    if Req_EM_T (b e) 0 then None else
    let e' := step e in
    if Rlt_dec (b e') eps then Some [e'] else
    match loop eps rem' e' with None => None | Some l => Some (e' :: l) end
  end.
(* checks 124-128, 280-284; Q[0] of an empty array raises *)
Definition run (eps : R) (m : nat) (v0 : vec) : option (list ent) :=
  if n <=? m then None else
  match m with O => None | S m' =>
    match start eps v0 with None => None | Some q =>
      match loop eps m' (first q) with None => None | Some l => Some (first q :: l) end end end.
(* the last step had b[i] < eps *)
Definition stopped (eps : R) (l : list ent) : bool :=
  match l with
  | [] | [_] => false
  | _ => if Rlt_dec (b (last l {| q := fun _ => C0; a := 0; r := fun _ => C0; b := 0 |})) eps then true else false
  end.
(* the diagonal, the off-diagonal and the vectors *)
Record result := { diagonal : list R; off : list R; vectors : list vec }.
(* 68-216  lanczos_full: 188-191 m = i at the break.  full_ortho after a break: 208 assigns the M - i values of Q[i:] to the m - i entries h[i,i:] and raises *)
Definition lanczos_full (eps : R) (m : nat) (full_ortho : bool) (v0 : vec) : option result :=
  match run eps m v0 with
  | None => None
  | Some l => if full_ortho && stopped eps l then None else
      let m' := if stopped eps l then length l - 1 else length l in
      Some {| diagonal := firstn m' (map a l); off := firstn (m' - 1) (map b l); vectors := firstn m' (map q l) |}
  end.
(* 10-53  _lanczos_vec_iter_core: the vectors at the time they are yielded; meps is finfo(dtype).eps *)
Fixpoint vec_loop (v r : vec) (aa bb : list R) : list vec :=
  match aa, bb with
  | ai :: aa', bp :: bb' => let q := over r bp in let r := axpy q (axpy v (apply n A q) (- bp)) (- ai) in q :: vec_loop q r aa' bb'
  | _, _ => []
  end.
Definition vec_iter (meps : R) (v0 : vec) (aa bb : list R) : option (list vec) :=
  match start meps v0, aa with
  | Some q, a0 :: aa' => Some (q :: vec_loop q (axpy q (apply n A q) (- a0)) aa' bb)
  | _, _ => None
  end.
(* every yielded object is the one array q_view: what a list of them shows once the generator has run *)
Definition kept (l : list vec) : list vec := map (fun _ => last l (fun _ => C0)) l.
(* 219-343  lanczos_iter: a[:i+1], b[:i] and the generator *)
Definition lanczos_iter (eps meps : R) (m : nat) (v0 : vec) : option (list R * list R * option (list vec)) :=
  match run eps m v0 with
  | None => None
  | Some l => let aa := map a l in let bb := firstn (length l - 1) (map b l) in Some (aa, bb, vec_iter meps v0 aa bb)
  end.
End Lanczos.
(* 358-417  lin_comb_Q_T; coeff[0] of an empty array and next of an empty iterator raise *)
Definition lin_comb (coeff : list C) (Q : list vec) : option vec :=
  match coeff, Q with
  | c0 :: cs, q0 :: qs => Some (fold_left (fun out p => fun k => (out k + fst p * snd p k)%C) (combine cs qs) (fun k => (q0 k * c0)%C))
  | _, _ => None
  end.
