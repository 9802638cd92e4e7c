(* Model of /repo/quspin/basis/photon.py: ho_basis, the conserving photon_basis, coherent_state, photon_Hspace_dim, and of the
   sectors that the one-dimensional particle bases build for it.  Matrix elements: Some exact complex number, or None for
   nan.  Outer None: an exception is raised. *)
From Coq Require Export Ascii.
From Verif Require Import AuxN SpecC SpecSector M_ops M_opstr M_symop M_tensor.
Local Open Scope nat_scope.

(* ---- ho_basis.Op, photon.py:990-1026 ---- *)
(* numpy.abs of an array of b-bit integers *)
Definition absi (b : option Z) (x : Z) : Z := store b (Z.abs x).
(* numpy.sqrt(dtype(x)): nan for negative x and a real dtype *)
Definition root (real : bool) (x : Z) : option C :=
  if (x <? 0)%Z then (if real then None else Some (0, sqrt (IZR (- x)))%R) else Some (RtoC (sqrt (IZR x))).
(* ME *= x *)
Definition times (a b : option C) : option C := match a, b with Some a, Some b => Some (a * b)%C | _, _ => None end.
(* one letter, lines 1002-1014 *)
Definition ho_step (real : bool) (b : option Z) (o : ascii) (s : option C * Z) : option (option C * Z) :=
  let '(me, row) := s in
  match o with
  | "I" => Some (me, row)
  | "n" => Some (times me (Some (RtoC (IZR (absi b row)))), row)
  | "+" => let row' := store b (row + 1) in Some (times me (root real (absi b row')), row')
  | "-" => Some (times me (root real (absi b row)), store b (row - 1))
  | _ => None
  end%char.
Fixpoint ho_loop (real : bool) (b : option Z) (rw : list ascii) (s : option C * Z) : option (option C * Z) :=
  match rw with [] => Some s | o :: rw => match ho_step real b o s with Some s' => ho_loop real b rw s' | None => None end end.
(* the entry of column n of an oscillator with levels 0..Np; the index type is numpy.min_scalar_type(-Ns), line 888 *)
Definition ho_cell (real : bool) (Np : nat) (opstr : list ascii) (J : C) (n : nat) : option (option C * Z * Z) :=
  let b := index_bits (S Np) in
  match ho_loop real b (rev opstr) (Some C1, store b (Z.of_nat n)) with
  | None => None
  | Some (me, row) =>
    let col := store b (Z.of_nat n) in
    let '(me, row) := if ((row <? 0) || (Z.of_nat (S Np) <=? row))%Z%bool then (Some C0, col) else (me, row) in
    Some (times me (Some J), row, col)
  end.
(* the check that J can be cast to dtype is not modelled *)
Definition ho_Op (real : bool) (Np : nat) (opstr : list ascii) (indx : list nat) (J : C) : option (list (option C * Z * Z)) :=
  if length opstr =? length indx then all_some (map (ho_cell real Np opstr J) (seq 0 (S Np))) else None.

(* ---- conserving photon_basis ---- *)
(* photon.py:168-170: self._n = Np_list; self._n -= Ntot; self._n *= -1, in the int8 array of the one-dimensional bases *)
Definition photon_n (Ntot Np : nat) : Z := store (Some 8%Z) (- store (Some 8%Z) (store (Some 8%Z) (Z.of_nat Np) - Z.of_nat Ntot)).
(* indexing an array of length len *)
Definition np_index (len : nat) (i : Z) : option nat :=
  if ((0 <=? i) && (i <? Z.of_nat len))%Z%bool then Some (Z.to_nat i)
  else if ((- Z.of_nat len <=? i) && (i <? 0))%Z%bool then Some (Z.to_nat (i + Z.of_nat len)) else None.
Definition is_zero (x : option C) : bool := match x with Some m => Czero m | None => false end.
(* photon.py:224-309 Op of the conserving basis: L the particle basis, nums the particle numbers of its states *)
Definition photon_Op (real : bool) (L : basis) (nums : list nat) (Ntot : nat) (opstr : list ascii) (indx : list nat) (J : C) : option (list (option C * Z * Z)) :=
  if b_Ns L =? 0 then Some []
  else if negb (count_bar opstr =? 1) then None
  else match split_bar opstr with
       | None => None
       | Some (opl, opr) =>
         if negb (length opl =? length indx) then None
         else match ho_Op real Ntot opr (repeat 0 (length opr)) C1, b_Op L opl indx J with
              | Some ph, Some l =>
                match all_some (map (fun t : C * Z * Z => let '(v, r, c) := t in
                        match np_index (length nums) c with
                        | None => None
                        | Some k => match np_index (length ph) (photon_n Ntot (nth k nums 0)) with
                                    | None => None
                                    | Some m => Some (times (Some v) (fst (fst (nth m ph (Some C0, 0%Z, 0%Z)))), r, c)
                                    end
                        end) l) with
                | None => None
                | Some es => Some (filter (fun e => negb (is_zero (fst (fst e)))) es)
                end
              | _, _ => None
              end
       end.
(* photon.py:840-876 _conserved_get_proj: one summand for every photon number from the smallest to the largest; P1 is the projector of
   the particle part (or the identity), ns the values _n; None: index error of v_ph *)
Definition conserved_proj (ns : list Z) (Nph : nat) (P1 : nat -> nat -> C) : option (nat -> nat -> C) :=
  match ns with
  | [] => None
  | x :: xs =>
    let lo := fold_left Z.min xs x in
    let hi := fold_left Z.max xs x in
    let ks := map (fun k => (lo + Z.of_nat k)%Z) (seq 0 (Z.to_nat (hi - lo + 1))) in
    match all_some (map (np_index (S Nph)) ks) with
    | None => None
    | Some ms =>
      let summand (km : Z * nat) : nat -> nat -> C := fun i j =>
        let masked := if (nth j ns 0%Z =? fst km)%Z then P1 (i / S Nph) j else C0 in
        (masked * (if i mod S Nph =? snd km then C1 else C0))%C in
      Some (fun i j => Csum (combine ks ms) (fun km => summand km i j))
    end
  end.

(* ---- check_pcon of the conserving basis ---- *)
(* photon.py:973-976 ho_basis._non_zero *)
Definition ho_non_zero (Np : nat) (w : list ascii) : bool :=
  let count c := length (filter (fun o => (o =? c)%char) w) in
  ((Np <? count "+"%char) || (Np <? count "-"%char))%bool.
(* a term "left|right": the particle part with its sites, the photon letters (all on site `at`), the coupling *)
Notation pterm := (list (ascii * nat) * list ascii * nat * C)%type.
(* base.py:637-665 check_pcon, static part, with tensor.py:885-910 _non_zero and tensor.py:912-952 _expand_opstr.  The string
   with the bar and its indices is one list of pairs (index 0 for the bar); nzL and expandL: those of the particle basis *)
Definition with_bar (t : pterm) : term := let '(l, w, at_, J) := t in (l ++ (bar, 0) :: map (fun o => (o, at_)) w, J).
Definition photon_check_pcon (nzL : list (ascii * nat) -> bool) (expandL : term -> list term) (Ntot : nat) (eps : R) (ts : list pterm) : bool :=
  let expanded := flat_map (fun t : pterm => let '(l, w, at_, J) := t in map (fun u : term => (fst u, w, at_, (snd u * J)%C)) (expandL (l, C1))) ts in
  let kept := filter (fun t : pterm => let '(l, w, _, _) := t in (nzL l && ho_non_zero Ntot w)%bool) expanded in
  forallb (fun t : term => count_letter "+"%char (fst t) =? count_letter "-"%char (fst t)) (consolidate eps (map with_bar kept)).

(* ---- the particle numbers of the conserving basis ---- *)
(* spin.py:140-145 (one-dimensional) *)
Definition spin_sectors (L Ntot : nat) : list nat := seq 0 (S (if L <? Ntot + 1 then L else Ntot)).
(* boson.py:132-137 and fermion.py:102-107 (one-dimensional) *)
Definition boson_sectors (sps L Ntot : nat) : list nat := seq 0 (Nat.min ((sps - 1) * L) Ntot).
Definition fermion_sectors (L Ntot : nat) : list nat := seq 0 (Nat.min L Ntot).
(* fermion.py:253-267 (one-dimensional, spinful): pairs (N up, N down) *)
Definition spinful_sectors (L Ntot : nat) : list (nat * nat) :=
  flat_map (fun n => map (fun i => (n - i, i)) (seq 0 (S n))) (seq 0 (S (if L <? Ntot + 1 then L else Ntot))).

(* photon.py:49-78 photon_Hspace_dim; scipy.special.hyp2f1(1,1-N+Ntot,2+Ntot,-1) is its series, which ends when Ntot < N; for
   N <= Ntot it is multiplied by binom(N,Ntot+1) = 0 *)
Definition pochhammer (x : Z) (k : nat) : R := fold_right (fun i acc => IZR (x + Z.of_nat i) * acc)%R 1%R (seq 0 k).
Definition hyp2f1_series (a b c : Z) (z : R) (terms : nat) : R :=
  fold_right Rplus 0%R (map (fun k => pochhammer a k * pochhammer b k / (pochhammer c k * INR (fact k)) * z ^ k)%R (seq 0 terms)).
Definition photon_Hspace_dim (N : nat) (Ntot Nph : option nat) : option R :=
  match Ntot, Nph with
  | None, Some Nph => Some (IZR (2 ^ Z.of_nat N * (Z.of_nat Nph + 1)))
  | Some Ntot, _ => Some (IZR (2 ^ Z.of_nat N) - INR (binom N (Ntot + 1)) *
                          hyp2f1_series 1 (1 - Z.of_nat N + Z.of_nat Ntot) (2 + Z.of_nat Ntot) (-1) (N - Ntot))%R
  | None, None => None
  end.

(* photon.py:15-47 coherent_state for a real a and n >= 1 states: None is nan; log(a) is -inf for a = 0 and nan for a < 0,
   and -inf * 0 is nan *)
Definition cumulated (k : nat) : R := fold_left (fun acc i => acc + ln (INR i))%R (seq 1 k) 0%R.
Definition coherent_state (a : R) (n : nat) : list (option R) :=
  map (fun k => let s1 := (- (a * a) / 2)%R in
                let s3 := if k =? 0 then ln 1 else (1 / 2 * cumulated k)%R in
                if Rlt_dec 0 a then Some (exp (s1 + ln a * INR k - s3))
                else if Req_EM_T a 0 then (if k =? 0 then None else Some 0%R) else None) (seq 0 n).
