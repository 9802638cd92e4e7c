(* Model of obs_vs_time (tools/measurements.py 546-700): input as tuple (564-590), array (593-603) or generator (605-618), the
   evaluation at once (645-650) and along a generator (655-688).  expt_value of hamiltonian is that of M_expect.v, ED_state_vs_time that
   of M_edtime.v.  Exceptions are not told apart.  Left out: the entanglement entropy (Sent_args), messages, matrices in Obs_dict
   that are not yet hamiltonian objects (they become static ones), a scalar in place of times. *)
From Verif Require Import AuxN SpecC SpecExpm SpecLanczos SpecExpect M_edtime M_expect.
Local Open Scope nat_scope.

Inductive input := Eigen (psi : array) (E : list R) (V : array) | Whole (psi_t : array) | Generator (l : list array).
(* Fails: an exception; Gives: for each observable the values (one result for all times, or one for each time), and psi_t *)
Inductive series := Once (r : result) | Each (l : list result).
Inductive outcome := Fails | Gives (vals : list series) (psi_t : option array).

Definition raises (r : result) : bool := match r with Raises => true | _ => false end.
(* numpy.squeeze, None: no axis is left *)
Definition squeezed_array (s : squeezed) (a : array) : option array :=
  match s with S0 => None | S1 r f => Some (V1 r f) | S2 r k f => Some (V2 r k f) | S3 _ => Some a end.
(* 611 numpy.squeeze(numpy.dstack(list)): vectors become (1, n, number), matrices (r, c, number); other lists raise *)
Definition ket (a : array) : vec := match a with V1 _ f => f | V2 _ _ f => fun i => f i 0 | _ => fun _ => C0 end.
Definition dense (a : array) : mat := match a with V2 _ _ f => f | _ => fun _ _ => C0 end.
Definition dstack (l : list array) : option array := match l with
  | V1 r _ :: _ => if forallb (fun a => match a with V1 r' _ => r' =? r | _ => false end) l
                   then Some (V3 1 r (length l) (fun _ i k => ket (nth k l (V1 0 (fun _ => C0))) i)) else None
  | V2 r c _ :: _ => if forallb (fun a => match a with V2 r' c' _ => (r' =? r) && (c' =? c) | _ => false end) l
                   then Some (V3 r c (length l) (fun i j k => dense (nth k l (V1 0 (fun _ => C0))) i j)) else None
  | _ => None
  end.
Definition stacked (l : list array) : option array := match dstack l with Some a => squeezed_array (M_edtime.squeeze a) a | None => None end.

(* 645-647 *)
Definition at_once (obs : list operator) (psi_t : array) (times : list R) (pure : bool) (ret : option array) : outcome :=
  let rs := map (fun H => expt_value H (Times times) pure psi_t) obs in
  if existsb raises rs then Fails else Gives (map Once rs) ret.
(* 655-688: next on an empty generator raises; times[m+1] raises if the generator is longer than times; enforce_pure is not passed *)
Definition along (obs : list operator) (l : list array) (times : list R) : outcome :=
  match l with
  | [] => Fails
  | _ => if length times <? length l then Fails
         else let rs := map (fun H => map (fun p => expt_value H (At (fst p)) false (snd p)) (combine times l)) obs in
              if existsb (existsb raises) rs then Fails else Gives (map Each rs) None
  end.
Definition shape_is (V : array) (n : nat) : bool := match V with V2 r k _ => (r =? n) && (k =? n) | _ => false end.
Definition obs_vs_time (inp : input) (times : list R) (obs : list operator) (return_state pure : bool) : outcome :=
  match inp with
  | Eigen psi E V =>
      if negb (shape_is V (length E)) then Fails
      else if negb (rows psi =? length E) then Fails
      else if negb (forallb (fun H => shape_is V (Ns H)) obs) then Fails
      else if return_state then
        match ED_state_vs_time psi E V times false with
        | Arr2 d0 d1 f => at_once obs (V2 d0 d1 f) times pure (Some (V2 d0 d1 f))
        | Arr3 d0 d1 d2 f => at_once obs (V3 d0 d1 d2 f) times pure (Some (V3 d0 d1 d2 f))
        | _ => Fails
        end
      else
        match ED_state_vs_time psi E V times true with
        | States l => along obs (map (V1 (length E)) l) times
        | Matrices l => along obs (map (V2 (length E) (length E)) l) times
        | _ => Fails
        end
  | Whole a =>
      if negb (forallb (fun H => rows a =? Ns H) obs) then Fails
      else at_once obs a times pure (if return_state then Some a else None)
  | Generator l =>
      if return_state then
        match stacked l with
        | Some a => if negb (forallb (fun H => rows a =? Ns H) obs) then Fails else at_once obs a times pure (Some a)
        | None => Fails
        end
      else along obs l times
  end.
