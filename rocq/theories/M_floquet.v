(* Model of the class Floquet (tools/Floquet.py:39-132, 170-356): the evolution operator over one period for the three kinds of
   evo_dict, and its eigenvalues, eigenvectors and quasi-energies.
   Functions of numpy and scipy and H.evolve are fields of [external]; the theorems say what is assumed of them.  Real numbers
   are exact.  Left out: the tests of the types of the arguments, the tolerances handed to H.evolve, joblib (the rows come
   back in order), the attribute HF (logm), and Ns = 0. *)
From Verif Require Import AuxN SpecC SpecExpm SpecLanczos SpecExpect M_symop.
Local Open Scope nat_scope.

Record external := {
  expm_multiply : nat -> mat -> R -> vec -> vec;    (* _sla.expm_multiply(-1j*dt*H, v) *)
  evolve : operator -> list R -> vec -> option vec; (* H.evolve(v, 0, times, ...)[:,-1]; None: an exception *)
  eig : nat -> mat -> list (C * vec);               (* _la.eig: eigenvalues with the columns of eigenvectors *)
  qr : nat -> list vec -> list vec;                 (* _la.qr(V)[0], by columns *)
  np_sort : list C -> list C;                       (* numpy.sort of a complex array *)
  arg : C -> R;                                     (* imaginary part of numpy.log *)
  argsort : list R -> list nat;                     (* numpy.argsort *)
  t_check : R                                       (* Floquet.py:248 cos((pi/exp(0))**(1.0/euler_gamma)) *)
}.

(* the argument evo_dict: keys H, T; keys H, t_list, dt_list and optionally T; keys H_list, dt_list and optionally T.
   n is H_list[0].Ns *)
Inductive evo_dict :=
  | Continuous (H : operator) (T : R)
  | Steps2 (H : operator) (ts dts : list R) (T : option R)
  | Steps3 (n : nat) (Hs : list mat) (dts : list R) (T : option R).

Inductive exn := ValueErr | TypeErr | RuntimeErr | IndexErr.
Inductive outcome := Raises (e : exn) | Made (n : nat) (T : R) (UF : mat).

Definition Rltb (x y : R) : bool := if Rlt_dec x y then true else false.
Definition Reqb (x y : R) : bool := if Req_EM_T x y then true else false.
(* finfo(complex128).eps *)
Definition macheps : R := (/ 2 ^ 52)%R.
(* Floquet.py:43-44, 86-87, 100-101 *)
Definition psi0 (i : nat) : vec := fun k => if i =? k then C1 else C0.

Section Ext.
Variable ext : external.

(* Floquet.py:46, 57: t_list of attempt number a, nsteps = 10^a *)
Definition times (T : R) (a : nat) : list R :=
  if a =? 0 then [0%R; T] else map (fun j => (INR j * (T / INR (10 ^ a)))%R) (seq 0 (10 ^ a + 1)).
(* Floquet.py:39-59 _evolve_cont: the attempts with nsteps = 1, 10, ... below 1E7; every exception is caught *)
Fixpoint attempts (H : operator) (T : R) (v : vec) (l : list nat) : option vec :=
  match l with
  | [] => None
  | a :: l' => match evolve ext H (times T a) v with Some w => Some w | None => attempts H T v l' end
  end.
Definition evolve_cont (H : operator) (T : R) (i : nat) : option vec := attempts H T (psi0 i) (seq 0 7).
(* Floquet.py:83-94 _evolve_step_3; zip stops at the shorter list *)
Definition evolve_step_3 (n : nat) (Hs : list mat) (dts : list R) (i : nat) : vec :=
  fold_left (fun psi s => expm_multiply ext n (fst s) (snd s) psi) (combine Hs dts) (psi0 i).
(* Floquet.py:97-108 _evolve_step_2 *)
Definition evolve_step_2 (H : operator) (ts dts : list R) (i : nat) : vec :=
  fold_left (fun psi s => expm_multiply ext (Ns H) (at_time H (fst s)) (snd s) psi) (combine ts dts) (psi0 i).

(* vstack: the arrays become the rows *)
Definition vstack (rows : list vec) : mat := fun i j => nth i rows (fun _ => C0) j.
(* Floquet.py:114-118, 120-124, 126-130 *)
Definition get_U_cont (H : operator) (T : R) : option mat := option_map vstack (all_some (map (evolve_cont H T) (seq 0 (Ns H)))).
Definition get_U_step_3 (n : nat) (Hs : list mat) (dts : list R) : mat := vstack (map (evolve_step_3 n Hs dts) (seq 0 n)).
Definition get_U_step_2 (H : operator) (ts dts : list R) : mat := vstack (map (evolve_step_2 H ts dts) (seq 0 (Ns H))).

(* Floquet.py:249-252 *)
Definition periodic_at_check (H : operator) (T : R) : bool :=
  forallb (fun d => negb (Rltb (10 ^ 5 * macheps) (Cabs (fst d (t_check ext) - fst d (t_check ext + T)%R)%C))) (driven H).
Definition total (dts : list R) : R := fold_right Rplus 0%R dts.
Definition period (T : option R) (dts : list R) : R := match T with Some x => x | None => total dts end.

(* Floquet.py:208-318 *)
Definition make_UF (e : evo_dict) : outcome :=
  match e with
  | Continuous H T =>
      if periodic_at_check H T then match get_U_cont H T with Some U => Made (Ns H) T U | None => Raises RuntimeErr end
      else Raises TypeErr
  | Steps2 H ts dts T => Made (Ns H) (period T dts) (get_U_step_2 H ts dts)
  | Steps3 n Hs dts T =>
      if negb (length dts =? length Hs) then Raises ValueErr
      else match Hs with [] => Raises IndexErr | _ => Made n (period T dts) (get_U_step_3 n Hs dts) end
  end.

(* numpy.diff; z < 1E3*eps for complex z: the real parts are compared first *)
Fixpoint diff (l : list C) : list C :=
  match l with x :: ((y :: _) as r) => (y - x)%C :: diff r | _ => [] end.
Definition close (z : C) : bool :=
  (Rltb (fst z) (10 ^ 3 * macheps) || (Reqb (fst z) (10 ^ 3 * macheps) && Rltb (snd z) 0))%bool.
(* numpy.log *)
Definition np_log (z : C) : C := (ln (Cabs z), arg ext z).
Definition take {X} (d : X) (l : list X) (ind : list nat) : list X := map (fun i => nth i l d) ind.

Record spectrum := { EF : list R; thetaF : list C; VF : list vec }.
(* Floquet.py:326-356; without VF=True the same EF and thetaF (eigvals), and no VF *)
Definition spectrum_of (n : nat) (T : R) (UF : mat) : spectrum :=
  let ev := eig ext n UF in
  let theta := map fst ev in
  let V := map snd ev in
  let V' := if existsb close (diff (np_sort ext theta)) then qr ext n V else V in
  let E := map (fun z => fst (Ci * RtoC (/ T) * np_log z)%C) theta in
  let ind := argsort ext E in
  {| EF := take 0%R E ind; thetaF := take C0 theta ind; VF := take (fun _ => C0) V' ind |}.
End Ext.
