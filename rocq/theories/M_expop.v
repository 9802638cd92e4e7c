(* Model of the class exp_op with grids (operators/exp_op_core.py): constructor (50-155), set_a, set_grid, unset_grid, set_iterate
   (287-394), dot, rdot, sandwich (428-690) and the generators they use (695-815).
   E is scipy's exponential of a matrix, _expm_multiply(M,x) is E(M) x, with start, stop, num and endpoint it is E(g M) x for each
   point g of the grid.  An operand has a list of matrices: one for a vector (kept as a column), an array or a sparse matrix, and
   for a hamiltonian the static one and one for each drive (the methods act on each of them in the same way; conjugation of the
   functions of time is undone by the second conjugation).  Operators O are taken at one time.  Real numbers are exact.  Left out:
   other types of arguments, negative num. *)
From Verif Require Import AuxN SpecC SpecExpm SpecHam SpecExpop M_block.
Local Open Scope nat_scope.

Inductive kind := KVec | KArr | KSpa | KHam.
Record operand := { knd : kind; rows : nat; cols : nat; parts : list cmat }.
Inductive fault := ValueError | TypeError | IndexError.
(* One: an operand; Gen: a generator; Objs: an array of objects; Nd2, Nd3: arrays with entries and shape *)
Inductive out :=
  | Error (e : fault) | One (x : operand) | Gen (l : list operand) | Objs (l : list operand)
  | Nd2 (d0 d1 : nat) (f : nat -> nat -> C) | Nd3 (d0 d1 d2 : nat) (f : nat -> nat -> nat -> C).
Record expop := {
  Op : cmat; a : C; start : option R; stop : option R; num : option nat; endpoint : option bool; iterate : bool;
  grid : option (list R * R)                                                  (* _grid, _step *)
}.

(* numpy.linspace(start,stop,num,endpoint,retstep=True); the step for num = 1 (nan with endpoint) is not used *)
Definition linspace (b e : R) (m : nat) (ep : bool) : list R * R :=
  let d := spacing b e m ep in (map (fun k => (b + INR k * d)%R) (seq 0 m), d).
Definition default {X} (d : X) (x : option X) : X := match x with Some y => y | None => d end.
(* 84-137 *)
Definition construct (O : cmat) (a0 : C) (b e : option R) (m : option nat) (ep : option bool) (it : bool) : fault + expop :=
  let with_grid b' e' :=
    inr {| Op := O; a := a0; start := Some b'; stop := Some e'; num := Some (default 50 m); endpoint := Some (default true ep); iterate := it;
           grid := Some (linspace b' e' (default 50 m) (default true ep)) |} in
  match b, e with
  | None, None =>
      if it then inl ValueError
      else match m, ep with
           | None, None => inr {| Op := O; a := a0; start := None; stop := None; num := None; endpoint := None; iterate := false; grid := None |}
           | _, _ => inl ValueError
           end
  | Some b', Some e' => with_grid b' e'
  | _, _ => if it then inl TypeError else inl ValueError
  end.
(* 287-305 set_a *)
Definition set_a (o : expop) (c : C) : expop :=
  {| Op := Op o; a := c; start := start o; stop := stop o; num := num o; endpoint := endpoint o; iterate := iterate o; grid := grid o |}.
(* 307-349 set_grid: type(num) is not None holds always, so None raises ValueError *)
Definition set_grid (o : expop) (b e : R) (m : option nat) (ep : option bool) : fault + expop :=
  match m, ep with
  | Some m', Some ep' => inr {| Op := Op o; a := a o; start := Some b; stop := Some e; num := m; endpoint := ep; iterate := iterate o; grid := Some (linspace b e m' ep') |}
  | _, _ => inl ValueError
  end.
(* 351-367 unset_grid *)
Definition unset_grid (o : expop) : expop :=
  {| Op := Op o; a := a o; start := None; stop := None; num := None; endpoint := None; iterate := false; grid := None |}.
(* 369-394 set_iterate: (self._grid, self._step) is (None, None) compares identities and is never true *)
Definition set_iterate (o : expop) (v : bool) : expop :=
  {| Op := Op o; a := a o; start := start o; stop := stop o; num := num o; endpoint := endpoint o; iterate := v; grid := grid o |}.

Section E.
Variable n : nat.
Variable E : cmat -> cmat.
(* a*(O + shift*identity) *)
Definition exponent (c : C) (O : cmat) (shift : option C) : cmat :=
  match shift with Some s => mat_scale c (mat_add O (mat_scale s identity_mat)) | None => mat_scale c O end.
Definition on_parts (f : cmat -> cmat) (x : operand) : operand := {| knd := knd x; rows := rows x; cols := cols x; parts := map f (parts x) |}.
(* x.T: a vector stays as it is *)
Definition opT (x : operand) : operand :=
  match knd x with KVec => x | _ => {| knd := knd x; rows := cols x; cols := rows x; parts := map mat_T (parts x) |} end.
(* _expm_multiply, _hamiltonian_dot, _hamiltonian_rdot *)
Definition mulE (M : cmat) (x : operand) : operand := on_parts (mat_mul n (E M)) x.
(* _expm_multiply(M, x), then _expm_multiply(M, x.T.conj()).T.conj() *)
Definition both_sides (M : cmat) (A : cmat) : cmat := mat_H (mat_mul n (E M) (mat_H (mat_mul n (E M) A))).

(* 695-815: the generators; None: grid[0] of an empty grid *)
Fixpoint steps (f : cmat -> operand -> operand) (o : operand -> operand) (M : cmat) (x : operand) (m : nat) : list operand :=
  match m with O => [] | S m' => let x' := f M x in o x' :: steps f o M x' m' end.
Definition iter (f : cmat -> operand -> operand) (o : operand -> operand) (M : cmat) (x : operand) (step : R) (g : list R) : option (list operand) :=
  match g with
  | [] => None
  | g0 :: rest =>
      let x0 := if Req_EM_T g0 0%R then x else f (scaled g0 M) x in
      let M' := if Req_EM_T g0 0%R then M else scaled (/ g0) (scaled g0 M) in
      Some (o x0 :: steps f o (scaled step M') x0 (length rest))
  end.
Definition listed (w : list operand -> out) (l : option (list operand)) : out := match l with Some l' => w l' | None => Error IndexError end.
Definition part0 (x : operand) : cmat := nth 0 (parts x) (fun _ _ => C0).
Definition point (l : list operand) (k : nat) : cmat := part0 (nth k l {| knd := KVec; rows := 0; cols := 0; parts := [] |}).

(* 428-513 dot; _hamiltonian_iter_dot is declared with (grid, step) and called with (step, grid): step[0] raises IndexError *)
Definition dot (o : expop) (x : operand) (shift : option C) : out :=
  if negb (rows x =? n) then Error ValueError
  else let M := exponent (a o) (Op o) shift in
  match grid o with
  | None => if iterate o then Error TypeError else One (mulE M x)
  | Some (g, step) =>
      match knd x with
      | KHam => Error IndexError
      | k =>
          let l := iter mulE (fun y => y) M x step g in
          if iterate o then listed Gen l
          else match k with
               | KVec => listed (fun l => Nd2 n (length l) (fun i k => point l k i 0)) l                  (* .T *)
               | KSpa => listed Objs l
               | _ => listed (fun l => Nd3 (cols x) n (length l) (fun j i k => point l k i j)) l           (* .T *)
               end
      end
  end.
(* 515-610 rdot *)
Definition rdot (o : expop) (x : operand) (shift : option C) : out :=
  if negb ((match knd x with KVec => rows x | _ => cols x end) =? n) then Error ValueError
  else let M := mat_T (exponent (a o) (Op o) shift) in
  match grid o with
  | None => if iterate o then Error TypeError else One (opT (mulE M (opT x)))
  | Some (g, step) =>
      match knd x with
      | KHam => Error IndexError
      | k =>
          let l := iter mulE opT M (opT x) step g in
          if iterate o then listed Gen l
          else match k with
               | KVec => listed (fun l => Nd2 (length l) n (fun k i => point l k i 0)) l
               | KSpa => listed Objs l
               | _ => listed (fun l => Nd3 (length l) (rows x) n (fun k i j => point l k i j)) l          (* .transpose(0,2,1) *)
               end
      end
  end.
(* 612-690 sandwich with a grid (without one see C33); a one-dimensional array of sparse matrices has no three axes *)
Definition sandwich (o : expop) (x : operand) (shift : option C) : out :=
  match knd x with
  | KVec => Error ValueError
  | k =>
      if negb (rows x =? cols x) then Error ValueError
      else if negb (rows x =? n) then Error ValueError
      else
      let M := exponent (Cconj (a o)) (mat_H (Op o)) shift in
      match grid o with
      | None => if iterate o then Error TypeError
                else let y := mulE (exponent (a o) (Op o) None) x in
                     One (opT (mulE (mat_T (exponent (Cconj (a o)) (mat_H (Op o)) None)) (opT y)))
      | Some (g, step) =>
          let l := iter (fun M => on_parts (both_sides M)) (fun y => y) M x step g in
          if iterate o then listed Gen l
          else match k with
               | KHam => listed Objs l
               | KSpa => match l with Some _ => Error ValueError | None => Error IndexError end
               | _ => listed (fun l => Nd3 n n (length l) (fun i j k => point l k i j)) l                  (* .transpose((1,2,0)) *)
               end
      end
  end.
End E.

(* every object a program can have *)
Inductive reachable : expop -> Prop :=
  | r_new O a0 b e m ep it o : construct O a0 b e m ep it = inr o -> reachable o
  | r_a o c : reachable o -> reachable (set_a o c)
  | r_grid o b e m ep o' : reachable o -> set_grid o b e m ep = inr o' -> reachable o'
  | r_unset o : reachable o -> reachable (unset_grid o)
  | r_iterate o v : reachable o -> reachable (set_iterate o v).
