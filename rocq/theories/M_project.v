(* Model of project_op (tools/misc.py 23-116) and hamiltonian.project_to and rotate_by (operators/hamiltonian_core.py 1036-1083, 1143-1148) for numpy arrays and
   scipy matrices, with _rmul_dense (2904-2941), _imul_dense (2943-2963), _rmul_sparse (2669-2698) and _imul_sparse (2700-2721).
   Arithmetic is exact, so _check_almost_zero (_make_hamiltonian.py 12-19) asks for zero; exceptions are None.  astype and get_matvecs
   only copy.  Left out: projectors that are hamiltonian or exp_op objects (C30, C60), arrays multiplied with scipy matrices in the branch
   for arrays, the optional dtype, get_proj of a basis (C18, C53: it gives a scipy matrix). *)
From Verif Require Import AuxN SpecC SpecExpm SpecLanczos SpecExpect.
Local Open Scope nat_scope.

Record rmat := { nr : nat; nc : nat; ent : mat }.
(* _Ns, _shape, _static and _dynamic *)
Record ham := { num : nat; shape : nat * nat; stat : rmat; dyns : list ((R -> C) * rmat) }.
Inductive format := Sparse | Dense.

(* numpy and scipy: the product of two matrices raises if the dimensions do not fit *)
Definition mmul (A B : rmat) : option rmat :=
  if nc A =? nr B then Some {| nr := nr A; nc := nc B; ent := fun i j => Csum (seq 0 (nc A)) (fun k => ent A i k * ent B k j)%C |} else None.
(* .T.conj(), .getH(), .H *)
Definition adj (A : rmat) : rmat := {| nr := nc A; nc := nr A; ent := fun i j => Cconj (ent A j i) |}.
(* _make_hamiltonian.py:12-19, without the tolerance *)
Definition zero (z : C) : bool := if Req_EM_T (fst z) 0 then (if Req_EM_T (snd z) 0 then true else false) else false.
Definition is_zero (A : rmat) : bool := forallb (fun i => forallb (fun j => zero (ent A i j)) (seq 0 (nc A))) (seq 0 (nr A)).
Definition zeros (sh : nat * nat) : rmat := {| nr := fst sh; nc := snd sh; ent := fun _ _ => C0 |}.

Fixpoint each (f : rmat -> option rmat) (l : list ((R -> C) * rmat)) : option (list ((R -> C) * rmat)) :=
  match l with
  | [] => Some []
  | d :: l' => match f (snd d), each f l' with Some A, Some r => Some ((fst d, A) :: r) | _, _ => None end
  end.
(* the common part of 2669-2721 and 2904-2963: a product for the static part, replaced by zeros of the shape of the object if it vanishes,
   and for each drive, removed if it vanishes *)
Definition products (fs fd : rmat -> option rmat) (self : ham) : option ham :=
  match fs (stat self), each fd (dyns self) with
  | Some A, Some l => Some {| num := num self; shape := shape self; stat := if is_zero A then zeros (shape self) else A;
                              dyns := filter (fun d => negb (is_zero (snd d))) l |}
  | _, _ => None
  end.
(* 2669-2698, 2904-2941 *)
Definition rmul (other : rmat) (self : ham) : option ham := products (mmul other) (mmul other) self.
(* 2943-2963 *)
Definition imul_dense (other : rmat) (self : ham) : option ham := products (fun A => mmul A other) (fun A => mmul A other) self.
(* 2700-2721: the drives are multiplied from the left, other.dot(self._dynamic[func]) *)
Definition imul_sparse (other : rmat) (self : ham) : option ham := products (fun A => mmul A other) (mmul other) self.
(* 1046-1083: _shape is set, _Ns is not *)
Definition project_to (f : format) (self : ham) (proj : rmat) : option ham :=
  if negb (snd (shape self) =? nr proj) then None else
  match rmul (adj proj) self with
  | None => None
  | Some new =>
    let new' := {| num := num new; shape := (nc proj, nc proj); stat := stat new; dyns := dyns new |} in
    match f with Sparse => imul_sparse proj new' | Dense => imul_dense proj new' end
  end.
(* misc.py:74-91 *)
Definition project_op (f : format) (obs : ham) (proj : rmat) : option ham :=
  if num obs =? nr proj then project_to f obs proj
  else if num obs =? nc proj then project_to f obs (adj proj)
  else None.
(* misc.py:93-112 *)
Definition project_array (obs proj : rmat) : option rmat :=
  if negb (nr obs =? nc obs) then None
  else if nc obs =? nr proj then match mmul obs proj with Some X => mmul (adj proj) X | None => None end
  else if nr obs =? nc proj then match mmul obs (adj proj) with Some X => mmul proj X | None => None end
  else None.
(* hamiltonian_core.py:1437-1438 evolve accepts a state with this number of elements *)
Definition evolve_accepts (H : ham) (elements : nat) : bool := elements =? num H.
(* hamiltonian_core.py:1143-1148 rotate_by with an array and generator=False, called again and again *)
Definition rotate_by (self : ham) (other : rmat) : option ham := project_to Dense self other.
Fixpoint rotations (H : ham) (Vs : list rmat) : option ham :=
  match Vs with [] => Some H | V :: r => match rotate_by H V with Some H' => rotations H' r | None => None end end.
