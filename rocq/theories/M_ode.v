(* Model of evolve (quspin/tools/evolution.py): packing of the initial state, the loop over the requested times and the formatting of the
   output.  Arrays are lists in row-major order.  The integrator is a function flow: flow s t y is the state solver.integrate(t) reaches from
   y at time s; it is taken to succeed.  The final transposition of the array of results, which moves the time to the last axis, and verbose
   are not modelled. *)
From Verif Require Import AuxN SpecC SpecExpm SpecEvolve.
Local Open Scope nat_scope.

Inductive shape := Vec (n : nat) | Mat (n k : nat).
Definition rows (s : shape) : nat := match s with Vec n => n | Mat n _ => n end.
Definition cols (s : shape) : nat := match s with Vec _ => 1 | Mat _ k => k end.
(* numpy.reshape: ValueError unless the number of elements is right *)
Definition reshape {A} (s : shape) (l : list A) : option (list A) := if length l =? rows s * cols s then Some l else None.
(* 282-313: the state given to the integrator; view(float64) of a complex array alternates real and imaginary parts *)
Definition pack (m : mode) (v : list C) : list R :=
  match m with
  | Stack => map fst v ++ map snd v
  | Real => map fst v
  | Complex => flat_map (fun z => [fst z; snd z]) v
  end.
Fixpoint pairs (y : list R) : list C := match y with a :: b :: y' => (a, b) :: pairs y' | _ => [] end.
(* 348-350 (column norms: numpy.linalg.norm with axis=0) *)
Definition column_norm (s : shape) (y : list C) (c : nat) : R :=
  sqrt (Rsum (seq 0 (rows s)) (fun i => let z := nth (i * cols s + c) y C0 in fst z * fst z + snd z * snd z))%R.
Definition normalised (s : shape) (n : R) (y : list C) : list C :=
  map (fun p => (RtoC (/ (column_norm s y (p mod cols s) / n)) * nth p y C0)%C) (seq 0 (length y)).
(* 338-352  _format_output *)
Definition format (m : mode) (imag : bool) (n : R) (s : shape) (y : list R) : option (list C) :=
  match (match m return option (list C) with
         | Stack => match reshape s (firstn (rows s) y), reshape s (skipn (rows s) y) with
                    | Some a, Some b => Some (combine a b : list C)
                    | _, _ => None end
         | Complex => reshape (A := C) s (pairs y)
         | Real => reshape (A := C) s (map RtoC y)
         end) with
  | None => None
  | Some out => Some (if imag then normalised s n out else out)
  end.

Section Loop.
Variables (flow : R -> R -> list R -> list R) (m : mode) (imag : bool) (n : R) (s : shape) (t0 : R).
(* v0 and the state of the integrator; they are one array until the first integration.  The output is a view of the array it is made of,
   unless it is stacked, and is normalised in place *)
Record state := { v0 : list R; y : list R; now : R; fresh : bool }.
Definition in_place (out : list C) (y : list R) : list R := if imag then match m with Stack => y | _ => pack m out end else y.
(* 365-401  _evolve_list; 404-425 _evolve_iter yields the same *)
Fixpoint evolve_list (st : state) (ts : list R) : option (list (list C)) :=
  match ts with
  | [] => Some []
  | t :: ts' =>
    if Req_EM_T t t0 then
      match format m imag n s (v0 st) with
      | None => None
      | Some out => let w := in_place out (v0 st) in
          match evolve_list {| v0 := w; y := (if fresh st then w else y st); now := now st; fresh := fresh st |} ts' with
          | None => None | Some outs => Some (out :: outs) end
      end
    else
      let y1 := flow (now st) t (y st) in
      match format m imag n s y1 with
      | None => None
      | Some out =>
          match evolve_list {| v0 := v0 st; y := in_place out y1; now := t; fresh := false |} ts' with
          | None => None | Some outs => Some (out :: outs) end
      end
  end.
End Loop.
(* 262-332  evolve; None: an exception.  280 n = norm(v0) over all entries; 283-284 *)
Definition evolve (flow : R -> R -> list R -> list R) (m : mode) (imag : bool) (s : shape) (v : list C) (t0 : R) (ts : list R) : option (list (list C)) :=
  match m, imag with
  | Stack, true => None
  | _, _ => evolve_list flow m imag (vnorm v) s t0 {| v0 := pack m v; y := pack m v; now := t0; fresh := true |} ts
  end.
