(* Model of the projector and of the transformation of vectors between the symmetry reduced and the full basis:
   /repo/quspin/basis/basis_general/_basis_general_core/source/general_basis_get_vec.h, general_basis_core.pyx,
   /repo/quspin/basis/basis_general/base_general.py.
   Floating point is exact.  A vector is a function from row indices; with several columns every column is treated in this way. *)
From Verif Require Import AuxN SpecC SpecSymm M_symm M_index.
Local Open Scope nat_scope.

(* 1.1e-15 in update_out_dense and get_proj_helper *)
Definition too_complex (real : bool) (c : C) : bool := (real && (if Rlt_dec (11 / 10 ^ 16) (Rabs (snd c)) then true else false))%bool.
Definition real_part (real : bool) (c : C) : C := if real then RtoC (fst c) else c.

(* general_basis_get_vec.h:46,82 (Ns_full - s - 1) and 81,127 rep_position(Ns,basis,s) *)
Definition full_index (Ns_full : nat) (s : N) : Z := (Z.of_nat Ns_full - Z.of_N s - 1)%Z.
Definition pcon_index (basis_pcon : list N) (s : N) : Z := rep_position basis_pcon s.

(* general_basis_get_vec.h:22-67 update_out_dense: out[o] += phase * c * x; false = error *)
Definition update_out (real : bool) (c : C) (phase : Z) (x : C) (o : Z) (out : Z -> C) : (Z -> C) * bool :=
  if too_complex real c then (out, false)
  else (fun r => if (r =? o)%Z then (out r + RtoC (IZR phase) * real_part real c * x)%C else out r, true).

(* for(int j=0;j<n && err;j++) *)
Fixpoint loop_err {X} (n : nat) (step : X -> X * bool) (x : X) : X * bool :=
  match n with
  | O => (x, true)
  | S n' => let (x', ok) := step x in if ok then loop_err n' step x' else (x', false)
  end.

(* general_basis_get_vec.h:72-110 project_from_rep, 113-152 project_from_rep_basis, 238-276 project_to_rep: the state s and the
   factor c are passed by value, phase and out by reference.  upd s phase c out is the call of update_out_dense; dir = 1 or -1:
   cc = exp(i dir q); rem = nt - depth.  The code writes the innermost level as a loop around upd, which is what rem = 1 gives;
   nt = 0 gives a single upd. *)
Fixpoint walk_rep {X} (upd : N -> Z -> C -> X -> X * bool) (dir : R) (pers : list nat) (qs : list Z) (ms : smap) (rem depth : nat)
    (s : N) (c : C) (po : Z * X) : (Z * X) * bool :=
  match rem with
  | O => let (out, ok) := upd s (fst po) c (snd po) in ((fst po, out), ok)
  | S rem' =>
    let cc := cis (dir * ((2 * PI * IZR (nth depth qs 0%Z)) / INR (nth depth pers 0%nat))) in
    let (st, ok) := loop_err (nth depth pers 0) (fun st : N * C * (Z * X) =>
        let (po', ok) := walk_rep upd dir pers qs ms rem' (S depth) (fst (fst st)) (snd (fst st)) (snd st) in
        if ok then ((fst (ms depth (fst (fst st))), (snd (fst st) * cc)%C, ((fst po' * snd (ms depth (fst (fst st))))%Z, snd po')), true)
        else ((fst (fst st), snd (fst st), po'), false)) (s, c, po) in
    (snd st, ok)
  end.

Definition project_from_rep real idx pers qs ms nt (x : C) (s : N) (c : C) (out : Z -> C) : (Z -> C) * bool :=
  let (po, ok) := walk_rep (fun s ph c out => update_out real c ph x (idx s) out) (-1) pers qs ms nt 0 s c (1%Z, out) in (snd po, ok).
Definition to_walk real idx pers qs ms nt (dir : R) (inp : Z -> C) (s : N) (c : C) (out : Z -> C) (k : Z) : (Z -> C) * bool :=
  let (po, ok) := walk_rep (fun s ph c out => update_out real c ph (inp (idx s)) k out) dir pers qs ms nt 0 s c (1%Z, out) in (snd po, ok).
Definition project_to_rep real idx pers qs ms nt := to_walk real idx pers qs ms nt 1.

(* general_basis_get_vec.h:281-320 project_to_rep_basis: cc = exp(-iq), and for more than one map the levels below the first
   are those of project_from_rep_basis, with out shifted to row k: writing to out[k + position] the value taken from in[0] *)
Definition project_to_rep_basis real idx pers qs ms nt (inp : Z -> C) (s : N) (c : C) (out : Z -> C) (k : Z) : (Z -> C) * bool :=
  if nt <=? 1 then to_walk real idx pers qs ms nt (-1) inp s c out k
  else let (po, ok) := walk_rep (fun s ph c out => update_out real c ph (inp 0%Z) (k + idx s)%Z out) (-1) pers qs ms nt 0 s c (1%Z, out) in (snd po, ok).

(* general_basis_get_vec.h:190-230 project_from_general_dense and 155-187 ..._pcon_dense: the parallel loop over the states of the
   basis, in any order (the rows written are disjoint, see P_projop.from_disjoint) *)
Definition rep_factor (pers : list nat) (n : Z) : C := RtoC (1 / sqrt (IZR n * INR (fold_left Nat.mul pers 1%nat))).
Fixpoint project_from_dense real idx pers qs ms nt (basis : list (N * Z)) (order : list nat) (v : nat -> C) (out : Z -> C) : (Z -> C) * bool :=
  match order with
  | [] => (out, true)
  | k :: order' =>
    let e := nth k basis (0%N, 0%Z) in
    let (out', ok) := project_from_rep real idx pers qs ms nt (v k) (fst e) (rep_factor pers (snd e)) out in
    if ok then project_from_dense real idx pers qs ms nt basis order' v out' else (out', false)
  end.
(* general_basis_get_vec.h:358-392 project_to_general_dense and 323-355 ..._pcon_dense; rep_to = project_to_rep or project_to_rep_basis *)
Fixpoint project_to_dense (rep_to : N -> C -> (Z -> C) -> Z -> (Z -> C) * bool) pers (basis : list (N * Z)) (order : list nat) (out : Z -> C) : (Z -> C) * bool :=
  match order with
  | [] => (out, true)
  | k :: order' =>
    let e := nth k basis (0%N, 0%Z) in
    let (out', ok) := rep_to (fst e) (rep_factor pers (snd e)) out (Z.of_nat k) in
    if ok then project_to_dense rep_to pers basis order' out' else (out', false)
  end.

(* general_basis_core.pyx:16-80 get_proj_helper, 86-150 get_proj_pcon_helper, for one column: the entries (basis[i], sign[i], c[i]) of
   the three arrays, which are modified in place, and the column of P; nnt = nt - depth.  false: TypeError *)
Definition pstate : Type := (N * Z * C) * (Z -> C).
Fixpoint proj_helper (real : bool) (idx : N -> Z) (pers : list nat) (qs : list Z) (ms : smap) (nnt depth : nat) (st : pstate) : pstate * bool :=
  match nnt with
  | O => (st, true)
  | S nnt' =>
    let q := ((2 * PI * IZR (nth depth qs 0%Z)) / INR (nth depth pers 0%nat))%R in
    let cc : C := (cos q, (- sin q)%R) in
    loop_err (nth depth pers 0) (fun st : pstate =>
      if too_complex real cc then (st, false)
      else
        let (st1, ok) := match nnt' with
          | O => let '((s, sign, c), P) := st in
                 let c1 := (c * RtoC (IZR sign))%C in
                 let P' := fun r => if (r =? idx s)%Z then (P r + c1)%C else P r in
                 (((s, sign, (c1 * (RtoC (IZR sign) * real_part real cc))%C), P'), true)
          | S _ => let '(((s, sign, c), P), ok) := proj_helper real idx pers qs ms nnt' (S depth) st in
                   (((s, sign, if ok then (c * real_part real cc)%C else c), P), ok)
          end in
        if ok then let '((s, sign, c), P) := st1 in (((fst (ms depth s), (sign * snd (ms depth s))%Z, c), P), true) else (st1, false)) st
  end.
(* base_general.py:464-477 and general_basis_core.pyx:618-706 get_proj, one column; first component: the basis array afterwards *)
Definition get_proj_column (real : bool) (pcon : bool) idx pers qs ms nt (k : nat) (s : N) (n : Z) : (N * bool) * (Z -> C) :=
  let c := rep_factor pers n in
  if nt =? 0 then
    if pcon then ((s, true), fun r => if (r =? Z.of_nat k)%Z then C1 else C0)
    else ((s, true), fun r => if (r =? idx s)%Z then c else C0)
  else let '(((s', _, _), P), ok) := proj_helper real idx pers qs ms nt 0 ((s, 1%Z, c), fun _ => C0) in ((s', ok), P).

(* base_general.py:455-477 get_proj(dtype, pcon): M = sps**N states; bp = Some basis_pcon when pcon=True (and the basis has a single
   particle sector; for several sectors the raise at 462 is unreachable and pcon is ignored).  Result: the array basis afterwards,
   whether it returned, and the columns. *)
Definition row_index (M : nat) (bp : option (list N)) : N -> Z := match bp with None => full_index M | Some b => pcon_index b end.
Definition row_count (M : nat) (bp : option (list N)) : nat := match bp with None => M | Some b => length b end.
Definition get_proj real M bp pers qs ms nt (basis : list (N * Z)) : (list N * bool) * (nat -> Z -> C) :=
  let col k := let e := nth k basis (0%N, 0%Z) in
    get_proj_column real (match bp with None => false | Some _ => true end) (row_index M bp) pers qs ms nt k (fst e) (snd e) in
  ((map (fun k => fst (fst (col k))) (seq 0 (length basis)), forallb (fun k => snd (fst (col k))) (seq 0 (length basis))), fun k => snd (col k)).

(* base_general.py:583-671 project_from(v0, sparse, pcon), one column of v0; order: the order in which the threads treat the states *)
Definition project_from (real sparse : bool) order M bp pers qs ms nt (basis : list (N * Z)) (v : nat -> C) : option (nat -> C) :=
  if sparse then
    let P := get_proj real M bp pers qs ms nt basis in
    if snd (fst P) then Some (fun r => Csum (seq 0 (length basis)) (fun k => snd P k (Z.of_nat r) * v k)%C) else None
  else let (out, ok) := project_from_dense real (row_index M bp) pers qs ms nt basis order v (fun _ => C0) in
    if ok then Some (fun r => out (Z.of_nat r)) else None.
(* base_general.py:480-568 project_to(v0, sparse, pcon), one column of v0; line 561: get_proj(...).T.dot(v0) *)
Definition project_to (real sparse : bool) order M bp pers qs ms nt (basis : list (N * Z)) (v : nat -> C) : option (nat -> C) :=
  if sparse then
    let P := get_proj real M bp pers qs ms nt basis in
    if snd (fst P) then Some (fun k => Csum (seq 0 (row_count M bp)) (fun r => snd P k (Z.of_nat r) * v r)%C) else None
  else
    let rep_to := match bp with None => project_to_rep real (row_index M bp) pers qs ms nt | Some _ => project_to_rep_basis real (row_index M bp) pers qs ms nt end in
    let (out, ok) := project_to_dense (rep_to (fun r => v (Z.to_nat r))) pers basis order (fun _ => C0) in
    if ok then Some (fun k => out (Z.of_nat k)) else None.
