(* Model of the parallel action of the matrix exponential:
   /repo/quspin/tools/expm_multiply_parallel_core/source/expm_multiply_parallel.h, math_functions.h, csr_utils.h and
   ../expm_multiply_parallel_core.py (dot, _calculate_partition).
   Simplifications: exact arithmetic (the real types are complex numbers with imaginary part 0); the arrays Ap, Aj, Ax do not overlap with F and work;
   the version compiled without OpenMP (18-48, 121) is not modelled. *)
From Verif Require Import AuxN SpecC SpecSparse SpecExpm M_sparse.
Local Open Scope nat_scope.

(* math_functions.h:60-81 compare_abs (40-58 is the same with RR < R); std::hypot is the modulus *)
Definition compare_abs (r : R) (b : C) : R :=
  let x := Rabs (fst b) in let y := Rabs (snd b) in
  if Rle_dec (x + y) r then r
  else if Rlt_dec r x then Cabs b
  else if Rlt_dec r y then Cabs b
  else if Rle_dec (Cabs b) r then r else Cabs b.
(* std::max_element over t[0], ..., t[T-1] *)
Fixpoint max_element (T : nat) (t : nat -> R) : R :=
  match T with O => 0%R | S O => t 0 | S T' => Rmax (max_element T' t) (t T') end.

(* ---- the shared arrays and the accesses of a thread ---- *)
Inductive arr := AF | AB1 | AB2.
Definition arr_eqb (a b : arr) : bool := match a, b with AF, AF => true | AB1, AB1 => true | AB2, AB2 => true | _, _ => false end.
Definition amem := arr -> mem.
Definition aupd (m : amem) (x : arr) (p : Z) (v : C) : amem := fun y q => if (arr_eqb y x && (q =? p)%Z)%bool then v else m y q.
(* private variables of a thread: values read from B2[k], B1[k], F[k], then b2, f; and the two running maxima *)
Record regs := { r2 : C; r1 : C; rf : C; rb : C; rc : R; rd : R }.
(* one access to shared memory: read x[p] into the registers, or write x[p] (and update registers) *)
Inductive ins := Rd (x : arr) (p : Z) (get : C -> regs -> regs) | Wr (x : arr) (p : Z) (val : regs -> C) (post : regs -> regs).
Definition exec (i : ins) (m : amem) (r : regs) : amem * regs :=
  match i with Rd x p get => (m, get (m x p) r) | Wr x p val post => (aupd m x p (val r), post r) end.
(* all interleavings of the accesses of the threads 0 .. P-1 up to the next barrier *)
Inductive run (P : nat) : (nat -> list ins * regs) -> amem -> (nat -> regs) -> amem -> Prop :=
| run_done : forall ths m r, (forall t, t < P -> ths t = ([], r t)) -> run P ths m r m
| run_step : forall ths m r' m' t i l r, t < P -> ths t = (i :: l, r) ->
    run P (fun t' => if t' =? t then (l, snd (exec i m r)) else ths t') (fst (exec i m r)) r' m' -> run P ths m r' m'.
Definition r_init : regs := {| r2 := C0; r1 := C0; rf := C0; rb := C0; rc := 0; rd := 0 |}.

(* expm_multiply_parallel.h:89-91: the indices begin .. end-1 of thread tid *)
Definition chunk (n num_threads tid : nat) : list nat :=
  let items_per_thread := (n + num_threads - 1) / num_threads in
  let b := Nat.min (items_per_thread * tid) n in
  let e := Nat.min (b + items_per_thread) n in
  seq b (e - b).
(* 97-101 *)
Definition init_body (k : nat) : list ins :=
  [Rd AF (Zn k) (fun v r => {| r2 := r2 r; r1 := r1 r; rf := v; rb := rb r; rc := rc r; rd := rd r |});
   Wr AB1 (Zn k) rf (fun r => {| r2 := r2 r; r1 := r1 r; rf := rf r; rb := rb r; rc := compare_abs (rc r) (rf r); rd := rd r |})].
(* 127-134 *)
Definition term_body (b : C) (k : nat) : list ins :=
  [Rd AB2 (Zn k) (fun v r => {| r2 := v; r1 := r1 r; rf := rf r; rb := rb r; rc := rc r; rd := rd r |});
   Rd AB1 (Zn k) (fun v r => {| r2 := r2 r; r1 := v; rf := rf r; rb := (r2 r - b * v)%C; rc := rc r; rd := rd r |});
   Rd AF (Zn k) (fun v r => {| r2 := r2 r; r1 := r1 r; rf := (v + rb r)%C; rb := rb r; rc := rc r; rd := rd r |});
   Wr AF (Zn k) rf (fun r => r);
   Wr AB1 (Zn k) rb (fun r => {| r2 := r2 r; r1 := r1 r; rf := rf r; rb := rb r; rc := compare_abs (rc r) (rb r); rd := compare_abs (rd r) (rf r) |})].
(* 151-156 *)
Definition end_body (eta : C) (k : nat) : list ins :=
  [Rd AF (Zn k) (fun v r => {| r2 := r2 r; r1 := r1 r; rf := (v * eta)%C; rb := rb r; rc := rc r; rd := rd r |});
   Wr AF (Zn k) rf (fun r => r);
   Wr AB1 (Zn k) rf (fun r => {| r2 := r2 r; r1 := r1 r; rf := rf r; rb := rb r; rc := compare_abs (rc r) (rf r); rd := rd r |})].
(* a loop over the chunk of every thread of a team of P threads; num_threads is omp_get_max_threads() *)
Definition phase (P num_threads n : nat) (body : nat -> list ins) (m : amem) (r' : nat -> regs) (m' : amem) : Prop :=
  run P (fun t => (flat_map body (chunk n num_threads t), r_init)) m r' m'.
(* the entries of c2_threads (c1_threads, c3_threads) after the threads of the team stored theirs; the others keep their value *)
Definition stored (P : nat) (val : nat -> R) (old : nat -> R) : nat -> R := fun t => if t <? P then val t else old t.

Section Expm.
Variables (P num_threads n : nat) (Ap Aj : nat -> nat) (Ax : nat -> C) (s m_star : nat) (tol : R) (mu a : C).
(* division of a by T2(j*s) *)
Definition over (z : C) (d : nat) : C := (RtoC (/ INR d) * z)%C.
(* 116-148 one iteration j of the inner loop: c1 on entry, c1 on exit, exit_loop; all threads see the same exit_loop because of the barriers 138, 147 *)
Definition exp_term (j : nat) (m : amem) (c1 : R) (m' : amem) (c1' : R) (exit_loop : bool) : Prop :=
  exists y r' old2 old3,
    csrmv_merge true n Ap Aj Ax (over a (j * s)) 1 (m AB1) 1 P (m AB2) y /\
    phase P num_threads n (term_body (over (a * mu)%C (j * s))) (fun x => match x with AB2 => y | _ => m x end) r' m' /\
    (forall t, P <= t -> old2 t = 0%R /\ old3 t = 0%R) /\
    let c2 := max_element num_threads (stored P (fun t => rc (r' t)) old2) in
    let c3 := max_element num_threads (stored P (fun t => rd (r' t)) old3) in
    exit_loop = (if Rle_dec (c1 + c2) (tol * c3) then true else false) /\ c1' = c2.
(* 116: for(int j=1;j<m_star+1 && !exit_loop;j++); cnt iterations are left *)
Inductive exp_terms : nat -> nat -> amem -> R -> amem -> R -> Prop :=
| terms_end : forall j m c1, exp_terms 0 j m c1 m c1
| terms_exit : forall cnt j m c1 m' c1', exp_term j m c1 m' c1' true -> exp_terms (S cnt) j m c1 m' c1'
| terms_go : forall cnt j m c1 m1 c2 m' c1', exp_term j m c1 m1 c2 false -> exp_terms cnt (S j) m1 c2 m' c1' -> exp_terms (S cnt) j m c1 m' c1'.
(* 109-164 one iteration i of the outer loop *)
Definition outer (m : amem) (c1 : R) (m' : amem) (c1' : R) : Prop :=
  exists m1 c r' old1, exp_terms m_star 1 m c1 m1 c /\
    phase P num_threads n (end_body (Cexp (a * over mu s))) m1 r' m' /\
    (forall t, P <= t -> old1 t = 0%R) /\
    c1' = max_element num_threads (stored P (fun t => rc (r' t)) old1).
Inductive outers : nat -> amem -> R -> amem -> R -> Prop :=
| outers_end : forall m c1, outers 0 m c1 m c1
| outers_step : forall i m c1 m1 c m' c1', outer m c1 m1 c -> outers i m1 c m' c1' -> outers (S i) m c1 m' c1'.
(* 55-166: some run of a team of P threads leads from the arrays m (F, and the content of work) to m'; 103-107: c1_threads still has its initial
   zeros when its maximum is taken, because c1_thread has not been stored in it *)
Definition expm_multiply (m m' : amem) : Prop :=
  exists m1 r' c1', phase P num_threads n init_body m r' m1 /\
    outers s m1 (max_element num_threads (fun _ => 0%R)) m' c1'.
End Expm.

(* csr_utils.h:4-28 (n_row = n_col = n) *)
Definition csr_trace (n : nat) (Ap Aj : nat -> nat) (Ax : nat -> C) : C :=
  loop 0 n (fun i trace => (trace + loop (Ap i) (Ap (S i)) (fun jj diag => if Aj jj =? i then (diag + Ax jj)%C else diag) C0)%C) C0.
(* 133-159 *)
Definition csr_1_norm (n : nat) (Ap Aj : nat -> nat) (shift : C) (Ax : nat -> C) : R :=
  max_element n (fun i => loop (Ap i) (Ap (S i)) (fun jj sum => if Aj jj =? i then (sum + Cabs (shift + Ax jj)%C)%R else (sum + Cabs (Ax jj))%R) 0%R).
(* expm_multiply_parallel_core.py:82 *)
Definition trace_shift (n : nat) Ap Aj Ax : C := over (csr_trace n Ap Aj Ax) n.
(* 217-223 _calculate_partition; fragment is the pair returned by scipy's _fragment_3_1 *)
Definition partition (a : C) (norm : R) (fragment : nat * nat) : nat * nat :=
  if Req_EM_T (Cabs a * norm) 0 then (0, 1) else fragment.
(* 147-215 dot: F starts with v, work is any array of length 2 n *)
Definition expm_dot (P num_threads n : nat) Ap Aj Ax (a : C) (tol : R) (fragment : nat * nat) (v : vec) (res : vec) : Prop :=
  let mu := trace_shift n Ap Aj Ax in
  let (m_star, s) := partition a (csr_1_norm n Ap Aj mu Ax) fragment in
  exists m m', (forall k, k < n -> m AF (Zn k) = v k) /\ expm_multiply P num_threads n Ap Aj Ax s m_star tol mu a m m' /\ (forall k, k < n -> res k = m' AF (Zn k)).
