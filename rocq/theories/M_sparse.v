(* Model of the sparse matrix products:
   /repo/quspin/tools/matvec/_oputils/csr.h, csc.h, dia.h, csrmv_merge.h, utils.h, openmp.h, ../_oputils.pyx:490-595, ../matvec_core.py.
   Arrays are functions from addresses (in units of the item size) to values; pointers are offsets into them.  Index arrays
   (Ap, Aj, offsets) are functions from nat.  Simplifications: arithmetic is exact, the index type does not overflow, x and y do not
   overlap, byte strides are multiples of the item size and not negative (the division of a negative stride by sizeof is not modelled). *)
From Verif Require Import AuxN SpecC SpecBasis SpecSparse.
Local Open Scope nat_scope.

Definition mem := Z -> C.
Definition upd (y : mem) (p : Z) (v : C) : mem := fun q => if (q =? p)%Z then v else y q.
Definition acc (y : mem) (p : Z) (v : C) : mem := upd y p (y p + v)%C.
(* for(i = a; i < b; i++) *)
Definition loop {S : Type} (a b : nat) (body : nat -> S -> S) (st : S) : S := fold_left (fun st i => body i st) (seq a (b - a)) st.
Notation Zn := Z.of_nat.

(* utils.h:5-11 *)
Fixpoint axpy_strided (n : nat) (a : C) (xs : Z) (x : mem) (px : Z) (ys : Z) (y : mem) (py : Z) : mem :=
  match n with
  | O => y
  | S n' => axpy_strided n' a xs x (px + xs)%Z ys (acc y py (a * x px)%C) (py + ys)%Z
  end.
(* the loops that set y to zero, csc.h:17-21, 47-51, 81-87, csr.h:105-111, dia.h:27-31, 64-68, 110-116 *)
Definition zero1 (n_row : nat) (ys : Z) (y : mem) : mem := loop 0 n_row (fun i y => upd y (Zn i * ys)%Z C0) y.
Definition zero2 (n_row n_vecs : nat) (ysr ysc : Z) (y : mem) : mem :=
  loop 0 n_row (fun i y => loop 0 n_vecs (fun j y => upd y (Zn i * ysr + Zn j * ysc)%Z C0) y) y.

(* ---- CSR ---- *)
(* csr.h:38-41, 71-74: sum of a row *)
Definition row_sum (Ap Aj : nat -> nat) (Ax : nat -> C) (xs : Z) (x : mem) (k : nat) : C :=
  loop (Ap k) (Ap (S k)) (fun jj sum => (sum + Ax jj * x (Zn (Aj jj) * xs)%Z)%C) C0.
(* csr.h:56-86; csr_matvec_noomp_contig 25-54 is the case xs = ys = 1 *)
Definition csr_matvec_noomp_strided (ov : bool) (n_row : nat) Ap Aj Ax (a : C) (xs : Z) (x : mem) (ys : Z) (y : mem) : mem :=
  loop 0 n_row (fun k y =>
    if ov then upd y (Zn k * ys)%Z (a * row_sum Ap Aj Ax xs x k)%C else acc y (Zn k * ys)%Z (a * row_sum Ap Aj Ax xs x k)%C) y.
(* csr.h:90-135 (csr_matvecs_omp_strided 191-207 calls it); the state of the loops is (py, y) with py the moving pointer into y *)
Definition csr_matvecs_strided (ov : bool) (n_row n_vecs : nat) (Ap Aj : nat -> nat) (Ax : nat -> C) (a : C) (xsr xsc : Z) (x : mem) (ysr ysc : Z) (y : mem) : mem :=
  let y := if ov then zero2 n_row n_vecs ysr ysc y else y in
  if (ysc <? ysr)%Z then
    snd (loop 0 n_row (fun k st =>
      let '(py, y) := st in
      ((py + ysr)%Z, loop (Ap k) (Ap (S k)) (fun jj y => axpy_strided n_vecs (a * Ax jj)%C xsc x (xsr * Zn (Aj jj))%Z ysc y py) y)) (0%Z, y))
  else
    snd (snd (loop 0 n_vecs (fun m st =>
      let '(px, py, y) := (fst st, fst (snd st), snd (snd st)) in
      ((px + xsc)%Z, loop 0 n_row (fun k st =>
        let '(py, y) := st in
        ((py + ysr)%Z, loop (Ap k) (Ap (S k)) (fun jj y => acc y py ((a * Ax jj) * x (px + xsr * Zn (Aj jj))%Z)%C) y)) (py, y))) (0%Z, (0%Z, y)))).

(* ---- CSC ---- *)
(* csc.h:34-62; csc_matvec_noomp_contig 6-32 is the case xs = ys = 1 *)
Definition csc_matvec_noomp_strided (ov : bool) (n_row n_col : nat) (Ap Ai : nat -> nat) (Ax : nat -> C) (a : C) (xs : Z) (x : mem) (ys : Z) (y : mem) : mem :=
  let y := if ov then zero1 n_row ys y else y in
  loop 0 n_col (fun j y => loop (Ap j) (Ap (S j)) (fun ii y => acc y (Zn (Ai ii) * ys)%Z ((a * Ax ii) * x (Zn j * xs)%Z)%C) y) y.
(* csc.h:65-119 (csc_matvecs_omp_strided 205-222 calls it) *)
Definition csc_matvecs_strided (ov : bool) (n_row n_col n_vecs : nat) (Ap Ai : nat -> nat) (Ax : nat -> C) (a : C) (xsr xsc : Z) (x : mem) (ysr ysc : Z) (y : mem) : mem :=
  let y := if ov then zero2 n_row n_vecs ysr ysc y else y in
  if (ysc <? ysr)%Z then
    snd (loop 0 n_col (fun j st =>
      let '(px, y) := st in
      ((px + xsr)%Z, loop (Ap j) (Ap (S j)) (fun ii y => axpy_strided n_vecs (a * Ax ii)%C xsc x px ysc y (ysr * Zn (Ai ii))%Z) y)) (0%Z, y))
  else
    snd (snd (loop 0 n_vecs (fun m st =>
      let '(px, py, y) := (fst st, fst (snd st), snd (snd st)) in
      let y' := snd (loop 0 n_col (fun j st =>
        let '(xrow, y) := st in
        ((xrow + xsr)%Z, loop (Ap j) (Ap (S j)) (fun ii y => acc y (py + ysr * Zn (Ai ii))%Z ((a * Ax ii) * x xrow)%C) y)) (px, y)) in
      ((px + xsc)%Z, ((py + ysc)%Z, y'))) (0%Z, (0%Z, y)))).

(* ---- DIA ---- *)
(* dia.h:34-41: i_start, j_start and N (0 if not positive) of the diagonal with offset k *)
Definition dia_istart (k : Z) : Z := Z.max 0 (- k).
Definition dia_jstart (k : Z) : Z := Z.max 0 k.
Definition dia_len (n_row n_col L : nat) (k : Z) : nat := Z.to_nat (Z.min (Z.min (Zn n_row + k) (Zn n_col)) (Zn L) - dia_jstart k).
(* dia.h:51-90; dia_matvec_noomp_contig 14-48 is the case xs = ys = 1; diags is the row-major array of n_diags rows of length L *)
Definition dia_matvec_noomp_strided (ov : bool) (n_row n_col n_diags L : nat) (offsets : nat -> Z) (diags : Z -> C) (a : C) (xs : Z) (x : mem) (ys : Z) (y : mem) : mem :=
  let y := if ov then zero1 n_row ys y else y in
  loop 0 n_diags (fun i y =>
    let k := offsets i in let d0 := (Zn i * Zn L + dia_jstart k)%Z in
    loop 0 (dia_len n_row n_col L k) (fun n y =>
      acc y (dia_istart k * ys + Zn n * ys)%Z ((a * diags (d0 + Zn n)%Z) * x (dia_jstart k * xs + Zn n * xs)%Z)%C) y) y.
(* dia.h:93-169 *)
Definition dia_matvecs_strided (ov : bool) (n_row n_col n_vecs n_diags L : nat) (offsets : nat -> Z) (diags : Z -> C) (a : C) (xsr xsc : Z) (x : mem) (ysr ysc : Z) (y : mem) : mem :=
  let y := if ov then zero2 n_row n_vecs ysr ysc y else y in
  if (ysc <? ysr)%Z then
    loop 0 n_diags (fun i y =>
      let k := offsets i in let d0 := (Zn i * Zn L + dia_jstart k)%Z in
      snd (snd (loop 0 (dia_len n_row n_col L k) (fun n st =>
        let '(px, py, y) := (fst st, fst (snd st), snd (snd st)) in
        ((px + xsr)%Z, ((py + ysr)%Z, axpy_strided n_vecs (a * diags (d0 + Zn n)%Z)%C xsc x px ysc y py)))
        ((dia_jstart k * xsr)%Z, ((dia_istart k * ysr)%Z, y))))) y
  else
    loop 0 n_diags (fun i y =>
      let k := offsets i in let d0 := (Zn i * Zn L + dia_jstart k)%Z in
      snd (snd (loop 0 n_vecs (fun m st =>
        let '(px, py, y) := (fst st, fst (snd st), snd (snd st)) in
        let y' := snd (snd (loop 0 (dia_len n_row n_col L k) (fun n st =>
          let '(xrow, yrow, y) := (fst st, fst (snd st), snd (snd st)) in
          ((xrow + xsr)%Z, ((yrow + ysr)%Z, acc y yrow ((a * diags (d0 + Zn n)%Z) * x xrow)%C))) (px, (py, y)))) in
        ((px + xsc)%Z, ((py + ysc)%Z, y'))) ((dia_jstart k * xsr)%Z, ((dia_istart k * ysr)%Z, y))))) y.

(* ---- threads ---- *)
(* Accesses of one thread to y; y[p] += v is a load into the thread's register followed by a store *)
Inductive instr := Load (p : Z) | StoreAdd (p : Z) (v : C) | Store (p : Z) (v : C).
Definition exec1 (i : instr) (st : mem * C) : mem * C :=
  let (y, r) := st in
  match i with
  | Load p => (y, y p)
  | StoreAdd p v => (upd y p (r + v)%C, r)
  | Store p v => (upd y p v, r)
  end.
(* all interleavings of the threads, up to the barrier at the end of the parallel loop *)
Inductive par : list (list instr * C) -> mem -> mem -> Prop :=
| par_done : forall ths y, Forall (fun th => fst th = []) ths -> par ths y y
| par_step : forall pre i l r post y y', par (pre ++ (l, snd (exec1 i (y, r))) :: post) (fst (exec1 i (y, r))) y' -> par (pre ++ (i :: l, r) :: post) y y'.
Definition threads (progs : list (list instr)) : list (list instr * C) := map (fun p => (p, C0)) progs.
Definition assign (ov : bool) (p : Z) (v : C) : list instr := if ov then [Store p v] else [Load p; StoreAdd p v].
(* #pragma omp for: the iterations 0 .. n-1 are distributed over the threads in any way *)
Definition omp_for (n : nat) (body : nat -> list instr) (y y' : mem) : Prop :=
  exists parts, Permutation (concat parts) (seq 0 n) /\ par (threads (map (flat_map body) parts)) y y'.

(* csrmv_merge.h:29-50; row_end i = row_offsets[i+1]; the other list is 0,1,2,...; None: out of fuel *)
Fixpoint merge_path_loop (fuel : nat) (diagonal : nat) (row_end : nat -> nat) (x_min x_max : nat) : option nat :=
  match fuel with
  | O => None
  | S fuel' =>
    if x_min <? x_max then
      let pivot := (x_min + x_max) / 2 in
      if row_end pivot <=? diagonal - pivot - 1 then merge_path_loop fuel' diagonal row_end (S pivot) x_max
      else merge_path_loop fuel' diagonal row_end x_min pivot
    else Some x_min
  end.
Definition merge_path_search (diagonal a_len b_len : nat) (row_end : nat -> nat) : option (nat * nat) :=
  match merge_path_loop (S (Nat.min diagonal a_len)) diagonal row_end (diagonal - b_len) (Nat.min diagonal a_len) with
  | None => None
  | Some x_min => Some (Nat.min x_min a_len, diagonal - x_min)
  end.
(* csrmv_merge.h:88-97 (overwrite) and 125-133: the rows finished by a thread; cnt: rows left, (x, k): coordinates *)
Fixpoint merge_rows (ov : bool) (row_end Aj : nat -> nat) (Ax : nat -> C) (a : C) (xs : Z) (xv : mem) (ys : Z) (cnt x k : nat) : list instr * nat :=
  match cnt with
  | O => ([], k)
  | S cnt' =>
    let total := loop k (row_end x) (fun k s => (s + Ax k * xv (Zn (Aj k) * xs)%Z)%C) C0 in
    let (l, k') := merge_rows ov row_end Aj Ax a xs xv ys cnt' (S x) (Nat.max k (row_end x)) in
    (assign ov (Zn x * ys)%Z (a * total)%C ++ l, k')
  end.
(* 77-105 and 113-141: one iteration tid: accesses to y, row_carry_out[tid], value_carry_out[tid] *)
Definition merge_thread (ov : bool) (num_rows : nat) (Ap Aj : nat -> nat) (Ax : nat -> C) (a : C) (xs : Z) (xv : mem) (ys : Z) (num_threads tid : nat) : option (list instr * nat * C) :=
  let row_end i := Ap (S i) in
  let nnz := Ap num_rows in
  let items := num_rows + nnz in
  let per := (items + num_threads - 1) / num_threads in
  let d0 := Nat.min (per * tid) items in
  let d1 := Nat.min (d0 + per) items in
  match merge_path_search d0 num_rows nnz row_end, merge_path_search d1 num_rows nnz row_end with
  | Some (x0, k0), Some (x1, k1) =>
    let (l, k) := merge_rows ov row_end Aj Ax a xs xv ys (x1 - x0) x0 k0 in
    Some (l, x1, loop k k1 (fun k s => (s + Ax k * xv (Zn (Aj k) * xs)%Z)%C) C0)
  | _, _ => None
  end.
(* 147-152 the carry-outs of all threads but the last *)
Definition fix_up (num_rows : nat) (a : C) (ys : Z) (carry : list (nat * C)) (y : mem) : mem :=
  fold_left (fun y c => if fst c <? num_rows then acc y (Zn (fst c) * ys)%Z (a * snd c)%C else y) (firstn (length carry - 1) carry) y.
(* 52-153 csrmv_merge (xs = ys = 1) and 156-262 csrmv_merge_strided, called by all num_threads threads of a parallel region
   (csr.h:145-188); schedule(static,1) gives iteration tid to thread tid *)
Definition csrmv_merge (ov : bool) (num_rows : nat) Ap Aj Ax (a : C) (xs : Z) (xv : mem) (ys : Z) (num_threads : nat) (y y' : mem) : Prop :=
  exists res y1, Forall2 (fun tid r => merge_thread ov num_rows Ap Aj Ax a xs xv ys num_threads tid = Some r) (seq 0 num_threads) res /\
    par (threads (map (fun r => fst (fst r)) res)) y y1 /\
    y' = fix_up num_rows a ys (map (fun r => (snd (fst r), snd r)) res) y1.

(* openmp.h:12-51 atomic additions to the real and imaginary part *)
Definition atom := (Z * bool * R)%type.
Definition atomic (y : mem) (e : atom) : mem :=
  let '(p, im, v) := e in upd y p (if im then (fst (y p), snd (y p) + v)%R else (fst (y p) + v, snd (y p))%R).
Definition atomic_add (p : Z) (v : C) : list atom := [(p, false, fst v); (p, true, snd v)].
(* csc.h:129-202 csc_matvec_omp_contig (xs = ys = 1) and csc_matvec_omp_strided *)
Definition csc_matvec_omp (ov : bool) (n_row n_col : nat) (Ap Ai : nat -> nat) (Ax : nat -> C) (a : C) (xs : Z) (x : mem) (ys : Z) (y y' : mem) : Prop :=
  exists y1, (if ov then omp_for n_row (fun j => [Store (Zn j * ys)%Z C0]) y y1 else y1 = y) /\
  exists parts evs, Permutation (concat parts) (seq 0 n_col) /\
    interleave (map (flat_map (fun j => flat_map (fun ii => atomic_add (Zn (Ai ii) * ys)%Z ((a * Ax ii) * x (Zn j * xs)%Z)%C) (seq (Ap j) (Ap (S j) - Ap j)))) parts) evs /\
    y' = fold_left atomic evs y1.
(* dia.h:177-259 dia_matvec_omp_contig (xs = ys = 1) and dia_matvec_omp_strided: a barrier after every diagonal *)
Inductive dia_steps (n_row n_col L : nat) (offsets : nat -> Z) (diags : Z -> C) (a : C) (xs : Z) (x : mem) (ys : Z) : list nat -> mem -> mem -> Prop :=
| ds_nil : forall y, dia_steps n_row n_col L offsets diags a xs x ys [] y y
| ds_cons : forall i l y y1 y2,
    omp_for (dia_len n_row n_col L (offsets i)) (fun n =>
      let k := offsets i in let p := (dia_istart k * ys + Zn n * ys)%Z in
      assign false p ((a * diags (Zn i * Zn L + dia_jstart k + Zn n)%Z) * x (dia_jstart k * xs + Zn n * xs)%Z)%C) y y1 ->
    dia_steps n_row n_col L offsets diags a xs x ys l y1 y2 -> dia_steps n_row n_col L offsets diags a xs x ys (i :: l) y y2.
Definition dia_matvec_omp (ov : bool) (n_row n_col n_diags L : nat) (offsets : nat -> Z) (diags : Z -> C) (a : C) (xs : Z) (x : mem) (ys : Z) (y y' : mem) : Prop :=
  exists y1, (if ov then omp_for n_row (fun j => [Store (Zn j * ys)%Z C0]) y y1 else y1 = y) /\
    dia_steps n_row n_col L offsets diags a xs x ys (seq 0 n_diags) y1 y'.

(* ---- the python layer ---- *)
(* _oputils.pyx:62-84, 115-138, 170-195 _csr_matvec, _csc_matvec, _dia_matvec: fewer than 100 rows use the serial kernels, otherwise nthreads threads
   (all stride cases of csr.h:263-331 etc. call the kernels above);
   _other_dot 556-573 with mat_obj.dot taken to be exact; the scalar a, cast to the type of the matrix (515, 532, 547), keeps its value *)
Definition dot1 (nthreads : nat) (M : matrix) (n_row n_col : nat) (ov : bool) (a : C) (xs : Z) (x : mem) (ys : Z) (y y' : mem) : Prop :=
  match M with
  | Csr Ap Aj Ax => if n_row <? 100 then y' = csr_matvec_noomp_strided ov n_row Ap Aj Ax a xs x ys y else csrmv_merge ov n_row Ap Aj Ax a xs x ys nthreads y y'
  | Csc Ap Ai Ax => if n_row <? 100 then y' = csc_matvec_noomp_strided ov n_row n_col Ap Ai Ax a xs x ys y else csc_matvec_omp ov n_row n_col Ap Ai Ax a xs x ys y y'
  | Dia nd L off d => if n_row <? 100 then y' = dia_matvec_noomp_strided ov n_row n_col nd L off d a xs x ys y else dia_matvec_omp ov n_row n_col nd L off d a xs x ys y y'
  | Other A => y' = loop 0 n_row (fun i y => let v := (a * Csum (seq 0 n_col) (fun j => A i j * x (Zn j * xs)%Z))%C in if ov then upd y (Zn i * ys)%Z v else acc y (Zn i * ys)%Z v) y
  end.
(* _csr_dot, _csc_dot, _dia_dot, _other_dot 509-573 for one vector; out = None: a new array of zeros with stride 1 that is overwritten;
   the result is the stride and content of the returned array *)
Definition matvec_function (nthreads : nat) (M : matrix) (n_row n_col : nat) (xs : Z) (x : mem) (ov : bool) (out : option (Z * mem)) (a : C) (res : Z * mem) : Prop :=
  match out with
  | None => fst res = 1%Z /\ dot1 nthreads M n_row n_col true a xs x 1 (fun _ => C0) (snd res)
  | Some (ys, y) => fst res = ys /\ dot1 nthreads M n_row n_col ov a xs x ys y (snd res)
  end.
(* 86-113, 140-167, 197-226 _csr_matvecs, _csc_matvecs, _dia_matvecs and _other_dot for several vectors: the same kernels for every number of rows *)
Definition dotn (M : matrix) (n_row n_col n_vecs : nat) (ov : bool) (a : C) (xsr xsc : Z) (x : mem) (ysr ysc : Z) (y : mem) : mem :=
  match M with
  | Csr Ap Aj Ax => csr_matvecs_strided ov n_row n_vecs Ap Aj Ax a xsr xsc x ysr ysc y
  | Csc Ap Ai Ax => csc_matvecs_strided ov n_row n_col n_vecs Ap Ai Ax a xsr xsc x ysr ysc y
  | Dia nd L off d => dia_matvecs_strided ov n_row n_col n_vecs nd L off d a xsr xsc x ysr ysc y
  | Other A => loop 0 n_row (fun i y => loop 0 n_vecs (fun m y =>
      let v := (a * Csum (seq 0 n_col) (fun j => A i j * x (Zn j * xsr + Zn m * xsc)%Z))%C in let p := (Zn i * ysr + Zn m * ysc)%Z in if ov then upd y p v else acc y p v) y) y
  end.
(* 509-573 for several vectors; out = None: a new C-contiguous array (strides n_vecs and 1); the result is (row stride, column stride, content) *)
Definition matvecs_function (M : matrix) (n_row n_col n_vecs : nat) (xsr xsc : Z) (x : mem) (ov : bool) (out : option (Z * Z * mem)) (a : C) : Z * Z * mem :=
  match out with
  | None => (Zn n_vecs, 1%Z, dotn M n_row n_col n_vecs true a xsr xsc x (Zn n_vecs) 1 (fun _ => C0))
  | Some (ysr, ysc, y) => (ysr, ysc, dotn M n_row n_col n_vecs ov a xsr xsc x ysr ysc y)
  end.
(* matvec_core.py:47-101 the public matvec: overwrite_out, out and a are not passed on *)
Definition matvec (nthreads : nat) (M : matrix) (n_row n_col : nat) (xs : Z) (x : mem) (ov : bool) (out : option (Z * mem)) (a : C) (res : Z * mem) : Prop :=
  matvec_function nthreads M n_row n_col xs x false None C1 res.
