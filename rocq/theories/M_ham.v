(* Model of the arithmetic of /repo/quspin/operators/hamiltonian_core.py.  Matrices live in a store, so that sharing of matrices between operators
   is visible.  Simplifications: all numbers have one data type; entries of a sparse matrix are stored once; a matrix is dense (ndarray) or sparse
   (csr, csc or dia, which behave alike here).  None is an exception. *)
From Verif Require Import AuxN SpecC SpecExpm SpecFunc SpecHam M_func.
Local Open Scope nat_scope.

(* ---- numpy and scipy ---- *)
Record mat := { dense : bool; ent : cmat }.
Record store := { cells : nat -> mat; next : nat }.
(* a matrix object: the array it uses, and whether it is a transposed view of it *)
Record ref := { buf : nat; tr : bool }.
Definition tmat (t : bool) (m : mat) : mat := if t then {| dense := dense m; ent := mat_T (ent m) |} else m.
Definition get (s : store) (r : ref) : mat := tmat (tr r) (cells s (buf r)).
Definition act (A : Type) := store -> option (store * A).
Definition ret {A} (a : A) : act A := fun s => Some (s, a).
Definition abind {A B} (x : act A) (f : A -> act B) : act B := fun s => match x s with Some (s', a) => f a s' | None => None end.
Notation "'run' x <- a ; b" := (abind a (fun x => b)) (at level 200, x name, a at level 100, b at level 200).
Definition lift {A} (x : option A) : act A := fun s => match x with Some a => Some (s, a) | None => None end.
Definition fail {A} : act A := fun _ => None.
Definition read (r : ref) : act mat := fun s => Some (s, get s r).
Definition alloc (m : mat) : act ref := fun s =>
  Some ({| cells := fun b => if b =? next s then m else cells s b; next := S (next s) |}, {| buf := next s; tr := false |}).
Definition write (r : ref) (m : mat) : act unit := fun s =>
  Some ({| cells := fun b => if b =? buf r then tmat (tr r) m else cells s b; next := next s |}, tt).
Fixpoint for_ {A B} (l : list A) (body : A -> B -> act B) (b : B) : act B :=
  match l with [] => ret b | a :: l' => run b' <- body a b; for_ l' body b' end.

(* x += y, x -= y: ndarray with ndarray is done in place; scipy has no in-place sum, the name is bound to the new object *)
Definition iop (op : cmat -> cmat -> cmat) (x : ref) (y : mat) : act ref :=
  run m <- read x;
  if (dense m && dense y)%bool then (run u <- write x {| dense := true; ent := op (ent m) (ent y) |}; ret x)
  else alloc {| dense := dense m || dense y; ent := op (ent m) (ent y) |}.
Definition iadd := iop mat_add.
Definition isub := iop mat_sub.
(* x *= scalar: in place for ndarray and for scipy's matrices (data *= scalar) *)
Definition iscale (c : C) (x : ref) : act ref :=
  run m <- read x; run u <- write x {| dense := dense m; ent := mat_scale c (ent m) |}; ret x.
(* -x; a copy of x; x.T (shares the data); x.conj() *)
Definition neg (x : ref) : act ref := run m <- read x; alloc {| dense := dense m; ent := mat_opp (ent m) |}.
Definition copy_of (x : ref) : act ref := run m <- read x; alloc m.
Definition view_T (x : ref) : ref := {| buf := buf x; tr := negb (tr x) |}.
Definition conj_of (x : ref) : act ref := run m <- read x; alloc {| dense := dense m; ent := mat_conj (ent m) |}.

Section Ham.
Variable n : nat.
(* x * y: elementwise for two ndarrays, otherwise the matrix product *)
Definition star (x y : mat) : mat :=
  if (dense x && dense y)%bool then {| dense := true; ent := fun i j => (ent x i j * ent y i j)%C |}
  else {| dense := dense x || dense y; ent := mat_mul n (ent x) (ent y) |}.
(* x.dot(y): numpy does not know sparse matrices, the result has no numerical data type and _check_almost_zero raises ValueError *)
Definition dot (x y : mat) : option mat :=
  if (dense x && negb (dense y))%bool then None else Some {| dense := dense x || dense y; ent := mat_mul n (ent x) (ent y) |}.
(* 2507-2512, 2516-2521, 2527-2532, 2550-2555: dot, * or matmul depending on the formats *)
Definition product (x y : mat) : mat := {| dense := dense x || dense y; ent := mat_mul n (ent x) (ent y) |}.
(* _make_hamiltonian.py:12-19 *)
Variable atol : R.
Definition almost_zero (m : mat) : bool :=
  forallb (fun i => forallb (fun j => if Rle_dec (Cabs (ent m i j)) atol then true else false) (seq 0 n)) (seq 0 n).
Definition zero_sparse : mat := {| dense := false; ent := fun _ _ => C0 |}.

(* ---- the operator: {func : matrix} in insertion order ---- *)
Variables (F Args : Type).
Variable h : hashing F Args.
Variable fuel : nat.
Notation fn := (fn F Args).
Definition dict := list (fn * ref).
Definition same_key (k : Z) (e : fn * ref) : bool := match hash h (fst e) with Some k' => (k' =? k)%Z | None => false end.
Definition lookup (d : dict) (f : fn) : option (option ref) :=
  do k <- hash h f; Some (match find (same_key k) d with Some e => Some (snd e) | None => None end).
(* d[f] = r keeps the key that is already there *)
Fixpoint put_at (d : dict) (k : Z) (f : fn) (r : ref) : dict :=
  match d with [] => [(f, r)] | e :: d' => if same_key k e then (fst e, r) :: d' else e :: put_at d' k f r end.
Definition put (d : dict) (f : fn) (r : ref) : option dict := do k <- hash h f; Some (put_at d k f r).
Fixpoint pop_at (d : dict) (k : Z) : dict := match d with [] => [] | e :: d' => if same_key k e then d' else e :: pop_at d' k end.
Definition pop (d : dict) (f : fn) : option dict := do k <- hash h f; Some (pop_at d k).
Record ham := { static : ref; dyn : dict; is_dense : bool }.
Definition set_dense (b : bool) (H : ham) : ham := {| static := static H; dyn := dyn H; is_dense := b |}.

(* 552-558 *)
Definition check_is_dense (st : ref) (d : dict) : act ham := fun s =>
  Some (s, {| static := st; dyn := d; is_dense := negb (negb (dense (get s st)) && forallb (fun e => negb (dense (get s (snd e)))) d) |}).
(* __init__ 203-452 for one matrix in static_list and pairs [matrix, func] in dynamic_list: the static part is a sum with an empty matrix (a new
   object); dynamic matrices are copied or not *)
Definition make (copy : bool) (st : ref) (d : list (fn * ref)) : act ham :=
  run m <- read st;
  run st' <- alloc m;
  run d' <- for_ d (fun e d' =>
      run r <- (if copy then copy_of (snd e) else ret (snd e));
      run found <- lift (lookup d' (fst e));
      match found with
      | Some r' => run m' <- read r; run r'' <- iadd r' m'; lift (put d' (fst e) r'')
      | None => lift (put d' (fst e) r)
      end) [];
  check_is_dense st' d'.
(* 1990-1992 *)
Definition astype (copy : bool) (H : ham) : act ham :=
  run st <- (if copy then copy_of (static H) else ret (static H));
  run d <- for_ (dyn H) (fun e d => run r <- (if copy then copy_of (snd e) else ret (snd e)); ret (d ++ [(fst e, r)])) [];
  make false st d.
(* 1997-1999 *)
Definition copy_ham (H : ham) : act ham := make true (static H) (dyn H).
(* 1852-1854, 1874-1876, 1901, 2053-2054 (copy is True by default in __init__) *)
Definition transpose (copy : bool) (H : ham) : act ham := make copy (view_T (static H)) (map (fun e => (fst e, view_T (snd e))) (dyn H)).
Definition conjugate (H : ham) : act ham :=
  run d <- for_ (dyn H) (fun e d => run r <- conj_of (snd e); run g <- lift (fconj (fst e)); ret (d ++ [(g, r)])) [];
  run st <- conj_of (static H);
  make true st d.
Definition getH (copy : bool) (H : ham) : act ham := run H' <- conjugate H; transpose copy H'.
Definition negate (H : ham) : act ham :=
  run d <- for_ (dyn H) (fun e d => run r <- neg (snd e); ret (d ++ [(fst e, r)])) [];
  run st <- neg (static H);
  make true st d.

(* if _check_almost_zero(new._static): new._static = dia_matrix(shape) *)
Definition clean (r : ref) : act ref := run m <- read r; if almost_zero m then alloc zero_sparse else ret r.
(* 2357-2365, 2415-2425: the entry of f, which is r, is replaced by r + Hd (r - Hd) and dropped if it vanishes *)
Definition merge (op : cmat -> cmat -> cmat) (d : dict) (f : fn) (r : ref) (Hd : mat) : act dict :=
  run r' <- iop op r Hd;
  run d' <- lift (put d f r');
  run m <- read r';
  if almost_zero m then lift (pop d' f) else ret d'.
Definition add_terms (od : dict) (d : dict) : act dict :=
  for_ od (fun e d => run found <- lift (lookup d (fst e));
    match found with Some r => run Hd <- read (snd e); merge mat_add d (fst e) r Hd | None => lift (put d (fst e) (snd e)) end) d.
(* 2343-2371 *)
Definition add_ham (self other : ham) : act ham :=
  run new <- astype true self;
  run o <- read (static other);
  run st <- iadd (static new) o;
  run st <- clean st;
  run d <- add_terms (dyn other) (dyn new);
  check_is_dense st d.
(* 2373-2405 *)
Definition iadd_ham (self other : ham) : act ham :=
  run o <- read (static other);
  run st <- iadd (static self) o;
  run st <- clean st;
  run d <- add_terms (dyn other) (dyn self);
  check_is_dense st d.
(* 2407-2438 *)
Definition sub_ham (self other : ham) : act ham :=
  run new <- astype true self;
  run o <- read (static other);
  run st <- isub (static new) o;
  run st <- clean st;
  run d <- for_ (dyn other) (fun e d => run found <- lift (lookup d (fst e));
    match found with Some r => run Hd <- read (snd e); merge mat_sub d (fst e) r Hd | None => run r <- neg (snd e); lift (put d (fst e) r) end) (dyn new);
  check_is_dense st d.
(* 2440-2468: the name new does not exist (2458) *)
Definition isub_ham (self other : ham) : act ham :=
  run o <- read (static other);
  run st <- isub (static self) o;
  run st <- clean st;
  run d <- for_ (dyn other) (fun e d => run found <- lift (lookup d (fst e));
    match found with Some r => fail | None => run r <- neg (snd e); lift (put d (fst e) r) end) (dyn self);
  check_is_dense st d.

(* the loops over list(new._dynamic) in 2658-2662, 2682-2691, 2708-2717, 2739-2746, 2765-2772, 2891-2896: every matrix is replaced, vanishing ones are dropped *)
Definition replace_terms (f : ref -> act ref) (d : dict) : act dict :=
  for_ d (fun e d => run r <- f (snd e); run d' <- lift (put d (fst e) r); run m <- read r; if almost_zero m then lift (pop d' (fst e)) else ret d') d.
(* 2648-2667 *)
Definition mul_sparse (self : ham) (other : mat) : act ham :=
  run new <- astype true self;
  run m <- read (static new); run st <- alloc (star m other); run st <- clean st;
  run d <- replace_terms (fun r => run m <- read r; alloc (star m other)) (dyn new);
  check_is_dense st d.
(* 2669-2698 *)
Definition rmul_sparse (self : ham) (other : mat) : act ham :=
  run new <- astype true self;
  run m <- read (static new); run st <- alloc (star other m); run st <- clean st;
  run d <- replace_terms (fun r => run m <- read r; run p <- lift (dot other m); alloc p) (dyn new);
  check_is_dense st d.
(* 2700-2722 *)
Definition imul_sparse (self : ham) (other : mat) : act ham :=
  run m <- read (static self); run st <- alloc (star m other); run st <- clean st;
  run d <- replace_terms (fun r => run m <- read r; run p <- lift (dot other m); alloc p) (dyn self);
  check_is_dense st d.
(* 2728-2751, 2753-2777 *)
Definition scale_terms (self : ham) (c : C) : act ham :=
  run st <- iscale c (static self); run st <- clean st;
  run d <- replace_terms (iscale c) (dyn self);
  check_is_dense st d.
Definition mul_scalar (self : ham) (c : C) : act ham := run new <- astype true self; scale_terms new c.
Definition imul_scalar (self : ham) (c : C) : act ham := scale_terms self c.

(* 2492-2571: the product of two operators with dynamic terms; p is added to the entry of f of the new dictionary *)
Definition accumulate (d : dict) (f : fn) (p : mat) : act dict :=
  run found <- lift (lookup d f);
  match found with
  | Some r => merge mat_add d f r p
  | None => if almost_zero p then ret d else run r <- alloc p; lift (put d f r)
  end.
Definition imul_dynamic (self other : ham) : act ham :=
  run s1 <- read (static self); run s2 <- read (static other);
  run st <- alloc (product s1 s2);
  (* static * dynamic: 2515-2524 *)
  run d <- for_ (dyn other) (fun e d => run m <- read (snd e);
     let p := product s1 m in if almost_zero p then ret d else run r <- alloc p; lift (put d (fst e) r)) [];
  (* dynamic * static: 2527-2545 *)
  run d <- for_ (dyn self) (fun e d => run m <- read (snd e); accumulate d (fst e) (product m s2)) d;
  (* dynamic * dynamic: 2548-2569 *)
  run d <- for_ (dyn self) (fun e1 d => for_ (dyn other) (fun e2 d =>
     run m1 <- read (snd e1); run m2 <- read (snd e2);
     run f12 <- lift (fmul h fuel (fst e1) (fst e2));
     accumulate d f12 (product m1 m2)) d) d;
  ret {| static := st; dyn := d; is_dense := is_dense self || is_dense other |}.
Definition dynamic (H : ham) : bool := negb (length (dyn H) =? 0).
(* 2492-2577 *)
Definition imul_ham (self other : ham) : act ham :=
  if (dynamic self && dynamic other)%bool then imul_dynamic self other
  else if dynamic self then (run m <- read (static other); imul_sparse self m)
  else if dynamic other then
    (run oT <- transpose false other; run m <- read (view_T (static self)); run p <- imul_sparse oT m; transpose false p)
  else (run m <- read (static other); imul_sparse self m).
(* 2470-2479 *)
Definition mul_ham (self other : ham) : act ham :=
  if (dynamic self && dynamic other)%bool then (run new <- astype false self; imul_ham new other)
  else if dynamic self then (run m <- read (static other); mul_sparse self m)
  else if dynamic other then (run m <- read (static self); rmul_sparse other m)
  else (run m <- read (static other); mul_sparse self m).

(* 2583-2599, 2616-2631, 2783-2806, 2828-2853: sum and difference with a matrix; with an ndarray the flag of the operand itself is set (2793, 2840):
   the first component is the operand after the call *)
Definition add_matrix (op : cmat -> cmat -> cmat) (self : ham) (other : mat) : act (ham * ham) :=
  run new <- astype true self;
  run st <- iop op (static new) other;
  run st <- clean st;
  run H <- check_is_dense st (dyn new);
  ret (if dense other then set_dense true self else self, H).
(* 2601-2614, 2633-2646, 2808-2826; 2855-2873 for an ndarray and -=: the name new does not exist (2867) *)
Definition iadd_matrix (self : ham) (other : mat) : act ham :=
  run st <- iadd (static self) other; run st <- clean st; check_is_dense st (dyn self).
Definition isub_matrix (self : ham) (other : mat) : act ham :=
  if dense other then fail else run st <- isub (static self) other; run st <- clean st; check_is_dense st (dyn self).
(* 2875-2902, 2904-2941 *)
Definition mul_dense (self : ham) (other : mat) : act (ham * ham) :=
  run new <- astype true self;
  run m <- read (static new); run st <- alloc (product m other); run st <- clean st;
  run d <- replace_terms (fun r => run m <- read r; alloc (product m other)) (dyn new);
  run H <- check_is_dense st d;
  ret (set_dense true self, H).
Definition rmul_dense (self : ham) (other : mat) : act (ham * ham) :=
  run new <- astype true self;
  run m <- read (static new); run st <- alloc (product other m); run st <- clean st;
  run d <- replace_terms (fun r => run m <- read r; alloc (product other m)) (dyn new);
  run H <- check_is_dense st d;
  ret (set_dense true self, H).
End Ham.
Arguments static {F Args}. Arguments dyn {F Args}. Arguments is_dense {F Args}.

(* the matrix at a time: tocsr 1544-1554, toarray 1679-1690, __call__ 2056-2080 *)
Definition at_time {F Args} (call : F -> Args -> R -> C) (s : store) (H : ham F Args) (t : R) : cmat :=
  fold_left (fun A e => mat_add A (mat_scale (eval call (fst e) t) (ent (get s (snd e))))) (dyn H) (ent (get s (static H))).
