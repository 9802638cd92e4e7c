(* Model of the time vectors of periodically driven systems (tools/Floquet.py:420-791): the constructor of Floquet_t_vec
   (441-516), the stroboscopic times (_strobo_times, 685-701), the three regimes (_periodic_ramp, 731-742) and
   get_coordinates (645-681).
   The arithmetic is a parameter ([arith]): real numbers for the theorems, binary64 with rounding for the counterexample.
   Numbers of periods and points are natural numbers (the docstrings say "number of"); a negative one is not modelled.
   numpy functions used: linspace, arange, take, slices, searchsorted (on a sorted array: the number of entries that are
   smaller) and where.  An exception is None.  The properties, __iter__, __getitem__ and __len__ only hand out the fields. *)
From Coq Require Import List ZArith Arith Bool Lia.
From Verif Require Import M_symop.
Import ListNotations.

Record arith := Arith {
  num : Type;
  ofZ : Z -> num;
  nadd : num -> num -> num;
  nsub : num -> num -> num;
  nmul : num -> num -> num;
  ndiv : num -> num -> num;
  nabs : num -> num;
  nlt : num -> num -> bool;
  pi2 : num;    (* 2.0*_np.pi *)
  tol : num     (* 1E-15 *)
}.

Section WithArith.
Variable A : arith.
Notation num := (num A).
Definition ofnat (n : nat) : num := ofZ A (Z.of_nat n).

(* numpy.linspace(a, b, n): step = (b-a)/(n-1), entries k*step + a, the last entry is set to b *)
Definition linspace (a b : num) (n : nat) : list num :=
  match n with
  | 0 => []
  | 1 => [a]
  | S m => map (fun k => nadd A (nmul A (ofnat k) (ndiv A (nsub A b a) (ofnat m))) a) (seq 0 m) ++ [b]
  end.

(* numpy.arange(0, size, step); step 0 raises ZeroDivisionError *)
Definition arange (size step : nat) : option (list nat) :=
  if Nat.eqb step 0 then None
  else Some (map (fun k => k * step) (seq 0 ((size + step - 1) / step))).

(* a[p:q] *)
Definition slice (l : list num) (p q : nat) : list num := firstn (q - p) (skipn p l).

Record strobo := Strobo { s_inds : list nat; s_vals : list num }.

(* Floquet.py:686-697 _strobo_times.__init__ *)
Definition strobo_times (t : list num) (len_T ind0 : nat) : option strobo :=
  match arange (length t) len_T with
  | None => None
  | Some inds =>
      match all_some (map (nth_error t) inds) with
      | None => None
      | Some v => Some (Strobo (map (fun i => i + ind0) inds) v)
      end
  end.

Record part := Part {
  p_N : nat; p_vals : list num; p_i : num; p_f : num; p_tot : num; p_len : nat; p_strobo : strobo }.

(* Floquet.py:732-742 _periodic_ramp.__init__ *)
Definition periodic_ramp (N : nat) (t : list num) (T : num) (len_T ind0 : nat) : option part :=
  match nth_error t 0, nth_error t (length t - 1), strobo_times t len_T ind0 with
  | Some i, Some f, Some s => Some (Part N t i f (nmul A (ofnat N) T) (length t) s)
  | _, _, _ => None
  end.

Record tvec := Tvec {
  v_N : nat; v_len_T : nat; v_T : num; v_vals : list num; v_len : nat; v_dt : num; v_strobo : strobo;
  v_i : num; v_f : num; v_tot : num;
  v_up : option part; v_const : option part; v_down : option part }.

(* x[k] of an index list, and its last element *)
Definition at_ (l : list nat) (k : nat) : option nat := nth_error l k.
Definition last_ (l : list nat) : option nat := nth_error l (length l - 1).

Definition bind {X Y} (o : option X) (f : X -> option Y) : option Y := match o with Some x => f x | None => None end.

(* Floquet.py:489-516: the regimes; ind0 is 0 on entry (478) *)
Definition regimes (vals : list num) (inds : list nat) (T : num) (len_T N_up N_const N_down : nat)
  : option (option part * option part * option part) :=
  if Nat.ltb 0 N_up && Nat.ltb 0 N_down then
    bind (at_ inds N_up) (fun a =>
    bind (periodic_ramp N_up (firstn a vals) T len_T 0) (fun up =>
    bind (at_ inds (N_up + N_const)) (fun b =>
    bind (last_ (s_inds (p_strobo up))) (fun l1 =>
    bind (periodic_ramp N_const (slice vals a (b + 1)) T len_T (l1 + len_T)) (fun const =>
    bind (last_ inds) (fun c =>
    bind (last_ (s_inds (p_strobo const))) (fun l2 =>
    bind (periodic_ramp N_down (slice vals (b + 1) (c + 1)) T len_T (l2 + len_T)) (fun down =>
    Some (Some up, Some const, Some down)))))))))
  else if Nat.ltb 0 N_up then
    bind (at_ inds N_up) (fun a =>
    bind (periodic_ramp N_up (firstn a vals) T len_T 0) (fun up =>
    bind (at_ inds (N_up + N_const)) (fun b =>
    bind (last_ (s_inds (p_strobo up))) (fun l1 =>
    bind (periodic_ramp N_const (slice vals a (b + 1)) T len_T (l1 + len_T)) (fun const =>
    Some (Some up, Some const, None))))))
  else if Nat.ltb 0 N_down then
    bind (at_ inds N_up) (fun a =>
    bind (at_ inds (N_up + N_const)) (fun b =>
    bind (periodic_ramp N_const (slice vals a (b + 1)) T len_T 0) (fun const =>
    bind (last_ inds) (fun c =>
    bind (last_ (s_inds (p_strobo const))) (fun l2 =>
    bind (periodic_ramp N_down (slice vals (b + 1) (c + 1)) T len_T (l2 + len_T)) (fun down =>
    Some (None, Some const, Some down)))))))
  else Some (None, None, None).

(* Floquet.py:441-516 Floquet_t_vec.__init__ *)
Definition tvec_init (Omega : num) (N_const len_T N_up N_down : nat) : option tvec :=
  let N := N_up + N_const + N_down in
  let T := ndiv A (pi2 A) Omega in
  let n := linspace (ofZ A (- Z.of_nat N_up)) (ofnat (N_const + N_down)) (N * len_T + 1) in
  let vals := map (fun x => nmul A T x) n in
  let dt := ndiv A T (ofnat len_T) in
  bind (strobo_times vals len_T 0) (fun s =>
  bind (nth_error vals 0) (fun i =>
  bind (nth_error vals (length vals - 1)) (fun f =>
  bind (regimes vals (s_inds s) T len_T N_up N_const N_down) (fun r =>
  let '(up, const, down) := r in
  Some (Tvec N len_T T vals (length vals) dt s i f (nsub A f i) up const down))))).

(* l[k] of Python, negative k counting from the end *)
Definition py_nth (l : list num) (k : Z) : option num :=
  if (k <? - Z.of_nat (length l))%Z then None
  else if (k <? 0)%Z then nth_error l (Z.to_nat (k + Z.of_nat (length l))) else nth_error l (Z.to_nat k).

(* numpy.searchsorted(l, x) of a sorted array *)
Definition searchsorted (l : list num) (x : num) : nat := length (filter (fun y => nlt A y x) l).

(* numpy.where(cond)[0][0]: the first position where the condition holds, IndexError if there is none *)
Definition first_where (p : num -> bool) (l : list num) : option nat :=
  match filter (fun k => match nth_error l k with Some x => p x | None => false end) (seq 0 (length l)) with
  | [] => None
  | j :: _ => Some j
  end.

(* Floquet.py:674-681 get_coordinates *)
Definition get_coordinates (v : tvec) (index : Z) : option (Z * nat) :=
  bind (py_nth (v_vals v) index) (fun t =>
  let i := (Z.of_nat (searchsorted (s_vals (v_strobo v)) (nadd A t (tol A))) - 1)%Z in
  bind (at_ (s_inds (v_strobo v)) 1) (fun e =>
  bind (first_where
          (fun x => nlt A (nabs A (nsub A (nsub A t (nmul A (ofZ A i) (v_T v))) x)) (tol A))
          (firstn e (v_vals v))) (fun j =>
  Some (i, j)))).
End WithArith.
Arguments s_inds {A}. Arguments s_vals {A}. Arguments v_vals {A}. Arguments v_strobo {A}. Arguments v_T {A}.
Arguments v_N {A}. Arguments v_len_T {A}. Arguments v_len {A}. Arguments v_dt {A}. Arguments v_i {A}. Arguments v_f {A}.
Arguments v_tot {A}. Arguments v_up {A}. Arguments v_const {A}. Arguments v_down {A}.
Arguments p_N {A}. Arguments p_vals {A}. Arguments p_i {A}. Arguments p_f {A}. Arguments p_tot {A}. Arguments p_len {A}.
Arguments p_strobo {A}.
