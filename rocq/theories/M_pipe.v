(* Model of /repo/quspin/tools/block_tools.py:140-246, the worker processes of the block evolution and the generator that collects their results.
   A generator is the list of the values it yields.  Queue(1) is a buffer of one element, Event a flag; put blocks while the buffer is full, get
   while it is empty, wait while the flag is not set.  Starting a process late is a schedule in which it does not step. *)
From Verif Require Import AuxN.
Local Open Scope nat_scope.

Section Pipe.
Variable A : Type.
(* izip over two sequences of tuples, then over a list of generators: stops with the shortest; nothing for no generators *)
Fixpoint zip_cons (g : list A) (t : list (list A)) : list (list A) :=
  match g, t with a :: g', s :: t' => (a :: s) :: zip_cons g' t' | _, _ => [] end.
Fixpoint izip (gens : list (list A)) : list (list A) :=
  match gens with [] => [] | [g] => map (fun a => [a]) g | g :: gs => zip_cons g (izip gs) end.

Definition slice {B} (l : list B) (a b : nat) : list B := firstn (b - a) (skipn a l).
(* 169-175: (number of processes, n_pp, n_left) *)
Definition distribute (n_items : nat) (n_process : Z) : Z * nat * nat :=
  if (Z.of_nat n_items <=? n_process)%Z && (0 <? n_process)%Z then (Z.of_nat n_items, 1, 1)
  else if (n_process <? Z.of_nat n_items)%Z && (0 <? n_process)%Z then
    (n_process, n_items / Z.to_nat n_process, n_items / Z.to_nat n_process + n_items mod Z.to_nat n_process)
  else (n_process, 0, 0).
(* 190-191 *)
Definition sub_lists {B} (l : list B) (n_process n_pp n_left : nat) : list (list B) :=
  slice l 0 n_left :: map (fun i => slice l (n_left + i * n_pp) (n_left + (i + 1) * n_pp)) (seq 0 (n_process - 1)).

(* _worker 140-159: at the head of the loop; before clear; before put; before wait; before close; ended.  rest: the tuples still to come *)
Inductive worker := Whead (rest : list (list A)) | Wclear (s : list A) (rest : list (list A)) | Wput (s : list A) (rest : list (list A))
  | Wwait (rest : list (list A)) | Wclose | Wend.
(* _generate_parallel 211-225: before q.get() of process w in iteration i with the results acc so far; before e.set(); at p.join() of process w; ended *)
Inductive parent := Pget (i w : nat) (acc : list A) | Pset (i w : nat) (acc : list A) | Pjoin (w : nat) | Pend.
Record state := { par : parent; wks : nat -> worker; que : nat -> option (list A); evt : nat -> bool; out : list (list A) }.
Definition set_at {B} (f : nat -> B) (w : nat) (b : B) : nat -> B := fun v => if v =? w then b else f v.

Variables (np n_iter : nat).
(* next state of the parent after iteration i (211) *)
Definition next_iter (i : nat) : parent := if i <? n_iter then Pget i 0 [] else Pjoin 0.
Inductive step : state -> state -> Prop :=
| w_next : forall st w s rest, w < np -> wks st w = Whead (s :: rest) ->
    step st {| par := par st; wks := set_at (wks st) w (Wclear s rest); que := que st; evt := evt st; out := out st |}
| w_stop : forall st w, w < np -> wks st w = Whead [] ->
    step st {| par := par st; wks := set_at (wks st) w Wclose; que := que st; evt := evt st; out := out st |}
| w_clear : forall st w s rest, w < np -> wks st w = Wclear s rest ->
    step st {| par := par st; wks := set_at (wks st) w (Wput s rest); que := que st; evt := set_at (evt st) w false; out := out st |}
| w_put : forall st w s rest, w < np -> wks st w = Wput s rest -> que st w = None ->
    step st {| par := par st; wks := set_at (wks st) w (Wwait rest); que := set_at (que st) w (Some s); evt := evt st; out := out st |}
| w_wait : forall st w rest, w < np -> wks st w = Wwait rest -> evt st w = true ->
    step st {| par := par st; wks := set_at (wks st) w (Whead rest); que := que st; evt := evt st; out := out st |}
| w_close : forall st w, w < np -> wks st w = Wclose ->
    step st {| par := par st; wks := set_at (wks st) w Wend; que := que st; evt := evt st; out := out st |}
| p_get : forall st i w acc s, par st = Pget i w acc -> w < np -> que st w = Some s ->
    step st {| par := Pset i w (acc ++ s); wks := wks st; que := set_at (que st) w None; evt := evt st; out := out st |}
| p_set : forall st i w acc, par st = Pset i w acc ->
    step st {| par := Pget i (S w) acc; wks := wks st; que := que st; evt := set_at (evt st) w true; out := out st |}
| p_yield : forall st i w acc, par st = Pget i w acc -> np <= w ->
    step st {| par := next_iter (S i); wks := wks st; que := que st; evt := evt st; out := out st ++ [acc] |}
| p_join : forall st w, par st = Pjoin w -> w < np -> wks st w = Wend ->
    step st {| par := Pjoin (S w); wks := wks st; que := que st; evt := evt st; out := out st |}
| p_end : forall st w, par st = Pjoin w -> np <= w ->
    step st {| par := Pend; wks := wks st; que := que st; evt := evt st; out := out st |}.
Inductive steps : state -> state -> Prop :=
| steps_refl : forall st, steps st st
| steps_step : forall st st1 st2, steps st st1 -> step st1 st2 -> steps st st2.
(* 194-208: processes with their own sub-lists, empty queues, events not set *)
Definition start (subs : list (list (list A))) : state :=
  {| par := next_iter 0; wks := fun w => Whead (izip (nth w subs [])); que := fun _ => None; evt := fun _ => false; out := [] |}.
End Pipe.
Arguments par {A}. Arguments wks {A}. Arguments que {A}. Arguments evt {A}. Arguments out {A}. Arguments izip {A}. Arguments start {A}.
Arguments step {A}. Arguments steps {A}. Arguments Pend {A}.

(* _generate_parallel 161-225: the list of the yielded tuples; with at most one process the generators run in this process *)
Definition generate_parallel {A} (n_process : Z) (n_iter : nat) (gens : list (list A)) (res : list (list A)) : Prop :=
  let '(n_proc, n_pp, n_left) := distribute (length gens) n_process in
  if (n_proc <=? 1)%Z then res = izip gens
  else let np := Z.to_nat n_proc in
    exists st, steps np n_iter (start n_iter (sub_lists gens np n_pp n_left)) st /\ par st = Pend /\ out st = res.
(* the states that can be reached while the parallel version runs *)
Definition reachable {A} (n_process : Z) (n_iter : nat) (gens : list (list A)) (st : state A) : Prop :=
  let '(n_proc, n_pp, n_left) := distribute (length gens) n_process in
  (1 < n_proc)%Z /\ let np := Z.to_nat n_proc in steps np n_iter (start n_iter (sub_lists gens np n_pp n_left)) st.
(* one atomic action of the parent or of one of the processes *)
Definition moves {A} (n_process : Z) (n_iter : nat) (gens : list (list A)) : state A -> state A -> Prop :=
  step (Z.to_nat (fst (fst (distribute (length gens) n_process)))) n_iter.
