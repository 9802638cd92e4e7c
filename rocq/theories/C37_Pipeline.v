(* C37: evolving blocks in worker processes yields, in order, the tuples that the sequential evolution yields, for every number of processes
   and every schedule; no schedule blocks and none runs for ever. *)
From Verif Require Import AuxN SpecPipe M_pipe P_pipe P_pipe2.
Local Open Scope nat_scope.

(* every complete run, with any requested number of processes, yields the k-th values of all blocks as the k-th tuple *)
Theorem C37_result : forall (A : Type) (d : A) n_process n_iter (gens : list (list A)) res,
  gens <> [] -> (forall g, In g gens -> length g = n_iter) ->
  generate_parallel n_process n_iter gens res -> res = lock_step d gens n_iter.
Proof. intros. eapply pipe_result; eassumption. Qed.
Print Assumptions C37_result.

(* the parallel and the sequential run agree *)
Theorem C37_sequential : forall (A : Type) (d : A) n_process n_iter (gens : list (list A)) res seq,
  gens <> [] -> (forall g, In g gens -> length g = n_iter) ->
  generate_parallel n_process n_iter gens res -> generate_parallel 1 n_iter gens seq -> res = seq.
Proof. intros. transitivity (lock_step d gens n_iter); [|symmetry]; eapply pipe_result; eassumption. Qed.
Print Assumptions C37_sequential.

(* no reachable state is blocked *)
Theorem C37_no_deadlock : forall (A : Type) (d : A) n_process n_iter (gens : list (list A)) st,
  gens <> [] -> (forall g, In g gens -> length g = n_iter) -> reachable n_process n_iter gens st ->
  par st = Pend \/ exists st', moves n_process n_iter gens st st'.
Proof. intros. eapply pipe_live; eassumption. Qed.
Print Assumptions C37_no_deadlock.

(* no run goes on for ever, and there is a complete run *)
Theorem C37_terminates : forall (A : Type) (d : A) n_process n_iter (gens : list (list A)) (f : nat -> state A),
  gens <> [] -> (forall g, In g gens -> length g = n_iter) -> reachable n_process n_iter gens (f 0) ->
  ~ forall i, moves n_process n_iter gens (f i) (f (S i)).
Proof. intros. eapply pipe_no_infinite; eassumption. Qed.
Print Assumptions C37_terminates.
Theorem C37_runs : forall (A : Type) (d : A) n_process n_iter (gens : list (list A)),
  gens <> [] -> (forall g, In g gens -> length g = n_iter) -> exists res, generate_parallel n_process n_iter gens res.
Proof. intros. eapply pipe_exists; eassumption. Qed.
Print Assumptions C37_runs.

(* at every moment the tuples handed out so far are a beginning of the sequence *)
Theorem C37_prefix : forall (A : Type) (d : A) n_process n_iter (gens : list (list A)) st,
  gens <> [] -> (forall g, In g gens -> length g = n_iter) -> reachable n_process n_iter gens st ->
  exists k, k <= n_iter /\ out st = lock_step d gens k.
Proof. intros. eapply pipe_prefix; eassumption. Qed.
Print Assumptions C37_prefix.

(* a block whose process ends early (an exception in the worker) leaves the caller waiting for ever, while the sequential run returns *)
Theorem C37_short_generator_refuted : exists n_process n_iter (gens : list (list nat)),
  (exists st, reachable n_process n_iter gens st /\ par st <> Pend /\ forall st', ~ moves n_process n_iter gens st st') /\
  exists seq, generate_parallel 1 n_iter gens seq.
Proof. exists 2%Z, 1, short. split; [exact stuck_reachable|]. eexists. reflexivity. Qed.
Print Assumptions C37_short_generator_refuted.

(* five blocks on three processes *)
Definition five : list (list nat) := [[10; 11]; [20; 21]; [30; 31]; [40; 41]; [50; 51]].
Example C37_example : five <> [] /\ (forall g, In g five -> length g = 2) /\ (exists res, generate_parallel 3 2 five res) /\
  lock_step 0 five 2 = [[10; 20; 30; 40; 50]; [11; 21; 31; 41; 51]] /\ sub_lists five 3 1 3 = [[[10; 11]; [20; 21]; [30; 31]]; [[40; 41]]; [[50; 51]]].
Proof.
  split; [discriminate|]. split; [|split; [apply (C37_runs nat 0); [discriminate|]|split; reflexivity]];
    intros g H; cbn in H; repeat (destruct H as [<- |H]; [reflexivity|]); destruct H.
Qed.
