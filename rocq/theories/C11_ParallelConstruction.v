(* C11: parallel basis construction does not depend on the number of threads or on the schedule. *)
From Verif Require Import AuxN SpecC SpecSymm SpecSector SpecBasis M_symm M_next M_make P_symminst P_make P_make2.
Local Open Scope nat_scope.

(* any two runs, with any thread counts, any interleaving of the stores, any sharing of the final loop and any
   sorting routine, return the same *)
Theorem C11_schedule_independent : forall (S D : N -> Prop) nt pers ms qs next MAX s0 n1 n2 mem r1 r2,
  good_maps D nt pers ms -> nt <= 32 -> (forall s, S s -> D s) -> lists_increasing S (visited next MAX s0) ->
  1 <= n1 -> 1 <= n2 ->
  par_run (keep pers qs ms nt) next n1 mem MAX s0 r1 -> par_run (keep pers qs ms nt) next n2 mem MAX s0 r2 -> r1 = r2.
Proof.
  intros S D nt pers ms qs next MAX s0 n1 n2 mem r1 r2 HG Hnt SD HE. exact (par_par S D nt pers ms qs next MAX s0 HG Hnt SD HE n1 n2 mem r1 r2).
Qed.
Print Assumptions C11_schedule_independent.

(* when the sequential construction succeeds, every parallel run returns the same list *)
Theorem C11_parallel_equals_sequential_partial : forall (S D : N -> Prop) nt pers ms qs next MAX s0 nthread mem res L,
  good_maps D nt pers ms -> nt <= 32 -> (forall s, S s -> D s) -> lists_increasing S (visited next MAX s0) -> 1 <= nthread ->
  par_run (keep pers qs ms nt) next nthread mem MAX s0 res ->
  make_seq (keep pers qs ms nt) next mem MAX s0 = Some L -> res = Some L.
Proof.
  intros S D nt pers ms qs next MAX s0 nth mem res L HG Hnt SD HE. exact (par_seq S D nt pers ms qs next MAX s0 HG Hnt SD HE nth mem res L).
Qed.
Print Assumptions C11_parallel_equals_sequential_partial.

(* the parallel construction returns the block exactly when it fits the buffer *)
Theorem C11_parallel_returns_block : forall (S D : N -> Prop) nt pers ms qs next MAX s0 nthread mem res L,
  good_maps D nt pers ms -> nt <= 32 -> (forall s, S s -> D s) -> lists_increasing S (visited next MAX s0) -> 1 <= nthread ->
  par_run (keep pers qs ms nt) next nthread mem MAX s0 res -> lists_decreasing (in_block S nt pers qs ms) L ->
  res = if length L <=? mem then Some L else None.
Proof.
  intros S D nt pers ms qs next MAX s0 nth mem res L HG Hnt SD HE. exact (par_block S D nt pers ms qs next MAX s0 HG Hnt SD HE nth mem res L).
Qed.
Print Assumptions C11_parallel_returns_block.

(* full equality fails for a buffer of exactly the block size: sequential reports an error, parallel does not *)
Theorem C11_parallel_equals_sequential_refuted : exists (S D : N -> Prop) nt pers ms qs next MAX s0 mem,
  good_maps D nt pers ms /\ nt <= 32 /\ (forall s : N, S s -> D s) /\ lists_increasing S (visited next MAX s0) /\
  make_seq (keep pers qs ms nt) next mem MAX s0 = None /\
  exists L, par_run (keep pers qs ms nt) next 2 mem MAX s0 (Some L).
Proof.
  exists (fun s => (s < N.of_nat 4)%N), (fun s => (s < 2 ^ N.of_nat 2)%N), 1, [2], (hcb_smap 5 2 two_map), [1%Z], N.succ, 4, 0%N, 1.
  split; [exact two_good|]. split; [lia|]. split; [trivial|]. split; [apply full_enumeration|]. split; [exact two_exact_fails|].
  exists [(2%N, 1%Z)]. destruct (par_run_exists (keep [2] [1%Z] (hcb_smap 5 2 two_map) 1) N.succ 2 4 0 ltac:(lia) (proj1 (full_enumeration 4)) 1) as [res R].
  pose proof (par_block (fun s => (s < N.of_nat 4)%N) _ 1 [2] _ [1%Z] N.succ 4 0 two_good ltac:(lia) ltac:(trivial) (full_enumeration 4) 2 1 res _ ltac:(lia) R two_lists) as E.
  cbn in E. rewrite <- E. exact R.
Qed.
Print Assumptions C11_parallel_equals_sequential_refuted.

(* runs exist for every thread count and buffer *)
Theorem C11_some_run_exists : forall kp next nthread MAX s0 mem, 1 <= nthread -> StronglySorted N.lt (visited next MAX s0) ->
  exists res, par_run kp next nthread mem MAX s0 res.
Proof. intros kp next nthread MAX s0 mem H1 H2. exact (par_run_exists kp next nthread MAX s0 H1 H2 mem). Qed.
Print Assumptions C11_some_run_exists.

Example C11_example : par_run (keep [2] [1%Z] (hcb_smap 5 2 two_map) 1) N.succ 3 2 4 0 (Some [(2%N, 1%Z)]).
Proof.
  destruct (par_run_exists (keep [2] [1%Z] (hcb_smap 5 2 two_map) 1) N.succ 3 4 0 ltac:(lia) (proj1 (full_enumeration 4)) 2) as [res R].
  pose proof (par_block (fun s => (s < N.of_nat 4)%N) _ 1 [2] _ [1%Z] N.succ 4 0 two_good ltac:(lia) ltac:(trivial) (full_enumeration 4) 3 2 res _ ltac:(lia) R two_lists) as E.
  cbn in E. rewrite <- E. exact R.
Qed.
