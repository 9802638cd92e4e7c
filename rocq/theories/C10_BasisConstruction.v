(* C10: the constructed list of states is exactly the symmetry block. *)
From Verif Require Import AuxN SpecC SpecDigits SpecMaps SpecSymm SpecSector SpecBasis M_maps M_symm M_next M_hdim M_make
  P_maps P_next P_boson P_hdim P_symminst P_make P_make2.
Local Open Scope nat_scope.

(* General form.  S = the sector, enumerated in increasing order by the candidate loop (see C02, C03, C04 and below).
   Whatever the number of threads and the schedule, a list that is returned is the block with its norms. *)
Theorem C10_returned_list_is_block : forall (S D : N -> Prop) nt pers ms qs next MAX s0 max_threads nthread mem L,
  good_maps D nt pers ms -> nt <= 32 -> (forall s, S s -> D s) -> lists_increasing S (visited next MAX s0) -> 1 <= nthread ->
  make_run (keep pers qs ms nt) next max_threads nthread nt mem MAX s0 (Some L) ->
  lists_decreasing (in_block S nt pers qs ms) L.
Proof.
  intros S D nt pers ms qs next MAX s0 mt nth mem L HG Hnt SD HE. exact (run_block S D nt pers ms qs next MAX s0 HG Hnt SD HE mt nth mem L).
Qed.
Print Assumptions C10_returned_list_is_block.

(* a buffer smaller than the block is reported (return value -1, ValueError in Python) *)
Theorem C10_small_buffer_reported : forall (S D : N -> Prop) nt pers ms qs next MAX s0 max_threads nthread mem L res,
  good_maps D nt pers ms -> nt <= 32 -> (forall s, S s -> D s) -> lists_increasing S (visited next MAX s0) -> 1 <= nthread ->
  lists_decreasing (in_block S nt pers qs ms) L -> mem < length L ->
  make_run (keep pers qs ms nt) next max_threads nthread nt mem MAX s0 res -> res = None.
Proof.
  intros S D nt pers ms qs next MAX s0 mt nth mem L res HG Hnt SD HE. exact (run_small S D nt pers ms qs next MAX s0 HG Hnt SD HE mt nth mem L res).
Qed.
Print Assumptions C10_small_buffer_reported.

(* a buffer with at least one spare entry always suffices *)
Theorem C10_larger_buffer_suffices : forall (S D : N -> Prop) nt pers ms qs next MAX s0 max_threads nthread mem L res,
  good_maps D nt pers ms -> nt <= 32 -> (forall s, S s -> D s) -> lists_increasing S (visited next MAX s0) -> 1 <= nthread ->
  lists_decreasing (in_block S nt pers qs ms) L -> length L < mem ->
  make_run (keep pers qs ms nt) next max_threads nthread nt mem MAX s0 res -> res = Some L.
Proof.
  intros S D nt pers ms qs next MAX s0 mt nth mem L res HG Hnt SD HE. exact (run_enough S D nt pers ms qs next MAX s0 HG Hnt SD HE mt nth mem L res).
Qed.
Print Assumptions C10_larger_buffer_suffices.

(* a buffer of exactly the block size can be rejected by the single-threaded construction although nothing is missing *)
Theorem C10_exact_buffer_suffices_refuted : exists (S D : N -> Prop) nt pers ms qs next MAX s0 L,
  good_maps D nt pers ms /\ nt <= 32 /\ (forall s, S s -> D s) /\ lists_increasing S (visited next MAX s0) /\
  lists_decreasing (in_block S nt pers qs ms) L /\
  make_run (keep pers qs ms nt) next 1 1 nt (length L) MAX s0 None.
Proof.
  exists (fun s => (s < N.of_nat 4)%N), (fun s => (s < 2 ^ N.of_nat 2)%N), 1, [2], (hcb_smap 5 2 two_map), [1%Z], N.succ, 4, 0%N, [(2%N, 1%Z)].
  split; [exact two_good|]. split; [lia|]. split; [trivial|]. split; [apply full_enumeration|]. split; [exact two_lists|].
  symmetry. exact two_exact_fails.
Qed.
Print Assumptions C10_exact_buffer_suffices_refuted.

(* spin-1/2 with k of n spins up, and without particle conservation *)
Theorem C10_spin_half_sector : forall ld n k mlist pers qs w max_threads nthread mem L,
  n <= 2 ^ ld -> (N.of_nat n <= w)%N -> k <= n -> length pers <= 32 -> 1 <= nthread -> accepted n mlist pers ->
  (forall d e s, d < length pers -> e < length pers -> (s < 2 ^ N.of_nat n)%N ->
     hcb_map_bits n (nth d mlist []) (hcb_map_bits n (nth e mlist []) s) = hcb_map_bits n (nth e mlist []) (hcb_map_bits n (nth d mlist []) s)) ->
  make_run (keep pers qs (hcb_smap ld n mlist) (length pers)) (next_state_pcon w) max_threads nthread (length pers) mem (binom n k) (s0_pcon k) (Some L) ->
  lists_decreasing (in_block (in_sector n k) (length pers) pers qs (hcb_smap ld n mlist)) L.
Proof.
  intros ld n k mlist pers qs w mt nth mem L Hn Hw Hk Hp Hth HA HC HR.
  eapply (run_block (in_sector n k) _ (length pers) pers (hcb_smap ld n mlist) qs (next_state_pcon w) (binom n k) (s0_pcon k) (hcb_good_maps ld n mlist pers Hn HA HC));
    [assumption|intros s Hs; apply Hs|apply pcon_enumeration; assumption|exact Hth|exact HR].
Qed.
Print Assumptions C10_spin_half_sector.

Theorem C10_spin_half_full : forall ld n mlist pers qs max_threads nthread mem L,
  n <= 2 ^ ld -> length pers <= 32 -> 1 <= nthread -> accepted n mlist pers ->
  (forall d e s, d < length pers -> e < length pers -> (s < 2 ^ N.of_nat n)%N ->
     hcb_map_bits n (nth d mlist []) (hcb_map_bits n (nth e mlist []) s) = hcb_map_bits n (nth e mlist []) (hcb_map_bits n (nth d mlist []) s)) ->
  make_run (keep pers qs (hcb_smap ld n mlist) (length pers)) N.succ max_threads nthread (length pers) mem (2 ^ n) 0%N (Some L) ->
  lists_decreasing (in_block (fun s => (s < N.of_nat (2 ^ n))%N) (length pers) pers qs (hcb_smap ld n mlist)) L.
Proof.
  intros ld n mlist pers qs mt nth mem L Hn Hp Hth HA HC HR.
  eapply (run_block (fun s => (s < N.of_nat (2 ^ n))%N) _ (length pers) pers (hcb_smap ld n mlist) qs N.succ (2 ^ n) 0%N (hcb_good_maps ld n mlist pers Hn HA HC));
    [assumption| |apply full_enumeration|exact Hth|exact HR].
  intros s Hs. rewrite Nat2N.inj_pow in Hs. exact Hs.
Qed.
Print Assumptions C10_spin_half_full.

(* bosons and higher spins with k particles *)
Theorem C10_boson_sector : forall B n k mlist pers qs max_threads nthread mem L,
  (2 <= B)%N -> 1 <= n -> (k <= N.of_nat n * (B - 1))%N -> length pers <= 32 -> 1 <= nthread -> accepted n mlist pers ->
  (forall d e s, d < length pers -> e < length pers -> (s < B ^ N.of_nat n)%N ->
     boson_map_bits B n (nth d mlist []) (boson_map_bits B n (nth e mlist []) s) = boson_map_bits B n (nth e mlist []) (boson_map_bits B n (nth d mlist []) s)) ->
  make_run (keep pers qs (boson_smap B n mlist) (length pers)) (boson_next_state_pcon B n) max_threads nthread (length pers) mem
    (Z.to_nat (H_dim (N.to_nat k) n (N.to_nat B - 1))) (boson_s0_pcon B k) (Some L) ->
  lists_decreasing (in_block (in_boson_sector B n k) (length pers) pers qs (boson_smap B n mlist)) L.
Proof.
  intros B n k mlist pers qs mt nth mem L HB Hn Hk Hp Hth HA HC HR.
  eapply (run_block (in_boson_sector B n k) _ (length pers) pers (boson_smap B n mlist) qs (boson_next_state_pcon B n)
    (Z.to_nat (H_dim (N.to_nat k) n (N.to_nat B - 1))) (boson_s0_pcon B k) (boson_good_maps B n mlist pers HB HA HC));
    [assumption|intros s Hs; apply Hs|apply boson_full_enumeration; assumption|exact Hth|exact HR].
Qed.
Print Assumptions C10_boson_sector.

(* a list of different particle numbers: the sectors are made one after the other and the result is sorted *)
Theorem C10_several_sectors : forall (A : Type) (Sec : A -> N -> Prop) D nt pers ms qs (mk : A -> nat -> option (list (N * Z))) nps mem L out,
  (forall np room l, mk np room = Some l -> lists_decreasing (in_block (Sec np) nt pers qs ms) l) ->
  (forall a b s, Sec a s -> Sec b s -> a = b) -> NoDup nps -> (forall a s, Sec a s -> D s) ->
  make_sectors mk nps mem [] = Some L -> sorts_descending L out ->
  lists_decreasing (in_block (fun s => exists np, In np nps /\ Sec np s) nt pers qs ms) out.
Proof. exact @sectors_block. Qed.
Print Assumptions C10_several_sectors.

(* a particle number given twice is not noticed: every state of that sector appears twice *)
Theorem C10_repeated_sector_refuted : exists L out,
  make_sectors (fun k room => make_seq (keep [] [] (hcb_smap 5 2 []) 0) (next_state_pcon 32) room (binom 2 k) (s0_pcon k)) [1; 1] 1000 [] = Some L /\
  sorts_descending L out /\ out = [(2, 1%Z); (2, 1%Z); (1, 1%Z); (1, 1%Z)]%N.
Proof.
  assert (K : forall s, keep [] [] (hcb_smap 5 2 []) 0 s = Some 1%Z).
  { intros s. unfold keep, check_state. cbn [Nat.eqb orb]. change 1%R with (INR 1). rewrite int_norm_INR. reflexivity. }
  exists [(2, 1%Z); (1, 1%Z); (2, 1%Z); (1, 1%Z)]%N, [(2, 1%Z); (2, 1%Z); (1, 1%Z); (1, 1%Z)]%N. split; [|split; [|reflexivity]].
  - assert (M : forall room, 2 <= room -> make_seq (keep [] [] (hcb_smap 5 2 []) 0) (next_state_pcon 32) room (binom 2 1) (s0_pcon 1) = Some [(2, 1%Z); (1, 1%Z)]%N).
    { intros room Hr. change (binom 2 1) with 2. unfold make_seq. cbn [seq_loop length]. unfold push. rewrite !K. cbn [app length].
      replace (room <=? 0) with false by (symmetry; apply Nat.leb_gt; lia). replace (room <=? 1) with false by (symmetry; apply Nat.leb_gt; lia). reflexivity. }
    cbn [make_sectors]. rewrite M by (cbn [length]; lia). cbn [app length]. rewrite M by lia. reflexivity.
  - split; [|repeat constructor; cbn; lia]. apply perm_skip. apply perm_swap.
Qed.
Print Assumptions C10_repeated_sector_refuted.

(* the hypotheses are met: two sites, exchange map, odd sector, buffer of two entries, one thread *)
Example C10_example : make_run (keep [2] [1%Z] (hcb_smap 5 2 two_map) 1) N.succ 1 1 1 2 4 0 (Some [(2%N, 1%Z)]).
Proof.
  unfold make_run. cbn [Nat.ltb Nat.leb andb]. symmetry.
  apply (seq_enough (fun s => (s < N.of_nat 4)%N) _ 1 [2] _ [1%Z] N.succ 4 0 two_good); [lia|trivial|apply full_enumeration|exact two_lists|cbn; lia].
Qed.
