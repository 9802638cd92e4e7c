(* C07: the generated permutation network moves each bit to its target. *)
From Verif Require Import AuxN SpecDigits SpecMaps M_benes M_maps P_benes P_maps.
Local Open Scope N_scope.

(* c_tgt s = Some v: bit s must go to bit v; None: don't care.  For every partial injective map on the
   2^L bits of the type a network is generated; applying it backwards sends bit s to bit v, every bit that
   is nobody's target receives one of the don't-care bits, and applying it forwards undoes it. *)
Theorem C07_network_realises_permutation : forall L c_tgt,
  (forall i j v, c_tgt i = Some v -> c_tgt j = Some v -> i = j) ->
  (forall i v, c_tgt i = Some v -> i < N.of_nat (2 ^ L) /\ v < N.of_nat (2 ^ L)) ->
  exists net, gen_benes L c_tgt = Some net /\
  (forall x s v, c_tgt s = Some v -> N.testbit (benes_bwd L net x) v = N.testbit x s) /\
  (forall v, (forall s, c_tgt s <> Some v) -> exists s, c_tgt s = None /\ forall x, N.testbit (benes_bwd L net x) v = N.testbit x s) /\
  (forall x s v, c_tgt s = Some v -> N.testbit (benes_fwd L net x) s = N.testbit x v).
Proof. exact benes_ok. Qed.
Print Assumptions C07_network_realises_permutation.

(* the fast routine agrees with moving bits one by one, for every map and every state *)
Theorem C07_network_agrees_with_bit_loop : forall ld n m s,
  (n <= 2 ^ ld)%nat -> signed_perm n m -> s < 2 ^ N.of_nat n ->
  hcb_map_state ld n m s = Some (hcb_map_bits n m s).
Proof. exact hcb_map_state_bits. Qed.
Print Assumptions C07_network_agrees_with_bit_loop.

(* hypotheses met by a rotation of 5 of 8 bits *)
Definition rot5 : arr := fun i => if i <? 5 then Some ((i + 1) mod 5) else None.
Example C07_example : (forall i j v, rot5 i = Some v -> rot5 j = Some v -> i = j) /\
  (forall i v, rot5 i = Some v -> i < N.of_nat (2 ^ 3) /\ v < N.of_nat (2 ^ 3)) /\
  (exists net, gen_benes 3 rot5 = Some net /\ benes_bwd 3 net 22 = 13).
Proof.
  split; [|split].
  - intros i j v. unfold rot5. destruct (N.ltb_spec i 5), (N.ltb_spec j 5); try discriminate.
    intros E1 E2. injection E1 as <-. injection E2 as E2.
    assert (Hi : i = 0 \/ i = 1 \/ i = 2 \/ i = 3 \/ i = 4) by lia.
    assert (Hj : j = 0 \/ j = 1 \/ j = 2 \/ j = 3 \/ j = 4) by lia.
    destruct Hi as [->|[->|[->|[->| ->]]]], Hj as [->|[->|[->|[->| ->]]]]; reflexivity || (vm_compute in E2; discriminate).
  - intros i v. unfold rot5. destruct (N.ltb_spec i 5); try discriminate. intros E. injection E as <-.
    change (N.of_nat (2 ^ 3)) with 8. pose proof (N.mod_upper_bound (i + 1) 5). lia.
  - destruct (gen_benes 3 rot5) as [net|] eqn:E; [|vm_compute in E; discriminate].
    exists net. split; [reflexivity|].
    assert (X : option_map (fun k => benes_bwd 3 k 22) (gen_benes 3 rot5) = Some 13) by (vm_compute; reflexivity).
    rewrite E in X. cbn [option_map] in X. injection X as X. exact X.
Qed.
