(* C04: enumeration of spinful-fermion states with fixed numbers of up and down particles. *)
From Verif Require Import AuxN SpecBits SpecSector M_bitcount M_next P_next P_spinful.
Local Open Scope N_scope.

(* bytes = size of the unsigned type holding the 2n bits; what is missing from the full property is the
   case of more than 255 down particles, where the claim is false (below) *)
Theorem C04_next_state_is_successor_partial : forall bytes n, (1 <= n)%nat -> 2 * N.of_nat n <= bits_of bytes ->
  forall ku kd s, (kd <= 255)%nat -> in_spf_sector n ku kd s -> (exists u, in_spf_sector n ku kd u /\ s < u) ->
  exists t, spf_next_state_pcon bytes (N.of_nat n) s = Some t /\ is_next (in_spf_sector n ku kd) s t.
Proof. exact spf_next_is_next. Qed.
Print Assumptions C04_next_state_is_successor_partial.

Theorem C04_enumeration_complete_partial : forall bytes n, (1 <= n)%nat -> 2 * N.of_nat n <= bits_of bytes ->
  forall ku kd, (ku <= n)%nat -> (kd <= n)%nat -> (kd <= 255)%nat ->
  lists_increasing (in_spf_sector n ku kd)
    (visited (fun s => match spf_next_state_pcon bytes (N.of_nat n) s with Some t => t | None => 0 end)
             (binom n ku * binom n kd) (spf_s0_pcon n ku kd)).
Proof. exact spf_enumeration. Qed.
Print Assumptions C04_enumeration_complete_partial.

(* all systems of at most 255 sites: no restriction on the particle numbers remains *)
Theorem C04_enumeration_complete_upto_255_sites : forall bytes n, (1 <= n)%nat -> (n <= 255)%nat ->
  2 * N.of_nat n <= bits_of bytes -> forall ku kd, (ku <= n)%nat -> (kd <= n)%nat ->
  lists_increasing (in_spf_sector n ku kd)
    (visited (fun s => match spf_next_state_pcon bytes (N.of_nat n) s with Some t => t | None => 0 end)
             (binom n ku * binom n kd) (spf_s0_pcon n ku kd)).
Proof. intros. apply spf_enumeration; try assumption. eapply Nat.le_trans; eassumption. Qed.
Print Assumptions C04_enumeration_complete_upto_255_sites.

(* 300 sites, uint1024 states, 1 up and 256 down particles: the successor leaves the sector *)
Theorem C04_next_state_is_successor_refuted : exists bytes n ku kd s,
  (1 <= n)%nat /\ 2 * N.of_nat n <= bits_of bytes /\ in_spf_sector n ku kd s /\
  (exists u, in_spf_sector n ku kd u /\ s < u) /\
  exists t, spf_next_state_pcon bytes (N.of_nat n) s = Some t /\ ~ in_spf_sector n ku kd t.
Proof.
  exists 128, 300%nat, 1%nat, 256%nat, (2 ^ 300 + 2 ^ 299 + (2 ^ 255 - 1)).
  split; [lia|]. split; [vm_compute; discriminate|].
  split; [repeat split; vm_compute; reflexivity|].
  split; [exists (2 ^ 301 + 2 ^ 299 + (2 ^ 255 - 1)); split; [repeat split; vm_compute; reflexivity|vm_compute; reflexivity]|].
  eexists. split; [vm_compute; reflexivity|]. intros (_ & _ & H). vm_compute in H. discriminate H.
Qed.
Print Assumptions C04_next_state_is_successor_refuted.

Example C04_example :
  visited (fun s => match spf_next_state_pcon 4 3 s with Some t => t | None => 0 end) (binom 3 1 * binom 3 2) (spf_s0_pcon 3 1 2)
  = [11; 13; 14; 19; 21; 22; 35; 37; 38].
Proof. vm_compute. reflexivity. Qed.
