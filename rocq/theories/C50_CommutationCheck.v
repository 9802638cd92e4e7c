(* C50: the warning about non-commuting symmetry maps. *)
From Verif Require Import AuxN SpecDigits SpecMaps M_maps P_maps P_period.
Local Open Scope N_scope.

(* Full property: for all valid maps the check passes iff the maps commute on all states.
   Proved when each map inverts either no site or all sites; missing: mixed inversions, where it is false. *)
Theorem C50_commutation_check_partial : forall B n m1 m2 T1 T2,
  2 <= B -> signed_perm n m1 -> signed_perm n m2 ->
  (exists b, forall j, (j < n)%nat -> flips (nth j m1 0%Z) = b) ->
  (exists b, forall j, (j < n)%nat -> flips (nth j m2 0%Z) = b) ->
  (forall s, s < B ^ N.of_nat n -> moved B n m1 s (T1 s)) ->
  (forall s, s < B ^ N.of_nat n -> moved B n m2 s (T2 s)) ->
  maps_commute_check m1 m2 = true <-> (forall s, s < B ^ N.of_nat n -> T1 (T2 s) = T2 (T1 s)).
Proof. exact commute_check_uniform. Qed.
Print Assumptions C50_commutation_check_partial.

(* no warning for maps which do not commute *)
Theorem C50_check_passes_but_maps_do_not_commute_refuted : exists m1 m2 s,
  signed_perm 3 m1 /\ signed_perm 3 m2 /\ s < 2 ^ 3 /\ maps_commute_check m1 m2 = true /\
  hcb_map_bits 3 m1 (hcb_map_bits 3 m2 s) <> hcb_map_bits 3 m2 (hcb_map_bits 3 m1 s).
Proof.
  exists [-2; 2; 0]%Z, [2; 0; -2]%Z, 0. split; [|split; [|split; [|split]]].
  - unfold signed_perm. cbn. apply Permutation_sym. exact (Permutation_cons_append [1; 2]%nat 0%nat).
  - unfold signed_perm. cbn. exact (Permutation_cons_append [0; 1]%nat 2%nat).
  - reflexivity.
  - vm_compute. reflexivity.
  - vm_compute. discriminate.
Qed.
Print Assumptions C50_check_passes_but_maps_do_not_commute_refuted.

(* a warning for maps which do commute *)
Theorem C50_check_warns_but_maps_commute_refuted : exists m1 m2,
  signed_perm 3 m1 /\ signed_perm 3 m2 /\ maps_commute_check m1 m2 = false /\
  forall s, s < 2 ^ 3 -> hcb_map_bits 3 m1 (hcb_map_bits 3 m2 s) = hcb_map_bits 3 m2 (hcb_map_bits 3 m1 s).
Proof.
  exists [-2; 2; 0]%Z, [2; -1; 1]%Z. split; [|split; [|split]].
  - unfold signed_perm. cbn. apply Permutation_sym. exact (Permutation_cons_append [1; 2]%nat 0%nat).
  - unfold signed_perm. cbn. exact (Permutation_cons_append [0; 1]%nat 2%nat).
  - vm_compute. reflexivity.
  - intros s Hs. assert (H : s = 0 \/ s = 1 \/ s = 2 \/ s = 3 \/ s = 4 \/ s = 5 \/ s = 6 \/ s = 7) by (change (2 ^ 3) with 8 in Hs; lia).
    destruct H as [->|[->|[->|[->|[->|[->|[->| ->]]]]]]]; vm_compute; reflexivity.
Qed.
Print Assumptions C50_check_warns_but_maps_commute_refuted.

Example C50_example : maps_commute_check [1; 2; 3; 0]%Z [-1; -2; -3; -4]%Z = true /\ maps_commute_check [1; 2; 3; 0]%Z [1; 0; 3; 2]%Z = false.
Proof. vm_compute. split; reflexivity. Qed.
