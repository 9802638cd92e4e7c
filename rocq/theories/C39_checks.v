(* C39: the representative checks of the one-dimensional bases accept a state exactly if it is the largest state of its
   orbit and the quantum numbers are compatible with the words that return to it; the reported period is the least one. *)
From Verif Require Import AuxN SpecMaps SpecFermi SpecChain M_bits1d SpecChain1d SpecCheck1d M_check1d P_maps P_square P_bits1d P_bits1d4 P_bits1d5 P_check1d P_check1d2 P_check1d3 P_check1d4 P_check1d5 P_check1d6 P_check1d7 P_check1d8 P_check1d9 P_check1da.
Local Open Scope nat_scope.

Notation is_state k L s := (s < levels k ^ N.of_nat (sites k L))%N.

Lemma cmp_p w k L T two tf gens pres p q s : family w k L T two tf gens pres -> In p pres -> is_state k L s ->
  cmp_state q s (run_ops (map (act w k L T) p) (s, 1%Z)) = Some (cmpv q s (tr w k L T s p 0) (sr w k L T s p 0)).
Proof. intros F Hp Hs. destruct (run_p _ _ _ _ _ _ _ _ F s p Hs Hp) as (-> & _). reflexivity. Qed.

(* Checks without translations. *)
Theorem C39_single_checks : forall w k L s q, states_fit w k L -> is_state k L s -> signs q ->
  (exists v, check_P w k L (q_p q) s = Some v /\ decides w k L 1 q [[LP]] s v 2 [[]; [LP]]) /\
  (has_inversion k ->
     (exists v, check_Z w k L (q_z q) s = Some v /\ decides w k L 1 q [[LZ]] s v 2 [[]; [LZ]]) /\
     (exists v, check_PZ w k L (q_p q * q_z q) s = Some v /\ decides w k L 1 q [[LP; LZ]] s v 2 [[]; [LP; LZ]]) /\
     (exists v, check_P_Z w k L (q_p q) (q_z q) s = Some v /\ decides w k L 1 q [[LP]; [LZ]] s v 4 [[]; [LP]; [LZ]; [LP; LZ]])) /\
  (has_sublattices k ->
     (exists v, check_ZA w k L (q_a q) s = Some v /\ decides w k L 1 q [[LA]] s v 2 [[]; [LA]]) /\
     (exists v, check_ZB w k L (q_b q) s = Some v /\ decides w k L 1 q [[LB]] s v 2 [[]; [LB]]) /\
     (exists v, check_ZA_ZB w k L (q_a q) (q_b q) s = Some v /\ decides w k L 1 q [[LA]; [LB]] s v 4 [[]; [LA]; [LB]; [LA; LB]])).
Proof.
  intros w k L s q SF Hs (Up & Uz & Ua & Ub). pose proof (HL1 w k L SF) as HL. split; [|split; [intros HI|intros HS]].
  - eexists. split; [apply (cmp_p w k L 1 _ _ _ _ [LP] _ _ (fam_p w k L SF)); [cbn; auto|exact Hs]|]. apply (single_spec w k L 1 false [LP] (fam_p w k L SF) q (q_p q) Up); [repeat constructor|exists 0%Z; cbn; lia|exact Hs].
  - split; [|split].
    + eexists. split; [apply (cmp_p w k L 1 _ _ _ _ [LZ] _ _ (fam_z w k L SF HI)); [cbn; auto|exact Hs]|]. apply (single_spec w k L 1 false [LZ] (fam_z w k L SF HI) q (q_z q) Uz); [repeat constructor|exists 0%Z; cbn; lia|exact Hs].
    + eexists. split; [apply (cmp_p w k L 1 _ _ _ _ [LP; LZ] _ _ (fam_pz w k L SF HI)); [cbn; auto|exact Hs]|]. apply (single_spec w k L 1 false [LP; LZ] (fam_pz w k L SF HI) q (q_p q * q_z q) (unit_mul _ _ Up Uz)); [repeat constructor| |exact Hs].
      destruct (turn_mul L (q_p q) (q_z q) HL Up Uz) as [z ->]. exists (- z)%Z. cbn [phase_of fold_right phase]. lia.
    + pose proof (fam_p_z w k L SF HI) as F. destruct (two_spec w k L 1 false false [[LP]; [LZ]] [LP] [LZ] F ltac:(split; reflexivity) eq_refl q (q_p q) (q_z q) (Logic.conj Up Uz) ltac:(intros g [<-|[<-|[]]]; repeat constructor)
        ltac:(cbn [phase_of fold_right phase]; lia) s (fun a b => check_P_Z w k L a b s) Hs) as (v & E & D1 & D2); [|exists v; split; [exact E|split; [exact D1|exact D2]]].
      intros a b. unfold check_P_Z, check_P, check_Z, check_PZ. change [P_ w k L; Z_ w k L] with (map (act w k L 1) [LP; LZ]). change [P_ w k L] with (map (act w k L 1) [LP]). change [Z_ w k L] with (map (act w k L 1) [LZ]).
      rewrite !(cmp_p w k L 1 _ _ _ _ _ _ _ F) by (cbn; auto || exact Hs). change ([LP] ++ [LZ]) with [LP; LZ]. rewrite (Z.mul_comm b a). unfold combine3.
      set (x := cmpv a s _ _). set (y := cmpv b s _ _). destruct (y <? 0)%Z, (x <? 0)%Z; try reflexivity. destruct (_ <? 0)%Z; [reflexivity|]. rewrite Bool.andb_comm, (Bool.orb_comm (y =? 4)%Z). reflexivity.
  - split; [|split].
    + eexists. split; [apply (cmp_p w k L 1 _ _ _ _ [LA] _ _ (fam_a w k L SF HS)); [cbn; auto|exact Hs]|]. apply (single_spec w k L 1 true [LA] (fam_a w k L SF HS) q (q_a q) Ua); [repeat constructor|exists 0%Z; cbn; lia|exact Hs].
    + eexists. split; [apply (cmp_p w k L 1 _ _ _ _ [LB] _ _ (fam_b w k L SF HS)); [cbn; auto|exact Hs]|]. apply (single_spec w k L 1 true [LB] (fam_b w k L SF HS) q (q_b q) Ub); [repeat constructor|exists 0%Z; cbn; lia|exact Hs].
    + pose proof (fam_a_b w k L SF HS) as F. destruct (two_spec w k L 1 true false [[LA]; [LB]] [LA] [LB] F ltac:(split; reflexivity) eq_refl q (q_a q) (q_b q) (Logic.conj Ua Ub) ltac:(intros g [<-|[<-|[]]]; repeat constructor)
        ltac:(cbn [phase_of fold_right phase]; lia) s (fun a b => check_ZA_ZB w k L a b s) Hs) as (v & E & D1 & D2); [|exists v; split; [exact E|split; [exact D1|exact D2]]].
      intros a b. unfold check_ZA_ZB, check_ZA, check_ZB, check_Z. change [ZA_ w k L] with (map (act w k L 1) [LA]). change [ZB_ w k L] with (map (act w k L 1) [LB]).
      rewrite !(cmp_p w k L 1 _ _ _ _ _ _ _ F) by (cbn; auto || exact Hs). f_equal. change ([LA] ++ [LB]) with [LA; LB]. rewrite <- (cmp_p w k L 1 _ _ _ _ [LA; LB] _ _ F) by (cbn; auto || exact Hs). f_equal.
      destruct (rel_ab w k L SF s 1%Z HS Hs) as (y & E1 & E2 & _). cbn [map act]. unfold Z_. congruence.
Qed.
Print Assumptions C39_single_checks.
