(* C39: the checks with translations. *)
From Verif Require Import AuxN SpecMaps SpecFermi SpecChain M_bits1d SpecChain1d SpecCheck1d M_check1d P_maps P_square P_bits1d P_bits1d4 P_bits1d5 P_check1d P_check1d2 P_check1d3 P_check1d4 P_check1d5 P_check1d6 P_check1d7 P_check1d8 P_check1d9 P_check1da C39_checks.
Local Open Scope nat_scope.

(* Momentum alone: the value is the least period. *)
Theorem C39_momentum_check : forall w k L T s q, states_fit w k L -> cells w k L T -> is_state k L s ->
  exists v, check_T w k L (q_k q) T s = Some v /\
    ((0 < v)%Z <-> extremal w k L T [[LT]] s /\ compatible w k L T q [[LT]] s) /\ ((0 < v)%Z -> least_period w k L T s v).
Proof.
  intros w k L T s q SF HC Hs. pose proof (fam_t w k L T SF HC) as F. unfold check_T.
  pose proof (loop_T _ _ _ _ _ _ _ _ F eq_refl s Hs) as I. destruct (tloop _ _ _ _ _) as [| |R gR|]; [destruct I| | |destruct I].
  - exists (-1)%Z. split; [reflexivity|]. split; [|lia]. split; [lia|]. intros [X _]. destruct (I X).
  - destruct I as (H1 & H2 & -> & H3). destruct (T_compat _ _ _ _ _ _ _ _ q s R F eq_refl Hs H1 H2 H3) as [Tc _]. destruct (k_ok _ _ _ _ _).
    + exists (Z.of_nat R). split; [reflexivity|]. split; [|intros _; apply (least_p _ _ _ _ _ _ _ _ F eq_refl s R Hs H1 H2 H3)]. split; [|lia]. intros _. split; [|apply Tc; reflexivity].
      apply (ex_iff _ _ _ _ _ _ _ _ F s Hs). intros p i [<-|[]] _. apply (le_T _ _ _ _ _ _ _ _ F eq_refl s R Hs H1 H2 H3).
    + exists (-1)%Z. split; [reflexivity|]. split; [|lia]. split; [lia|]. intros [_ X]. apply Tc in X. discriminate.
Qed.
Print Assumptions C39_momentum_check.

(* One more symmetry g with word p: R[0] > 0 exactly for the representatives under the larger group whose translations
   are compatible with the momentum; then R[0] is the period, R[1] the first return after p and the sign that of this
   return. *)
Definition reports (w : btype) (k : kind) (L T : nat) (q : quanta) (g p : list letter) (s : N) (r : list Z) : Prop :=
  exists R0 R1 sg, r = [R0; R1; sg] /\
    ((0 < R0)%Z <-> extremal w k L T [[LT]; g] s /\ compatible w k L T q [[LT]] s) /\
    ((0 < R0)%Z -> least_period w k L T s R0 /\ first_return w k L T p s R1 sg).
Lemma swap_pz w k L T s : states_fit w k L -> has_inversion k -> is_state k L s -> run_ops [Z_ w k L; P_ w k L] (s, 1%Z) = run_ops (map (act w k L T) [LP; LZ]) (s, 1%Z).
Proof. intros SF HI Hs. destruct (rel_pz w k L SF s 1%Z HI Hs) as (y & E1 & E2 & _). unfold Z_, P_. cbn [map act]. congruence. Qed.
Theorem C39_one_symmetry : forall w k L T s q, states_fit w k L -> cells w k L T -> is_state k L s ->
  (exists r, check_T_P w k L (q_k q) T s = Some r /\ reports w k L T q [LP] [LP] s r) /\
  (has_inversion k ->
    (exists r, check_T_Z w k L (q_k q) T s = Some r /\ reports w k L T q [LZ] [LZ] s r) /\
    (exists r, check_T_PZ w k L (q_k q) T s = Some r /\ reports w k L T q [LP; LZ] [LP; LZ] s r)).
Proof.
  intros w k L T s q SF HC Hs. split; [|intros HI; split].
  - pose proof (fam_tp w k L T SF HC) as F. destruct (T_one w k L T false [LP] [LP] F (check_P w k L) (fun q s Hs => cmp_p w k L T _ _ _ _ [LP] q s F ltac:(cbn; auto) Hs) q 0 s Hs) as (R0 & R1 & sg & E & Q). exists [R0; R1; sg]. split; [exact E|]. exists R0, R1, sg. auto.
  - pose proof (fam_tz w k L T SF HC HI) as F. destruct (T_one w k L T false [LZ] [LZ] F (check_Z w k L) (fun q s Hs => cmp_p w k L T _ _ _ _ [LZ] q s F ltac:(cbn; auto) Hs) q L s Hs) as (R0 & R1 & sg & E & Q). exists [R0; R1; sg]. split; [exact E|]. exists R0, R1, sg. auto.
  - pose proof (fam_tpz w k L T SF HC HI) as F. destruct (T_one w k L T false [LP; LZ] [LP; LZ] F (check_PZ w k L) (fun q s Hs => cmp_p w k L T _ _ _ _ [LP; LZ] q s F ltac:(cbn; auto) Hs) q L s Hs) as (R0 & R1 & sg & E & Q). exists [R0; R1; sg]. split; [|exists R0, R1, sg; auto].
    rewrite <- E. unfold check_T_PZ, check_T_one, istart. rewrite (swap_pz w k L T s SF HI Hs). reflexivity.
Qed.
Print Assumptions C39_one_symmetry.

(* Sublattice inversions (even chain, even unit cell). *)
Theorem C39_sublattice : forall w k L T s q, states_fit w k L -> cells w k L T -> is_state k L s -> has_sublattices k -> Nat.even L = true -> Nat.even T = true ->
  (exists R0 R1, check_T_ZA w k L (q_k q) T s = Some [R0; R1] /\ reports w k L T q [LA] [LA] s [R0; R1; 1%Z]) /\
  (exists R0 R1, check_T_ZB w k L (q_k q) T s = Some [R0; R1] /\ reports w k L T q [LB] [LB] s [R0; R1; 1%Z]).
Proof.
  intros w k L T s q SF HC Hs HS EL ET. destruct (sub_sites w k L SF HS) as [_ Fk]. split.
  - pose proof (fam_ta w k L T SF HC (Logic.conj EL ET) HS) as F. destruct (T_sub w k L T true [LA] [LA] F (check_ZA w k L) (fun q s Hs => cmp_p w k L T _ _ _ _ [LA] q s F ltac:(cbn; auto) Hs) q s Fk Hs) as (R0 & R1 & E & Q). exists R0, R1. split; [exact E|]. exists R0, R1, 1%Z. auto.
  - pose proof (fam_tb w k L T SF HC (Logic.conj EL ET) HS) as F. destruct (T_sub w k L T true [LB] [LB] F (check_ZB w k L) (fun q s Hs => cmp_p w k L T _ _ _ _ [LB] q s F ltac:(cbn; auto) Hs) q s Fk Hs) as (R0 & R1 & E & Q). exists R0, R1. split; [exact E|]. exists R0, R1, 1%Z. auto.
Qed.
Print Assumptions C39_sublattice.

(* Two more symmetries: R[1], R[2], R[3] and the signs are the first returns after g1, g2 and both. *)
Definition reports2 (w : btype) (k : kind) (L T : nat) (q : quanta) (g1 g2 : letter) (s : N) (r : list Z) : Prop :=
  exists R0 R1 R2 R3 s1 s2 s3, r = [R0; R1; R2; R3; s1; s2; s3] /\
    ((0 < R0)%Z <-> extremal w k L T [[LT]; [g1]; [g2]] s /\ compatible w k L T q [[LT]] s) /\
    ((0 < R0)%Z -> least_period w k L T s R0 /\ first_return w k L T [g1] s R1 s1 /\ first_return w k L T [g2] s R2 s2 /\ first_return w k L T [g1; g2] s R3 s3).
Theorem C39_two_symmetries : forall w k L T s q, states_fit w k L -> cells w k L T -> is_state k L s ->
  (has_inversion k -> exists r, check_T_P_Z w k L (q_k q) T s = Some r /\ reports2 w k L T q LP LZ s r) /\
  (has_sublattices k -> Nat.even L = true -> Nat.even T = true -> exists r, check_T_ZA_ZB w k L (q_k q) T s = Some r /\ reports2 w k L T q LA LB s r).
Proof.
  intros w k L T s q SF HC Hs. split.
  - intros HI. pose proof (fam_tp_z w k L T SF HC HI) as F.
    assert (Hq : forall a b s, is_state k L s -> check_P_Z w k L a b s = combine3 (Some (cmpv a s (tr w k L T s [LP] 0) (sr w k L T s [LP] 0))) (Some (cmpv b s (tr w k L T s [LZ] 0) (sr w k L T s [LZ] 0))) (Some (cmpv (a * b) s (tr w k L T s [LP; LZ] 0) (sr w k L T s [LP; LZ] 0)))).
    { intros a b s0 Hs0. unfold check_P_Z, check_P, check_Z, check_PZ. change [P_ w k L; Z_ w k L] with (map (act w k L T) [LP; LZ]). change [P_ w k L] with (map (act w k L T) [LP]). change [Z_ w k L] with (map (act w k L T) [LZ]).
      rewrite !(cmp_p w k L T _ _ _ _ _ _ _ F) by (cbn; auto || exact Hs0). rewrite (Z.mul_comm b a). unfold combine3.
      set (x := cmpv a s0 _ _). set (y := cmpv b s0 _ _). destruct (y <? 0)%Z, (x <? 0)%Z; try reflexivity. destruct (_ <? 0)%Z; [reflexivity|]. rewrite Bool.andb_comm, (Bool.orb_comm (y =? 4)%Z). reflexivity. }
    destruct (T_two w k L T false [LP] [LZ] [LP] [LZ] F ltac:(split; reflexivity) (check_P_Z w k L) false Hq q [Z_ w k L; P_ w k L] (k_ok L) s Hs (swap_pz w k L T s SF HI Hs) ltac:(reflexivity)) as (r & E & V). exists r. split; [exact E|exact V].
  - intros HS EL ET. pose proof (fam_ta_b w k L T SF HC (Logic.conj EL ET) HS) as F. destruct (sub_sites w k L SF HS) as [_ Fk].
    assert (Hz : forall s, is_state k L s -> run_ops [Z_ w k L] (s, 1%Z) = run_ops (map (act w k L T) [LA; LB]) (s, 1%Z)) by (intros s0 Hs0; destruct (rel_ab w k L SF s0 1%Z HS Hs0) as (y & E1 & E2 & _); cbn [map act]; unfold Z_; congruence).
    assert (Hq : forall a b s, is_state k L s -> check_ZA_ZB w k L a b s = combine3 (Some (cmpv a s (tr w k L T s [LA] 0) (sr w k L T s [LA] 0))) (Some (cmpv b s (tr w k L T s [LB] 0) (sr w k L T s [LB] 0))) (Some (cmpv (a * b) s (tr w k L T s [LA; LB] 0) (sr w k L T s [LA; LB] 0)))).
    { intros a b s0 Hs0. unfold check_ZA_ZB, check_ZA, check_ZB, check_Z. rewrite (Hz s0 Hs0). change [ZA_ w k L] with (map (act w k L T) [LA]). change [ZB_ w k L] with (map (act w k L T) [LB]). rewrite !(cmp_p w k L T _ _ _ _ _ _ _ F) by (cbn; auto || exact Hs0). reflexivity. }
    destruct (T_two w k L T true [LA] [LB] [LA] [LB] F ltac:(split; reflexivity) (check_ZA_ZB w k L) false Hq q [Z_ w k L] (k_ok_nosign L) s Hs (Hz s Hs)) as (r & E & V); [|exists r; split; [exact E|exact V]].
    intros R. assert (X : sr w k L T s [] R = 1%Z) by (apply sgo_one; [exact SF|exact Fk|apply pre_ok; [apply (HT _ _ _ _ _ _ _ _ F eq_refl)|constructor]|exact Hs]). rewrite X. reflexivity.
Qed.
Print Assumptions C39_two_symmetries.

(* The states that the construction keeps, with the period that it stores, for abelian combinations: exactly the
   representatives that are compatible with all quantum numbers. *)
Definition keeps (w : btype) (k : kind) (L T : nat) (q : quanta) (gens : list (list letter)) (s : N) (o : option Z) : Prop :=
  (o <> None <-> extremal w k L T gens s /\ compatible w k L T q gens s) /\ forall r, o = Some r -> least_period w k L T s r.
Theorem C39_kept_inversion : forall w k L T s q, states_fit w k L -> cells w k L T -> is_state k L s -> signs q -> has_inversion k ->
  exists o, keep_T_Z w k L (q_z q) (q_k q) T s = Some o /\ keeps w k L T q [[LT]; [LZ]] s o.
Proof.
  intros w k L T s q SF HC Hs (_ & Uz & _ & _) HI. pose proof (fam_tz w k L T SF HC HI) as F. destruct (proj2 (C39_one_symmetry w k L T s q SF HC Hs) HI) as [(r & E & R0 & R1 & sg & -> & Q1 & Q2) _]. unfold keep_T_Z. rewrite E.
  pose proof (keep_one w k L T false [LZ] [LZ] F q ltac:(intros x [<-|[<-|[]]]; repeat constructor) eq_refl ltac:(discriminate) (q_z q) Uz ltac:(cbn [phase_of fold_right phase]; lia) R0 R1 sg s Hs Q1 Q2) as K. cbn zeta in K.
  eexists. split; [reflexivity|]. destruct (negb (R1 =? -1) && _)%bool%Z; [change (0 <? -1)%Z with false; cbv iota; destruct (0 <? R0)%Z|]; exact K.
Qed.
Print Assumptions C39_kept_inversion.
Theorem C39_kept_sublattice : forall w k L T s q, states_fit w k L -> cells w k L T -> is_state k L s -> signs q -> has_sublattices k -> Nat.even L = true -> Nat.even T = true ->
  (exists o, keep_T_sub L (check_T_ZA w k L) (q_a q) (q_k q) T s = Some o /\ keeps w k L T q [[LT]; [LA]] s o) /\
  (exists o, keep_T_sub L (check_T_ZB w k L) (q_b q) (q_k q) T s = Some o /\ keeps w k L T q [[LT]; [LB]] s o).
Proof.
  intros w k L T s q SF HC Hs (_ & _ & Ua & Ub) HS EL ET. destruct (C39_sublattice w k L T s q SF HC Hs HS EL ET) as [(R0 & R1 & E & X0 & X1 & X2 & X & Q1 & Q2) (R0' & R1' & E' & X0' & X1' & X2' & X' & Q1' & Q2')].
  injection X as <- <- <-. injection X' as <- <- <-. split.
  - pose proof (fam_ta w k L T SF HC (Logic.conj EL ET) HS) as F. pose proof (keep_one w k L T true [LA] [LA] F q ltac:(intros x [<-|[<-|[]]]; repeat constructor) eq_refl ltac:(discriminate) (q_a q) Ua ltac:(cbn [phase_of fold_right phase]; lia) R0 R1 1%Z s Hs Q1 Q2) as K. cbn zeta in K. rewrite Z.mul_1_l in K.
    unfold keep_T_sub. rewrite E. eexists. split; [reflexivity|]. destruct (Z.ltb_spec 0 R0); cbn [andb]; [|destruct (Z.ltb_spec 0 R0); [lia|exact K]]. destruct (negb (R1 =? -1) && _)%bool%Z; [exact K|]. destruct (Z.ltb_spec 0 R0); [exact K|lia].
  - pose proof (fam_tb w k L T SF HC (Logic.conj EL ET) HS) as F. pose proof (keep_one w k L T true [LB] [LB] F q ltac:(intros x [<-|[<-|[]]]; repeat constructor) eq_refl ltac:(discriminate) (q_b q) Ub ltac:(cbn [phase_of fold_right phase]; lia) R0' R1' 1%Z s Hs Q1' Q2') as K. cbn zeta in K. rewrite Z.mul_1_l in K.
    unfold keep_T_sub. rewrite E'. eexists. split; [reflexivity|]. destruct (Z.ltb_spec 0 R0'); cbn [andb]; [|destruct (Z.ltb_spec 0 R0'); [lia|exact K]]. destruct (negb (R1' =? -1) && _)%bool%Z; [exact K|]. destruct (Z.ltb_spec 0 R0'); [exact K|lia].
Qed.
Print Assumptions C39_kept_sublattice.
(* Both sublattice inversions, for an even number of levels (spin 1/2, hard-core bosons, ...): no state can return under
   two of the three inversions, so that the case distinction of the code is complete. *)
Theorem C39_kept_both_sublattices : forall w k L T s q, states_fit w k L -> cells w k L T -> is_state k L s -> signs q -> has_sublattices k -> Nat.even L = true -> Nat.even T = true ->
  N.even (levels k) = true ->
  exists o, keep_T_ZA_ZB w k L (q_a q) (q_b q) (q_k q) T s = Some o /\ keeps w k L T q [[LT]; [LA]; [LB]] s o.
Proof.
  intros w k L T s q SF HC Hs (_ & _ & Ua & Ub) HS EL ET Ev. pose proof (fam_ta_b w k L T SF HC (Logic.conj EL ET) HS) as F. destruct (sub_sites w k L SF HS) as [_ Fk].
  destruct (proj2 (C39_two_symmetries w k L T s q SF HC Hs) HS EL ET) as (r & E & V). destruct V as (R0 & R1 & R2 & R3 & s1 & s2 & s3 & -> & V1 & V2). unfold keep_T_ZA_ZB. rewrite E. eexists. split; [reflexivity|].
  apply (keep_two w k L T [[LT]; [LA]; [LB]] F eq_refl HS Ev (Logic.conj EL ET) q (Logic.conj Ua Ub) R0 R1 R2 R3 s1 s2 s3 s Hs Fk). exists R0, R1, R2, R3, s1, s2, s3. split; [reflexivity|]. split; [exact V1|exact V2].
Qed.
Print Assumptions C39_kept_both_sublattices.

(* With an odd number of levels the case distinction misses the states that return under two inversions: the spin-1 state
   (0,0) of two sites (middle levels, number 4) is its own orbit and compatible with zA = zB = 1 and k = 0, but dropped. *)
Theorem C39_kept_odd_levels_refuted : let q := {| q_k := 0; q_p := 1%Z; q_z := 1%Z; q_a := 1%Z; q_b := 1%Z |} in
  states_fit U32 (Boson 3) 2 /\ cells U32 (Boson 3) 2 2 /\ is_state (Boson 3) 2 4%N /\ signs q /\
  keep_T_ZA_ZB U32 (Boson 3) 2 1 1 0 2 4 = Some None /\ extremal U32 (Boson 3) 2 2 [[LT]; [LA]; [LB]] 4 /\ compatible U32 (Boson 3) 2 2 q [[LT]; [LA]; [LB]] 4.
Proof.
  cbn zeta. set (q := {| q_k := 0; q_p := 1%Z; q_z := 1%Z; q_a := 1%Z; q_b := 1%Z |}).
  assert (SF : states_fit U32 (Boson 3) 2) by (split; [lia|]; split; [lia|vm_compute; discriminate]).
  assert (HC : cells U32 (Boson 3) 2 2) by (split; [split; [exact SF|exact I]|]; split; [lia|exists 1; reflexivity]).
  assert (Rw : forall word, product_of [[LT]; [LA]; [LB]] word -> run_ops (map (act U32 (Boson 3) 2 2) word) (4%N, 1%Z) = Some (4%N, 1%Z)).
  { intros word (gs & Hg & ->). induction Hg as [|g gs Hg _ IH]; [reflexivity|]. cbn [concat]. rewrite map_app, run_app. destruct Hg as [<-|[<-|[<-|[]]]]; cbn [map]; [change (run_ops [act U32 (Boson 3) 2 2 LT] (4%N, 1%Z)) with (Some (4%N, 1%Z))|change (run_ops [act U32 (Boson 3) 2 2 LA] (4%N, 1%Z)) with (Some (4%N, 1%Z))|change (run_ops [act U32 (Boson 3) 2 2 LB] (4%N, 1%Z)) with (Some (4%N, 1%Z))]; exact IH. }
  split; [exact SF|]. split; [exact HC|]. split; [reflexivity|]. split; [repeat split; left; reflexivity|]. split; [vm_compute; reflexivity|]. split.
  - intros word t g Hw Hr. unfold reaches in Hr. rewrite (Rw word Hw) in Hr. injection Hr as <- <-. lia.
  - intros word g Hw Hr. unfold reaches in Hr. rewrite (Rw word Hw) in Hr. injection Hr as <-. assert (P0 : phase_of 2 2 q word = 0%Z); [|rewrite P0; reflexivity].
    destruct Hw as (gs & Hg & ->). induction Hg as [|g gs Hg _ IH]; [reflexivity|]. cbn [concat]. rewrite pho_app, IH. destruct Hg as [<-|[<-|[<-|[]]]]; reflexivity.
Qed.
Print Assumptions C39_kept_odd_levels_refuted.

(* a concrete case: six sites, momentum 1, a state of period 6 and one of period 2 that momentum 1 does not allow *)
Example C39_hyps : states_fit U32 (Hcp false) 6 /\ cells U32 (Hcp false) 6 1 /\ cells U32 (Hcp false) 6 2 /\ is_state (Hcp false) 6 48%N /\
  check_T U32 (Hcp false) 6 1 1 48 = Some 6%Z /\ check_T U32 (Hcp false) 6 1 1 42 = Some (-1)%Z /\ check_T U32 (Hcp false) 6 3 1 42 = Some 2%Z /\
  check_T_P U32 (Hcp false) 6 1 1 50 = Some [-1; -1; 1]%Z /\ check_T_P U32 (Hcp true) 6 0 1 48 = Some [6; 2; -1]%Z /\ check_T_P U32 (Hcp false) 6 0 1 48 = Some [6; 2; 1]%Z.
Proof.
  assert (A : states_fit U32 (Hcp false) 6) by (split; [lia|vm_compute; lia]).
  assert (B : forall x, shift_fits U32 (Hcp false) 6 x) by (intros x; split; [exact A|left; vm_compute; lia]).
  split; [exact A|]. split; [split; [apply B|]; split; [lia|exists 6; reflexivity]|]. split; [split; [apply B|]; split; [lia|exists 3; reflexivity]|].
  repeat split; vm_compute; reflexivity.
Qed.
