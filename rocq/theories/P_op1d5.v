(* Blocks without semi-momentum: every kept entry carries the norm of its state. *)
From Verif Require Import AuxN SpecC SpecOps SpecMaps SpecFermi SpecChain M_bits1d SpecChain1d SpecCheck1d SpecBlock1d M_check1d
  P_maps P_square P_bits1d P_bits1d4 P_bits1d5 P_check1d P_check1d2 P_check1d3 P_check1d4 P_check1d5 P_block1d P_block1d2 P_block1d3 P_block1d4
  M_ops M_op1d P_op1d P_op1d2 P_op1d3 P_op1d4 C39_checks C39_reference C39_translations.
Local Open Scope nat_scope.

Lemma Rzero_t x : Rzero x = true -> x = 0%R. Proof. unfold Rzero. destruct (Req_EM_T x 0); [auto|discriminate]. Qed.
Lemma Rzero_f x : Rzero x = false -> x <> 0%R. Proof. unfold Rzero. destruct (Req_EM_T x 0); [discriminate|auto]. Qed.
Lemma sign_half sign : (sign = 1 \/ sign = -1)%Z -> (2 * ((sign + 1) / 2) - 1 = sign)%Z. Proof. intros [-> | ->]; reflexivity. Qed.
Lemma n_le_L w k L T b : block_ok w k L T b -> n_of L T b <= L.
Proof.
  intros OK. pose proof (L_pos w k L T b OK). unfold n_of. destruct (translates b) eqn:E; [|assumption]. destruct (cells_n w k L T b OK E) as (E1 & E2 & E3 & _). unfold n_of in *. rewrite E in *. nia.
Qed.
Lemma first_bound w k L T (kb : nat) b (OK : block_ok w k L T b) h s m sign : In h (heads b) -> is_state k L s -> translates b = true -> first_return w k L T (hw (two_of b) h) s m sign ->
  (m = -1 /\ sign = 1 \/ 0 <= m < Z.of_nat L)%Z /\ (sign = 1 \/ sign = -1)%Z.
Proof.
  intros Hh Hst Et Hr. pose proof (n_le_L w k L T b OK). destruct (ret_first w k L T kb b OK h s m sign Hh Hst Et Hr) as [(i & -> & Hi & _ & _ & U)|(-> & -> & _)]; [split; [right; lia|exact U]|auto].
Qed.
Lemma first_sub w k L T (kb : nat) b (OK : block_ok w k L T b) h s m sign : has_sublattices k -> In h (heads b) -> is_state k L s -> translates b = true -> first_return w k L T (hw (two_of b) h) s m sign -> sign = 1%Z.
Proof.
  intros HS Hh Hst Et Hr. destruct (sub_sites w k L (SFb w k L T b OK) HS) as [_ Fk]. destruct (ret_first w k L T kb b OK h s m sign Hh Hst Et Hr) as [(i & _ & _ & _ & <- & _)|(_ & -> & _)]; [|reflexivity].
  unfold P_block1d4.G. apply sgo_one; [exact (SFb w k L T b OK)|exact Fk|apply X_lok; assumption|exact Hst].
Qed.
Lemma one_T w k L T (kb : nat) b (OK : block_ok w k L T b) s g R0 R1 sign : semi b = false -> is_state k L s -> translates b = true -> heads b = [h0; g] ->
  reports w k L T (q_of kb b) (hw (two_of b) g) (hw (two_of b) g) s [R0; R1; sign] -> generators b = [[LT]; hw (two_of b) g] -> (0 < R0)%Z ->
  (forall x h, In h (heads b) -> (X w k L (T_of T b) (two_of b) (n_of L T b) x h s <= s)%N) /\
  dotv (Mst k L) (V (n_of L T b) (heads b) (chi b) (X w k L (T_of T b) (two_of b) (n_of L T b)) (G w k L (T_of T b) (two_of b) (n_of L T b)) (cab (th_of L T kb b)) s)
       (V (n_of L T b) (heads b) (chi b) (X w k L (T_of T b) (two_of b) (n_of L T b)) (G w k L (T_of T b) (two_of b) (n_of L T b)) (cab (th_of L T kb b)) s)
    = RtoC (kap L T b * ((1 + chi b g * vret L T kb R1 sign) / IZR R0)) /\
  ((R1 = -1 /\ sign = 1 \/ 0 <= R1 < Z.of_nat L)%Z /\ (sign = 1 \/ sign = -1)%Z) /\ (first_return w k L T (hw (two_of b) g) s R1 sign).
Proof.
  intros Sm Hst Et EH (R0' & R1' & sign' & E & D1 & D2) Eg Hp. injection E as <- <- <-. destruct (proj1 D1 Hp) as [Hex Hco]. destruct (D2 Hp) as [Lp Fr]. pose proof (Tc_of w k L T kb b OK s Hst Et Hco) as Tc.
  assert (Hg : In g (heads b)) by (rewrite EH; right; left; reflexivity).
  split; [apply (extremal_X w k L T b OK s Hst); rewrite (To_t T b Et), Eg; exact Hex|].
  destruct (dot_T w k L T kb b OK s R0 (fun h => if (fst h || snd h)%bool then vret L T kb R1 sign else 1%R) Sm Hst Et Tc Lp) as [_ Ed].
  { intros h Hh. rewrite EH in Hh. destruct Hh as [<-|[<-|[]]]; [apply (rho_id w k L T kb b OK s Hst)|].
    assert (Enz : (fst g || snd g)%bool = true).
    { pose proof (heads_nd w k L T b OK) as Nd. rewrite EH in Nd. inversion_clear Nd as [|? ? N1 _]. destruct g as [[|] [|]]; try reflexivity. destruct N1. left. reflexivity. }
    rewrite Enz. apply rho_first; assumption. }
  split; [|split; [apply (first_bound w k L T kb b OK g s); assumption|exact Fr]].
  rewrite Ed, EH, !Csum_cons, Csum_nil. assert (Enz : (fst g || snd g)%bool = true).
  { pose proof (heads_nd w k L T b OK) as Nd. rewrite EH in Nd. inversion_clear Nd as [|? ? N1 _]. destruct g as [[|] [|]]; try reflexivity. destruct N1. left. reflexivity. }
  rewrite Enz. cbn [h0 fst snd orb]. rewrite (c0 _ _ _ _ _ _ _ (block_grp w k L T b OK)). assert (NR : IZR R0 <> 0%R) by (apply not_0_IZR; lia). apply C_eq; cbn; field; exact NR.
Qed.
Lemma vret_m L T kb m sign : (0 <= m)%Z -> vret L T kb m sign = (IZR sign * cosm L T kb m)%R. Proof. intros H. unfold vret. destruct (Z.eqb_spec m (-1)); [lia|reflexivity]. Qed.
Section S.
Variables (w : btype) (k : kind) (L T kb : nat) (b : block).
Hypothesis OK : block_ok w k L T b.
Hypothesis Sm : semi b = false.
Notation kept_ok := (kept_ok w k L T kb b).
Ltac no := intros ? [].
Lemma q_signs : signs (q_of kb b).
Proof. destruct (pm_q w k L T b OK). split; [|split; [|split]]; assumption. Qed.
Lemma keep_ab s : is_state k L s -> exists es, keep w k L T kb b s = Some es /\ kept_ok s es.
Proof.
  intros Hst. pose proof (SFb w k L T b OK) as SF. pose proof (block_grp w k L T b OK) as GR.
  destruct (C39_single_checks w k L s (q_of kb b) SF Hst q_signs) as (S1 & S2 & S3).
  pose proof (fun HC => C39_momentum_check w k L T s (q_of kb b) SF HC Hst) as MC. pose proof (fun HC => C39_one_symmetry w k L T s (q_of kb b) SF HC Hst) as OC.
  pose proof (fun HC => C39_sublattice w k L T s (q_of kb b) SF HC Hst) as SC. pose proof (fun HC => C39_two_symmetries w k L T s (q_of kb b) SF HC Hst) as TC.
  destruct (Logic.conj OK I) as [(_ & HC & H) _]. pose proof (single_ok w k L T kb b OK s) as SO. pose proof (one_T w k L T kb b OK s) as OT.
  assert (HLZ0 : (0 < Z.of_nat L)%Z) by (pose proof (L_pos w k L T b OK); lia).
  assert (Triv : heads b = [h0] -> translates b = false -> (forall e, nrm L T kb b e = 1%R) -> exists es, Some [mk s 1 0] = Some es /\ kept_ok s es).
  { clear S1 S2 S3 MC OC SC TC SO OT. intros EH Et Hn. eexists. split; [reflexivity|]. intros e [<-|[]]. split; [reflexivity|]. split; [reflexivity|]. split; [|split].
    - intros x g Hg. rewrite EH in Hg. destruct Hg as [<-|[]]. rewrite (X_const w k L T b x h0 s Et), (g_X0 _ _ _ _ _ _ _ GR s (proj2 (M_st k L s) Hst)). lia.
    - rewrite (dot_single w k L T kb b OK s Sm Hst Et).
      + rewrite EH. cbn [filter]. rewrite (g_X0 _ _ _ _ _ _ _ GR s (proj2 (M_st k L s) Hst)), N.eqb_refl. unfold kap. rewrite Et, Hn. cbn [length INR]. reflexivity.
      + intros g Hg _. rewrite EH in Hg. destruct Hg as [<-|[]]. rewrite (G0 _ _ _ _ _ _ _ GR s (proj2 (M_st k L s) Hst)), (c0 _ _ _ _ _ _ _ GR). ring.
    - rewrite Hn. lra. }
  unfold q_of in *. destruct b; try discriminate Sm; cbn [keep q12 fst snd q_k q_p q_z q_a q_b translates two_of] in *; cbn [heads map hw two_of] in SO; unfold generators in SO, OT; cbn [translates app] in SO, OT.
  - apply Triv; reflexivity.
  - apply Triv; reflexivity.
  - destruct S1 as (v & -> & Dv). apply (SO v 2%Z); auto.
  - destruct (S2 (proj1 H)) as ((v & -> & Dv) & _). apply (SO v 2%Z); auto.
  - destruct (S2 (proj1 H)) as (_ & (v & E & Dv) & _). rewrite Z.mul_1_r in E. rewrite E. apply (SO v 2%Z); auto.
  - destruct (S3 (proj1 H)) as ((v & -> & Dv) & _). apply (SO v 2%Z); auto.
  - destruct (S3 (proj1 H)) as (_ & (v & -> & Dv) & _). apply (SO v 2%Z); auto.
  - destruct (S2 (proj1 H)) as (_ & _ & (v & -> & Dv)). apply (SO v 4%Z); auto.
  - destruct (S3 (proj1 H)) as (_ & _ & (v & -> & Dv)). apply (SO v 4%Z); auto.
  - destruct (MC (HC eq_refl)) as (v & -> & D1 & D2). eexists. split; [reflexivity|]. destruct (0 <? v)%Z eqn:Ev; [|no]. apply Z.ltb_lt in Ev. intros e [<-|[]]. split; [reflexivity|]. split; [reflexivity|].
    destruct (proj1 D1 Ev) as [Hex Hco]. split; [|split].
    + apply (extremal_X w k L T BT OK s Hst). exact Hex.
    + destruct (dot_T w k L T kb BT OK s v (fun _ => 1%R) Sm Hst eq_refl (Tc_of w k L T kb BT OK s Hst eq_refl Hco) (D2 Ev)) as [_ Ed].
      { intros g [<-|[]]. apply (rho_id w k L T kb BT OK s Hst). }
      refine (eq_trans Ed _). cbn [heads]. rewrite Csum_cons, Csum_nil, (c0 _ _ _ _ _ _ _ GR). unfold nrm. cbn [e_N]. assert (IZR v <> 0%R) by (apply not_0_IZR; lia). apply C_eq; cbn; field; assumption.
    + unfold nrm. cbn [e_N]. apply Rdiv_lt_0_compat; [lra|apply IZR_lt, Ev].
  - (* T Z *)
    unfold keep_TZ. destruct (OC (HC eq_refl)) as (_ & OI). destruct (OI (proj1 H)) as ((r & -> & Rp) & _). destruct Rp as (R0 & R1 & sg & -> & D1 & D2).
    assert (Rp : reports w k L T (q_of kb (BT_Z z)) [LZ] [LZ] s [R0; R1; sg]) by (exists R0, R1, sg; auto). clear D1 D2.
    specialize (OT (false, true) R0 R1 sg eq_refl Hst eq_refl eq_refl Rp eq_refl).
    destruct (Z.leb_spec R0 0) as [Hle|Hpos].
    { destruct (R1 =? -1)%Z; (eexists; split; [reflexivity|]); [|destruct (Rzero _)]; (destruct (Z.ltb_spec 0 R0); [lia|]) || (destruct (Z.ltb_spec 0 (-1)); [lia|]); no. }
    destruct (OT Hpos) as (Hex & Ed & (B1 & B2) & _). assert (Echi : chi (BT_Z z) (false, true) = IZR z) by (unfold chi, chiZ; cbn [fst snd q12]; rewrite Z.mul_1_l; reflexivity). rewrite Echi in Ed.
    destruct (Z.eqb_spec R1 (-1)) as [E1|E1].
    + eexists. split; [reflexivity|]. destruct (Z.ltb_spec 0 R0); [|lia]. intros e [<-|[]]. split; [reflexivity|]. split; [reflexivity|]. split; [exact Hex|].
      assert (En : nrm L T kb (BT_Z z) (mk s R0 (R1 + 1 + (-1 + 1) / 2 * (Z.of_nat L + 1))) = (1 / IZR R0)%R).
      { unfold nrm, norm_TZ. cbn [e_m e_N]. subst R1. replace (-1 + 1 + (-1 + 1) / 2 * (Z.of_nat L + 1))%Z with 0%Z by reflexivity. rewrite Z.mod_0_l by lia. reflexivity. }
      rewrite En. split; [|apply Rdiv_lt_0_compat; [lra|apply IZR_lt; assumption]]. refine (eq_trans Ed _). unfold vret. subst R1. cbn [Z.eqb Z.compare Pos.compare Pos.compare_cont Pos.eqb]. f_equal. unfold Rdiv. ring.
    + destruct B1 as [[B1 _]|B1]; [lia|]. destruct (Rzero _) eqn:Ez.
      { eexists. split; [reflexivity|]. no. }
      apply Rzero_f in Ez. eexists. split; [reflexivity|]. destruct (Z.ltb_spec 0 R0); [|lia]. intros e [<-|[]]. split; [reflexivity|]. split; [reflexivity|]. split; [exact Hex|].
      assert (En : nrm L T kb (BT_Z z) (mk s R0 (R1 + 1 + (sg + 1) / 2 * (Z.of_nat L + 1))) = ((1 + IZR sg * IZR z * cosm L T kb R1) / IZR R0)%R).
      { unfold nrm, norm_TZ. cbn [e_m e_N]. rewrite Z.mod_add, Z.div_add by lia. rewrite Z.mod_small, Z.div_small, Z.add_0_l by lia. rewrite (sign_half sg B2). replace (R1 + 1 - 1)%Z with R1 by lia. destruct (Z.leb_spec 0 R1); [reflexivity|lia]. }
      rewrite En. rewrite (vret_m L T kb R1 sg) in Ed by lia. split; [refine (eq_trans Ed _); do 3 f_equal; ring|]. apply Rdiv_lt_0_compat; [|apply IZR_lt; assumption].
      pose proof (COS_bound (kval L T kb * IZR R1)) as Bc. unfold cosm in *. destruct H as [_ Pz]. destruct B2 as [-> | ->], Pz as [-> | ->]; lra.
  - (* T A *)
    destruct H as (HS & EL & ET & Pz). destruct (SC (HC eq_refl) HS EL ET) as ((R0 & R1 & E & Rp) & _). unfold keep_Tsub. rewrite E. specialize (OT (true, false) R0 R1 1%Z eq_refl Hst eq_refl eq_refl Rp eq_refl).
    eexists. split; [reflexivity|]. destruct (Z.ltb_spec 0 R0) as [Hp|]; [|no]. destruct (OT Hp) as (Hex & Ed & (B1 & _) & _). assert (Echi : chi (BT_A a) (true, false) = IZR a) by (unfold chi, chiZ; cbn [fst snd q12]; rewrite Z.mul_1_r; reflexivity). rewrite Echi in Ed.
    destruct (Z.eqb_spec R1 (-1)) as [E1|E1]; cbn [negb andb].
    + destruct (Z.ltb_spec 0 R0); [|lia]. intros e [<-|[]]. split; [reflexivity|]. split; [reflexivity|]. split; [exact Hex|].
      assert (En : nrm L T kb (BT_A a) (mk s R0 (R1 + 1)) = (1 / IZR R0)%R) by (unfold nrm, norm_sub; cbn [e_m e_N]; subst R1; reflexivity).
      rewrite En. split; [|apply Rdiv_lt_0_compat; [lra|apply IZR_lt; assumption]]. refine (eq_trans Ed _). unfold vret. subst R1. cbn [Z.eqb Z.compare Pos.compare Pos.compare_cont Pos.eqb]. f_equal. unfold Rdiv. ring.
    + destruct B1 as [[B1 _]|B1]; [lia|]. destruct (Rzero _) eqn:Ez; [no|]. apply Rzero_f in Ez. destruct (Z.ltb_spec 0 R0); [|lia]. intros e [<-|[]]. split; [reflexivity|]. split; [reflexivity|]. split; [exact Hex|].
      assert (En : nrm L T kb (BT_A a) (mk s R0 (R1 + 1)) = ((1 + IZR a * cosm L T kb R1) / IZR R0)%R).
      { unfold nrm, norm_sub. cbn [e_m e_N]. replace (R1 + 1 - 1)%Z with R1 by lia. destruct (Z.leb_spec 0 R1); [reflexivity|lia]. }
      rewrite En. rewrite (vret_m L T kb R1 1%Z) in Ed by lia. split; [refine (eq_trans Ed _); do 3 f_equal; ring|]. apply Rdiv_lt_0_compat; [|apply IZR_lt; assumption].
      pose proof (COS_bound (kval L T kb * IZR R1)) as Bc. unfold cosm in *. destruct Pz as [-> | ->]; lra.
  - (* T B *)
    destruct H as (HS & EL & ET & Pz). destruct (SC (HC eq_refl) HS EL ET) as (_ & (R0 & R1 & E & Rp)). unfold keep_Tsub. rewrite E. specialize (OT (false, true) R0 R1 1%Z eq_refl Hst eq_refl eq_refl Rp eq_refl).
    eexists. split; [reflexivity|]. destruct (Z.ltb_spec 0 R0) as [Hp|]; [|no]. destruct (OT Hp) as (Hex & Ed & (B1 & _) & _). assert (Echi : chi (BT_B b0) (false, true) = IZR b0) by (unfold chi, chiZ; cbn [fst snd q12]; rewrite Z.mul_1_l; reflexivity). rewrite Echi in Ed.
    destruct (Z.eqb_spec R1 (-1)) as [E1|E1]; cbn [negb andb].
    + destruct (Z.ltb_spec 0 R0); [|lia]. intros e [<-|[]]. split; [reflexivity|]. split; [reflexivity|]. split; [exact Hex|].
      assert (En : nrm L T kb (BT_B b0) (mk s R0 (R1 + 1)) = (1 / IZR R0)%R) by (unfold nrm, norm_sub; cbn [e_m e_N]; subst R1; reflexivity).
      rewrite En. split; [|apply Rdiv_lt_0_compat; [lra|apply IZR_lt; assumption]]. refine (eq_trans Ed _). unfold vret. subst R1. cbn [Z.eqb Z.compare Pos.compare Pos.compare_cont Pos.eqb]. f_equal. unfold Rdiv. ring.
    + destruct B1 as [[B1 _]|B1]; [lia|]. destruct (Rzero _) eqn:Ez; [no|]. apply Rzero_f in Ez. destruct (Z.ltb_spec 0 R0); [|lia]. intros e [<-|[]]. split; [reflexivity|]. split; [reflexivity|]. split; [exact Hex|].
      assert (En : nrm L T kb (BT_B b0) (mk s R0 (R1 + 1)) = ((1 + IZR b0 * cosm L T kb R1) / IZR R0)%R).
      { unfold nrm, norm_sub. cbn [e_m e_N]. replace (R1 + 1 - 1)%Z with R1 by lia. destruct (Z.leb_spec 0 R1); [reflexivity|lia]. }
      rewrite En. rewrite (vret_m L T kb R1 1%Z) in Ed by lia. split; [refine (eq_trans Ed _); do 3 f_equal; ring|]. apply Rdiv_lt_0_compat; [|apply IZR_lt; assumption].
      pose proof (COS_bound (kval L T kb * IZR R1)) as Bc. unfold cosm in *. destruct Pz as [-> | ->]; lra.
  - (* T A B *)
    destruct H as (HS & EL & ET & Pa & Pb). destruct (TC (HC eq_refl)) as (_ & T2). destruct (T2 HS EL ET) as (r & E & (R0 & R1 & R2 & R3 & s1 & s2 & s3 & -> & D1 & D2)). unfold keep_TAB. rewrite E.
    eexists. split; [reflexivity|]. destruct (Z.ltb_spec 0 R0) as [Hp|]; [|no]. destruct (proj1 D1 Hp) as [Hex Hco]. destruct (D2 Hp) as (Lp & F1 & F2 & F3). set (bb := BT_A_B a b0) in *.
    pose proof (extremal_X w k L T bb OK s Hst Hex) as Hex'. pose proof (Tc_of w k L T kb bb OK s Hst eq_refl Hco) as Tc.
    assert (I1 : In (true, false) (heads bb)) by (cbn; auto). assert (I2 : In (false, true) (heads bb)) by (cbn; auto). assert (I3 : In (true, true) (heads bb)) by (cbn; auto).
    pose proof (first_sub w k L T kb bb OK (true, false) s R1 s1 HS I1 Hst eq_refl F1) as ->. pose proof (first_sub w k L T kb bb OK (false, true) s R2 s2 HS I2 Hst eq_refl F2) as ->. pose proof (first_sub w k L T kb bb OK (true, true) s R3 s3 HS I3 Hst eq_refl F3) as ->.
    destruct (first_bound w k L T kb bb OK (true, false) s R1 1%Z I1 Hst eq_refl F1) as [B1 _]. destruct (first_bound w k L T kb bb OK (false, true) s R2 1%Z I2 Hst eq_refl F2) as [B2 _]. destruct (first_bound w k L T kb bb OK (true, true) s R3 1%Z I3 Hst eq_refl F3) as [B3 _].
    destruct (dot_T w k L T kb bb OK s R0 (fun h => if fst h then (if snd h then vret L T kb R3 1 else vret L T kb R1 1) else (if snd h then vret L T kb R2 1 else 1%R)) Sm Hst eq_refl Tc Lp) as [_ Ed].
    { intros h [<-|[<-|[<-|[<-|[]]]]]; cbn [fst snd h0]; [apply (rho_id w k L T kb bb OK s Hst)|apply (rho_first w k L T kb bb OK s (true, false) R1 1%Z Sm Hst eq_refl Tc I1 F1)|apply (rho_first w k L T kb bb OK s (false, true) R2 1%Z Sm Hst eq_refl Tc I2 F2)|apply (rho_first w k L T kb bb OK s (true, true) R3 1%Z Sm Hst eq_refl Tc I3 F3)]. }
    assert (Ed' : forall x, (1 + IZR a * vret L T kb R1 1 + IZR b0 * vret L T kb R2 1 + IZR a * IZR b0 * vret L T kb R3 1 = x)%R ->
       dotv (Mst k L) (V (n_of L T bb) (heads bb) (chi bb) (X w k L (T_of T bb) (two_of bb) (n_of L T bb)) (G w k L (T_of T bb) (two_of bb) (n_of L T bb)) (cab (th_of L T kb bb)) s)
       (V (n_of L T bb) (heads bb) (chi bb) (X w k L (T_of T bb) (two_of bb) (n_of L T bb)) (G w k L (T_of T bb) (two_of bb) (n_of L T bb)) (cab (th_of L T kb bb)) s) = RtoC (kap L T bb * (x / IZR R0))).
    { intros x <-. refine (eq_trans Ed _). change (heads bb) with [h0; (true, false); (false, true); (true, true)]. rewrite !Csum_cons, Csum_nil. cbn [fst snd h0]. unfold chi, chiZ. cbn [q12 bb fst snd h0]. rewrite !Z.mul_1_r, Z.mul_1_l, mult_IZR.
      assert (IZR R0 <> 0%R) by (apply not_0_IZR; lia). apply C_eq; cbn; field; assumption. }
    clear Ed. assert (PR : (0 < IZR R0)%R) by (apply IZR_lt, Hp). assert (LZ1 : (0 < Z.of_nat L + 1)%Z) by lia.
    assert (Dec : forall c m, (0 <= m < Z.of_nat L)%Z -> ((m + c * (Z.of_nat L + 1)) mod (Z.of_nat L + 1) = m /\ (m + c * (Z.of_nat L + 1)) / (Z.of_nat L + 1) = c)%Z).
    { intros c m Hm. rewrite Z.mod_add, Z.div_add by lia. rewrite Z.mod_small, Z.div_small by lia. lia. }
    assert (Nv : vret L T kb (-1) 1 = 0%R) by reflexivity.
    destruct (Z.eqb_spec R1 (-1)) as [N1|N1], (Z.eqb_spec R2 (-1)) as [N2|N2], (Z.eqb_spec R3 (-1)) as [N3|N3]; cbn [negb andb app]; try solve [no]; rewrite ?app_nil_r.
    + intros e [<-|[]]. split; [reflexivity|]. split; [reflexivity|]. split; [exact Hex'|]. assert (En : nrm L T kb bb (mk s R0 (Z.of_nat L + 1)) = (1 / IZR R0)%R) by (unfold nrm, norm_AB; cbn [bb e_m e_N]; rewrite Z.div_same by lia; reflexivity).
      rewrite En. split; [apply Ed'; subst R1 R2 R3; rewrite Nv; ring|apply Rdiv_lt_0_compat; lra].
    + destruct B3 as [[B3 _]|B3]; [lia|]. destruct (Rzero _) eqn:Ez; [no|]. apply Rzero_f in Ez. intros e [<-|[]]. split; [reflexivity|]. split; [reflexivity|]. split; [exact Hex'|]. destruct (Dec 4%Z R3 B3) as [Q1 Q2].
      assert (En : nrm L T kb bb (mk s R0 (R3 + 4 * (Z.of_nat L + 1))) = ((1 + IZR a * IZR b0 * cosm L T kb R3) / IZR R0)%R) by (unfold nrm, norm_AB; cbn [bb e_m e_N]; rewrite Q1, Q2; reflexivity).
      rewrite En. split; [apply Ed'; subst R1 R2; rewrite Nv, vret_m by lia; ring|apply Rdiv_lt_0_compat; [|exact PR]]. pose proof (COS_bound (kval L T kb * IZR R3)) as Bc. unfold cosm in *. destruct Pa as [-> | ->], Pb as [-> | ->]; lra.
    + destruct B2 as [[B2 _]|B2]; [lia|]. destruct (Rzero _) eqn:Ez; [no|]. apply Rzero_f in Ez. intros e [<-|[]]. split; [reflexivity|]. split; [reflexivity|]. split; [exact Hex'|]. destruct (Dec 3%Z R2 B2) as [Q1 Q2].
      assert (En : nrm L T kb bb (mk s R0 (R2 + 3 * (Z.of_nat L + 1))) = ((1 + IZR b0 * cosm L T kb R2) / IZR R0)%R) by (unfold nrm, norm_AB; cbn [bb e_m e_N]; rewrite Q1, Q2; reflexivity).
      rewrite En. split; [apply Ed'; subst R1 R3; rewrite Nv, vret_m by lia; ring|apply Rdiv_lt_0_compat; [|exact PR]]. pose proof (COS_bound (kval L T kb * IZR R2)) as Bc. unfold cosm in *. destruct Pb as [-> | ->]; lra.
    + destruct B1 as [[B1 _]|B1]; [lia|]. destruct (Rzero _) eqn:Ez; [no|]. apply Rzero_f in Ez. intros e [<-|[]]. split; [reflexivity|]. split; [reflexivity|]. split; [exact Hex'|]. destruct (Dec 2%Z R1 B1) as [Q1 Q2].
      assert (En : nrm L T kb bb (mk s R0 (R1 + 2 * (Z.of_nat L + 1))) = ((1 + IZR a * cosm L T kb R1) / IZR R0)%R) by (unfold nrm, norm_AB; cbn [bb e_m e_N]; rewrite Q1, Q2; reflexivity).
      rewrite En. split; [apply Ed'; subst R2 R3; rewrite Nv, vret_m by lia; ring|apply Rdiv_lt_0_compat; [|exact PR]]. pose proof (COS_bound (kval L T kb * IZR R1)) as Bc. unfold cosm in *. destruct Pa as [-> | ->]; lra.
Qed.
End S.
