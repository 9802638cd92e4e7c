(* Semi-momentum blocks: reflection and inversion together, and all blocks. *)
From Verif Require Import AuxN SpecC SpecOps SpecMaps SpecFermi SpecChain M_bits1d SpecChain1d SpecCheck1d SpecBlock1d M_check1d
  P_maps P_square P_bits1d P_bits1d4 P_bits1d5 P_check1d P_check1d2 P_check1d3 P_check1d4 P_check1d5 P_block1d P_block1d2 P_block1d3 P_block1d4
  M_ops M_symop P_symop P_photon M_op1d P_op1d P_op1d2 P_op1d3 P_op1d4 P_op1d5 P_op1d6 P_semi1d P_semi1d2 C39_checks C39_reference C39_translations.
From Coq Require Import Permutation.
Local Open Scope nat_scope.

Section F.
Variables (w : btype) (k : kind) (L T kb : nat) (p z : Z).
Notation b := (BT_P_Z p z).
Hypothesis OK : block_ok w k L T b.
Notation M := (Mst k L).
Notation n := (n_of L T b).
Notation X := (X w k L (T_of T b) false n).
Notation G := (G w k L (T_of T b) false n).
Notation th := (th_of L T kb b).
Notation cp := (cp th).
Notation cm := (cm th).
Notation cosm := (cosm L T kb).
Notation sinm := (sinm L T kb).
Notation Tcond := (Tcond w k L T kb b).
Notation overlaps := (overlaps w k L T kb b).
Notation kap0 := (kap0 L T kb b).
Notation vcos := (vcos L T kb).
Notation vsin := (vsin L T kb).
Notation hP := (true, false).
Notation hZ := (false, true).
Notation hPZ := (true, true).
Notation kept_semi := (kept_semi w k L T kb b).
Let Sm : semi b = true := eq_refl.

Lemma over_four s R0 aP aZ aPZ yP yPZ : is_state k L s -> Tcond s -> least_period w k L T s R0 ->
  rho X G s cp hP (RtoC aP) -> rho X G s cm hP (RtoC yP) -> rho X G s cp hZ (RtoC aZ) -> rho X G s cm hZ (RtoC 0) -> rho X G s cp hPZ (RtoC aPZ) -> rho X G s cm hPZ (RtoC yPZ) ->
  overlaps s (kap0 / IZR R0) (1 + IZR z * aZ) (IZR p * aP + IZR (p * z) * aPZ) (IZR p * yP + IZR (p * z) * yPZ).
Proof.
  intros Hst Tc Lp P1 P2 Z1 Z2 Q1 Q2. destruct (rho_id_s w k L T kb b OK s Hst) as [Ip Im].
  refine (proj2 (overlaps_of w k L T kb b OK Sm s R0 (fun h => match h with (false, false) => 1 | (true, false) => aP | (false, true) => aZ | (true, true) => aPZ end)%R
    (fun h => match h with (true, false) => yP | (true, true) => yPZ | _ => 0 end)%R _ _ _ Hst Tc Lp _ _ _ _ _)).
  - intros g Hg. cbn [heads In] in Hg. unfold h0 in *. destruct Hg as [<-|[<-|[<-|[<-|[]]]]]; assumption.
  - intros g Hg. cbn [heads In] in Hg. unfold h0 in *. destruct Hg as [<-|[<-|[<-|[<-|[]]]]]; assumption.
  - cbn [heads]. unfold h0. rewrite !Csum_cons, Csum_nil. unfold chi, chiZ. cbn [q12 fst snd]. rewrite !mult_IZR. apply C_eq; cbn; ring.
  - cbn [heads]. unfold h0. rewrite !Csum_cons, Csum_nil. unfold chi, chiZ. cbn [q12 fst snd two_of translates eps andb negb]. rewrite !mult_IZR. apply C_eq; cbn; ring.
  - cbn [heads]. unfold h0. rewrite !Csum_cons, Csum_nil. unfold chi, chiZ. cbn [q12 fst snd]. rewrite !mult_IZR. apply C_eq; cbn; ring.
Qed.
Lemma ov_eq s kp A B Y A' B' Y' : overlaps s kp A B Y -> A = A' -> B = B' -> Y = Y' -> overlaps s kp A' B' Y'. Proof. intros O <- <- <-. exact O. Qed.
Lemma rho_no c g s : (forall x, X x g s <> s) -> rho X G s c g (RtoC 0). Proof. intros H. right. split; [exact H|reflexivity]. Qed.
Lemma v_no sign : vcos (-1) sign = 0%R /\ vsin (-1) sign = 0%R. Proof. split; reflexivity. Qed.
Lemma v_yes m sign : m <> (-1)%Z -> vcos m sign = (IZR sign * cosm m)%R /\ vsin m sign = (IZR sign * sinm m)%R.
Proof. intros H. unfold P_semi1d.vcos, P_semi1d.vsin. destruct (Z.eqb_spec m (-1)); [contradiction|auto]. Qed.
(* reflection and inversion both return: so does the product *)
Lemma rho_prod s mp sp mz sz : is_state k L s -> Tcond s -> mp <> (-1)%Z -> mz <> (-1)%Z -> first_return w k L T (hw false hP) s mp sp -> first_return w k L T (hw false hZ) s mz sz ->
  rho X G s cp hPZ (RtoC (IZR (sp * sz) * (cosm mp * cosm mz))) /\ rho X G s cm hPZ (RtoC (- (IZR (sp * sz) * (sinm mp * cosm mz)))) /\ sinm mz = 0%R.
Proof.
  intros Hst Tc Np Nz Fp Fz. pose proof (block_grp w k L T b OK) as GR. pose proof (proj2 (M_st k L s) Hst) as Ds.
  assert (HP : In hP (heads b)) by (cbn; auto). assert (HZ : In hZ (heads b)) by (cbn; auto).
  destruct (ret_first w k L T kb b OK hP s mp sp HP Hst eq_refl Fp) as [(i & -> & _ & E1 & E2 & _)|(E & _)]; [|contradiction].
  destruct (ret_first w k L T kb b OK hZ s mz sz HZ Hst eq_refl Fz) as [(j & -> & _ & E3 & E4 & _)|(E & _)]; [|contradiction].
  cbn [two_of translates eps andb negb fst sg] in E1, E2, E3, E4.
  assert (S0 : sinm (Z.of_nat j) = 0%R) by (unfold M_op1d.sinm; rewrite <- (thk w k L T kb b OK Sm); exact (ret_flat w k L T kb b OK s hZ (Z.of_nat j) Hst Tc HZ eq_refl E3)).
  pose proof (g_Xm _ _ _ _ _ _ _ GR (- Z.of_nat i) hP (Z.of_nat j) hZ s HP HZ Ds) as EX. pose proof (g_Gm _ _ _ _ _ _ _ GR (- Z.of_nat i) hP (Z.of_nat j) hZ s HP HZ Ds) as EG.
  cbn [two_of translates eps andb negb fst snd sg] in EX, EG. change (hx hP hZ) with hPZ in EX, EG. rewrite E1 in EX, EG. rewrite E3 in EX. rewrite E2, E4 in EG.
  assert (Ec : cosm (- Z.of_nat i + - Z.of_nat j) = (cosm (Z.of_nat i) * cosm (Z.of_nat j))%R).
  { unfold M_op1d.cosm, M_op1d.sinm in *. rewrite plus_IZR, !opp_IZR. replace (kval L T kb * (- IZR (Z.of_nat i) + - IZR (Z.of_nat j)))%R with (- (kval L T kb * IZR (Z.of_nat i) + kval L T kb * IZR (Z.of_nat j)))%R by ring. rewrite cos_neg, cos_plus, S0. ring. }
  assert (Es : sinm (- Z.of_nat i + - Z.of_nat j) = (- (sinm (Z.of_nat i) * cosm (Z.of_nat j)))%R).
  { unfold M_op1d.cosm, M_op1d.sinm in *. rewrite plus_IZR, !opp_IZR. replace (kval L T kb * (- IZR (Z.of_nat i) + - IZR (Z.of_nat j)))%R with (- (kval L T kb * IZR (Z.of_nat i) + kval L T kb * IZR (Z.of_nat j)))%R by ring. rewrite sin_neg, sin_plus, S0. ring. }
  split; [|split; [|exact S0]]; left; exists (- Z.of_nat i + - Z.of_nat j)%Z; (split; [symmetry; exact EX|]); unfold Gc; rewrite <- EG.
  - rewrite (cp_cos w k L T kb b OK Sm), Ec, <- RtoC_mul. reflexivity.
  - rewrite (cm_sin w k L T kb b OK Sm), Es, <- RtoC_mul. f_equal. ring.
Qed.
Lemma no_ret_first h s sign : In h (heads b) -> is_state k L s -> first_return w k L T (hw false h) s (-1) sign -> forall x, X x h s <> s.
Proof.
  intros Hh Hst Fr. destruct (ret_first w k L T kb b OK h s (-1)%Z sign Hh Hst eq_refl Fr) as [(i & E & _)|(_ & _ & H)]; [lia|exact H].
Qed.
Lemma half_v x : plus_minus x -> (x = 1 /\ (x + 1) / 2 = 1 \/ x = -1 /\ (x + 1) / 2 = 0)%Z. Proof. intros [-> | ->]; [left|right]; split; reflexivity. Qed.
Lemma dec_m m c d : (0 <= m < Z.of_nat L)%Z -> (0 <= c < Z.of_nat L)%Z -> forall s N0, let e := mk s N0 (m + (Z.of_nat L + 1) * c + d * ((Z.of_nat L + 1) * (Z.of_nat L + 1))) in mmTPZ L e = m /\ nnTPZ L e = c /\ cTPZ L e = d.
Proof. intros Hm Hc s N0 e. unfold mmTPZ, nnTPZ, cTPZ, e. cbn [e_m]. apply decode3; lia. Qed.

Lemma keep_four s : is_state k L s -> (exists r, check_T_P_Z w k L kb T s = Some r /\ reports2 w k L T (q_of kb b) LP LZ s r) -> exists es, keep_TPZ w k L T kb p z s = Some es /\ kept_semi s es.
Proof.
  intros Hst (r & Ec & R0 & mp & mz & mpz & sp & sz & spz & -> & D1 & D2). unfold keep_TPZ. rewrite Ec. cbv zeta. eexists. split; [reflexivity|].
  destruct (Z.ltb_spec 0 R0) as [Hr|Hr]; [|apply kept_nil]. destruct (proj1 D1 Hr) as [Hex Hco]. destruct (D2 Hr) as (Lp & F1 & F2 & F3).
  pose proof (Tc_of w k L T kb b OK s Hst eq_refl Hco) as Tc. destruct (Logic.conj OK I) as [(_ & _ & _ & Hp & Hz) _].
  assert (HP : In hP (heads b)) by (cbn; auto). assert (HZ : In hZ (heads b)) by (cbn; auto). assert (HPZ : In hPZ (heads b)) by (cbn; auto).
  assert (Hx : forall x h, In h (heads b) -> (X x h s <= s)%N) by (exact (extremal_X w k L T b OK s Hst Hex)).
  assert (NR : (IZR R0 <> 0)%R) by (apply not_0_IZR; lia).
  destruct (first_bound w k L T kb b OK hP s mp sp HP Hst eq_refl F1) as [B1 S1]. destruct (first_bound w k L T kb b OK hZ s mz sz HZ Hst eq_refl F2) as [B2 S2]. destruct (first_bound w k L T kb b OK hPZ s mpz spz HPZ Hst eq_refl F3) as [B3 S3].
  destruct (rho_first_p w k L T kb b OK Sm s hP mp sp Hst Tc HP F1) as [P1 P2]. destruct (rho_first_p w k L T kb b OK Sm s hZ mz sz Hst Tc HZ F2) as [Z1 Z2]. destruct (rho_first_p w k L T kb b OK Sm s hPZ mpz spz Hst Tc HPZ F3) as [Q1 Q2].
  cbn [two_of translates eps andb negb fst] in P2, Z2, Q2.
  pose proof (over_four s R0 _ _ _ _ _ Hst Tc Lp P1 P2 Z1 Z2 Q1 Q2) as O. pose proof (L_pos w k L T b OK) as HL.
  assert (Hsp : plus_minus sp) by exact S1. assert (Hsz : plus_minus sz) by exact S2. assert (Hspz : plus_minus spz) by exact S3. assert (Hpz : plus_minus (p * z)%Z) by (destruct Hp as [-> | ->], Hz as [-> | ->]; [left|right|right|left]; reflexivity).
  assert (Zb : (-1 <= IZR z * IZR sz * cosm mz <= 1)%R) by (exact (pm_cos z sz (cosm mz) Hz Hsz (COS_bound _))).
  destruct (Z.eqb_spec mp (-1)) as [Ep|Np]; [rewrite Ep in *|]; (destruct (Z.eqb_spec mz (-1)) as [Ez|Nz]; [rewrite Ez in *|]); (destruct (Z.eqb_spec mpz (-1)) as [Eq|Nq]; [rewrite Eq in *|]); cbn [negb andb app]; rewrite ?app_nil_r.
  - (* none *) destruct (v_no sp) as [V1 V2], (v_no sz) as [V3 V4], (v_no spz) as [V5 V6]. rewrite V1, V2, V3, V5, V6 in O. rewrite <- (filter_all (sigmas L T kb)).
    apply (list_plain w k L T kb b OK Sm s R0 0 _ 1%R Hst Hr Hx); [refine (ov_eq _ _ _ _ _ _ _ _ O _ _ _); ring|intros; lra| |].
    + intros sg Hs'. unfold nrms, norm_TPZ, cTPZ. cbn [e_m e_N]. rewrite !Z.div_0_l by lia. rewrite (sgn_mul sg R0 Hs' Hr), mult_IZR. destruct (pm_R sg Hs') as [Q [-> | ->]]; field; lra.
    + intros sg sc l Hs'. unfold mixb, cTPZ. cbn [e_m]. rewrite !Z.div_0_l by lia. reflexivity.
  - (* PZ *) assert (B3' : (0 <= mpz < Z.of_nat L)%Z) by lia. destruct (v_no sp) as [V1 V2], (v_no sz) as [V3 V4], (v_yes mpz spz Nq) as [V5 V6]. rewrite V1, V2, V3, V5, V6 in O.
    assert (De : forall N0, let e := mk s N0 (mpz + (5 + (spz + 1) / 2) * ((Z.of_nat L + 1) * (Z.of_nat L + 1))) in mmTPZ L e = mpz /\ nnTPZ L e = 0%Z /\ cTPZ L e = (5 + (spz + 1) / 2)%Z).
    { intros N0. pose proof (dec_m mpz 0 (5 + (spz + 1) / 2) B3' ltac:(lia) s N0) as Q. rewrite Z.mul_0_r, Z.add_0_r in Q. exact Q. }
    apply (list_mix w k L T kb b OK Sm s R0 _ _ 1%R spz (p * z) mpz Hst Hr Hx); [|exact Hspz|exact Hpz| | | |].
    + refine (ov_eq _ _ _ _ _ _ _ _ O _ _ _); ring.
    + intros sg _ K. split; [lra|]. apply kept_nz in K. rewrite mult_IZR. intros E. apply K. rewrite <- E. ring.
    + apply kept_one.
    + intros sg Hs'. unfold nrms, norm_TPZ. destruct (De (sg * R0)%Z) as (E1 & E2 & E3). unfold f1TPZ. rewrite E1, E2, E3. cbn [e_N]. rewrite (sgn_mul sg R0 Hs' Hr), !mult_IZR.
      destruct (half_v spz Hspz) as [[-> ->]|[-> ->]]; cbn [Z.add Pos.add Pos.succ]; destruct (pm_R sg Hs') as [Q [-> | ->]]; field; lra.
    + intros sg sc l Hs'. unfold mixb. destruct (De (sg * R0)%Z) as (E1 & E2 & E3). unfold f1TPZ. rewrite E1, E3. destruct (half_v spz Hspz) as [[-> ->]|[-> ->]]; cbn [Z.add Pos.add Pos.succ]; reflexivity.
  - (* Z *) assert (B2' : (0 <= mz < Z.of_nat L)%Z) by lia. destruct (v_no sp) as [V1 V2], (v_yes mz sz Nz) as [V3 V4], (v_no spz) as [V5 V6]. rewrite V1, V2, V3, V5, V6 in O.
    assert (De : forall N0, let e := mk s N0 (mz * (Z.of_nat L + 1) + (3 + (sz + 1) / 2) * ((Z.of_nat L + 1) * (Z.of_nat L + 1))) in mmTPZ L e = 0%Z /\ nnTPZ L e = mz /\ cTPZ L e = (3 + (sz + 1) / 2)%Z).
    { intros N0. pose proof (dec_m 0 mz (3 + (sz + 1) / 2) ltac:(lia) B2' s N0) as Q. rewrite Z.add_0_l, (Z.mul_comm (Z.of_nat L + 1) mz) in Q. exact Q. }
    apply (list_plain w k L T kb b OK Sm s R0 _ _ (1 + IZR z * (IZR sz * cosm mz))%R Hst Hr Hx); [| | |].
    + refine (ov_eq _ _ _ _ _ _ _ _ O _ _ _); ring.
    + intros sg _ K. apply Bool.negb_true_iff, Rzero_f in K. assert (GE : (0 <= 1 + IZR z * (IZR sz * cosm mz))%R) by lra. destruct GE as [GE|GE]; [exact GE|]. exfalso. apply K. rewrite GE. ring.
    + intros sg Hs'. unfold nrms, norm_TPZ. destruct (De (sg * R0)%Z) as (E1 & E2 & E3). unfold f1TPZ. rewrite E1, E2, E3. cbn [e_N]. rewrite (sgn_mul sg R0 Hs' Hr), !mult_IZR.
      destruct (half_v sz Hsz) as [[-> ->]|[-> ->]]; cbn [Z.add Pos.add Pos.succ]; destruct (pm_R sg Hs') as [Q [-> | ->]]; field; lra.
    + intros sg sc l Hs'. unfold mixb. destruct (De (sg * R0)%Z) as (E1 & E2 & E3). rewrite E3. destruct (half_v sz Hsz) as [[-> ->]|[-> ->]]; cbn [Z.add Pos.add Pos.succ]; reflexivity.
  - (* Z and PZ only: nothing kept *) apply kept_nil.
  - (* P *) assert (B1' : (0 <= mp < Z.of_nat L)%Z) by lia. destruct (v_yes mp sp Np) as [V1 V2], (v_no sz) as [V3 V4], (v_no spz) as [V5 V6]. rewrite V1, V2, V3, V5, V6 in O.
    assert (De : forall N0, let e := mk s N0 (mp + (1 + (sp + 1) / 2) * ((Z.of_nat L + 1) * (Z.of_nat L + 1))) in mmTPZ L e = mp /\ nnTPZ L e = 0%Z /\ cTPZ L e = (1 + (sp + 1) / 2)%Z).
    { intros N0. pose proof (dec_m mp 0 (1 + (sp + 1) / 2) B1' ltac:(lia) s N0) as Q. rewrite Z.mul_0_r, Z.add_0_r in Q. exact Q. }
    apply (list_mix w k L T kb b OK Sm s R0 _ _ 1%R sp p mp Hst Hr Hx); [|exact Hsp|exact Hp| | | |].
    + refine (ov_eq _ _ _ _ _ _ _ _ O _ _ _); ring.
    + intros sg _ K. split; [lra|]. apply kept_nz in K. exact K.
    + apply kept_one.
    + intros sg Hs'. unfold nrms, norm_TPZ. destruct (De (sg * R0)%Z) as (E1 & E2 & E3). unfold f1TPZ. rewrite E1, E2, E3. cbn [e_N]. rewrite (sgn_mul sg R0 Hs' Hr), !mult_IZR.
      destruct (half_v sp Hsp) as [[-> ->]|[-> ->]]; cbn [Z.add Pos.add Pos.succ]; destruct (pm_R sg Hs') as [Q [-> | ->]]; field; lra.
    + intros sg sc l Hs'. unfold mixb. destruct (De (sg * R0)%Z) as (E1 & E2 & E3). unfold f1TPZ. rewrite E1, E3. destruct (half_v sp Hsp) as [[-> ->]|[-> ->]]; cbn [Z.add Pos.add Pos.succ]; reflexivity.
  - apply kept_nil.
  - (* P and Z without PZ *) exfalso. destruct (rho_prod s mp sp mz sz Hst Tc Np Nz F1 F2) as ([(x & E & _)|(_ & E)] & _); [exact (no_ret_first hPZ s spz HPZ Hst F3 x E)|].
    destruct (rho_prod s mp sp mz sz Hst Tc Np Nz F1 F2) as (_ & _ & S0). apply (f_equal fst) in E. cbn [fst] in E. revert E. idtac.
    pose proof (no_ret_first hPZ s spz HPZ Hst F3) as NR0. destruct (ret_first w k L T kb b OK hP s mp sp HP Hst eq_refl F1) as [(i & -> & _ & E1 & E2 & _)|(E & _)]; [|contradiction].
    destruct (ret_first w k L T kb b OK hZ s mz sz HZ Hst eq_refl F2) as [(j & -> & _ & E3 & E4 & _)|(E & _)]; [|contradiction]. intros _.
    pose proof (g_Xm _ _ _ _ _ _ _ (block_grp w k L T b OK) (- Z.of_nat i) hP (Z.of_nat j) hZ s HP HZ (proj2 (M_st k L s) Hst)) as EX. cbn [two_of translates eps andb negb fst snd sg] in EX, E1, E3. change (hx hP hZ) with hPZ in EX. rewrite E1, E3 in EX. exact (NR0 _ (eq_sym EX)).
  - (* all *) assert (B1' : (0 <= mp < Z.of_nat L)%Z) by lia. assert (B2' : (0 <= mz < Z.of_nat L)%Z) by lia. destruct (rho_prod s mp sp mz sz Hst Tc Np Nz F1 F2) as (Q1' & Q2' & S0).
    pose proof (over_four s R0 _ _ _ _ _ Hst Tc Lp P1 P2 Z1 Z2 Q1' Q2') as O'. clear O. destruct (v_yes mp sp Np) as [V1 V2], (v_yes mz sz Nz) as [V3 V4]. rewrite V1, V2, V3 in O'.
    assert (De : forall N0, let e := mk s N0 (mp + (Z.of_nat L + 1) * mz + (7 + (sp + 1) / 2 + 2 * ((sz + 1) / 2)) * ((Z.of_nat L + 1) * (Z.of_nat L + 1))) in mmTPZ L e = mp /\ nnTPZ L e = mz /\ cTPZ L e = (7 + (sp + 1) / 2 + 2 * ((sz + 1) / 2))%Z).
    { intros N0. exact (dec_m mp mz (7 + (sp + 1) / 2 + 2 * ((sz + 1) / 2)) B1' B2' s N0). }
    apply (list_mix w k L T kb b OK Sm s R0 _ _ (1 + IZR z * (IZR sz * cosm mz))%R sp p mp Hst Hr Hx); [|exact Hsp|exact Hp| | | |].
    + refine (ov_eq _ _ _ _ _ _ _ _ O' _ _ _); rewrite ?mult_IZR; ring.
    + intros sg _ K. apply Bool.andb_true_iff in K. destruct K as [K _]. apply Bool.negb_true_iff, Bool.orb_false_iff in K. destruct K as [K1 K2]. apply Rzero_f in K1. apply Rzero_f in K2. split.
      * assert (GE : (0 <= 1 + IZR z * (IZR sz * cosm mz))%R) by lra. destruct GE as [GE|GE]; [exact GE|]. exfalso. apply K2. rewrite GE. ring.
      * intros E. apply K1. rewrite <- E. ring.
    + intros K1 K2. cbn [Z.eqb Pos.eqb andb] in K1, K2. rewrite Bool.andb_true_r in K1. apply Bool.andb_true_iff in K2. destruct K2 as [_ K2]. apply Bool.negb_true_iff, Bool.orb_false_iff in K2. destruct K2 as [K2 _]. apply Bool.negb_false_iff, Rzero_t in K2.
      apply Bool.negb_true_iff, Bool.orb_false_iff in K1. destruct K1 as [K1 _]. apply Rzero_f in K1. apply K1. rewrite <- K2. ring.
    + intros sg Hs'. unfold nrms, norm_TPZ. destruct (De (sg * R0)%Z) as (E1 & E2 & E3). unfold f1TPZ. rewrite E1, E2, E3. cbn [e_N]. rewrite (sgn_mul sg R0 Hs' Hr), !mult_IZR.
      destruct (half_v sp Hsp) as [[-> ->]|[-> ->]], (half_v sz Hsz) as [[-> ->]|[-> ->]]; cbn [Z.add Z.mul Pos.mul Pos.add Pos.succ]; destruct (pm_R sg Hs') as [Q [-> | ->]]; field; lra.
    + intros sg sc l Hs'. unfold mixb. destruct (De (sg * R0)%Z) as (E1 & E2 & E3). unfold f1TPZ. rewrite E1, E3. destruct (half_v sp Hsp) as [[-> ->]|[-> ->]], (half_v sz Hsz) as [[-> ->]|[-> ->]]; cbn [Z.add Z.mul Pos.mul Pos.add Pos.succ]; reflexivity.
Qed.
End F.

Lemma keep_semi_ok w k L T kb b : block_ok w k L T b -> semi b = true -> forall s, is_state k L s -> exists es, keep w k L T kb b s = Some es /\ kept_semi w k L T kb b s es.
Proof.
  intros OK Sm s Hst. pose proof (SFb w k L T b OK) as SF. pose proof (fun HC => C39_one_symmetry w k L T s (q_of kb b) SF HC Hst) as OC. pose proof (fun HC => C39_two_symmetries w k L T s (q_of kb b) SF HC Hst) as TC.
  destruct (Logic.conj OK I) as [(_ & HC & H) _]. destruct b; try discriminate Sm; cbn [keep].
  - apply (keep_one w k L T kb (BT_P p) OK Sm s (true, false)); try reflexivity; [exact Hst|unfold chi, chiZ; cbn [q12 fst snd]; rewrite Z.mul_1_r; reflexivity|exact H|]. exact (proj1 (OC (HC eq_refl))).
  - apply (keep_one w k L T kb (BT_PZ pz) OK Sm s (true, true)); try reflexivity; [exact Hst|unfold chi, chiZ; cbn [q12 fst snd]; rewrite Z.mul_1_r; reflexivity|exact (proj2 H)|]. exact (proj2 (proj2 (OC (HC eq_refl)) (proj1 H))).
  - apply (keep_four w k L T kb p z OK s Hst). exact (proj1 (TC (HC eq_refl)) (proj1 H)).
Qed.
