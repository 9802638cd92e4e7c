(* The norms of _get_norms are those of the symmetric states. *)
From Verif Require Import AuxN SpecC SpecOps SpecMaps SpecFermi SpecChain M_bits1d SpecChain1d SpecCheck1d SpecBlock1d M_check1d
  P_bits1d P_check1d P_check1d3 P_block1d P_block1d2 P_block1d3 P_block1d4 M_ops M_op1d P_op1d P_op1d2 P_op1d3 P_op1d4 P_op1d5 P_op1d6 P_op1d7 P_semi1d P_semi1d2 P_semi1d3 P_semi1d4
  M_proj1d P_proj1d2 P_proj1d3 C39_checks.
Local Open Scope nat_scope.

Lemma int8_id x : (-128 <= x <= 127)%Z -> int8 x = x.
Proof. intros H. unfold int8. rewrite Z.mod_small by lia. lia. Qed.
Lemma sin_low x : (0 <= x <= 2)%R -> (x / 3 <= sin x)%R.
Proof.
  intros [H0 H2]. pose proof (proj1 (pre_sin_bound x 0 H0 ltac:(lra))) as B. unfold sin_approx, sin_term in B. cbn [sum_f_R0 Nat.mul Nat.add pow fact INR] in B.
  refine (Rle_trans _ _ _ _ B). replace (-1 * 1 * (x * (x * (x * 1)) / (1 + 1 + 1 + 1 + 1 + 1)))%R with (- (x * (x * x) / 6))%R by field. nra.
Qed.
Lemma sin_gap j n : 1 <= n -> j mod n <> 0 -> (1 / INR n <= Rabs (sin (PI * INR j / INR n)))%R.
Proof.
  intros Hn Hj. assert (Pn : (0 < INR n)%R) by (apply lt_0_INR; lia). pose proof PI2_3_2 as P3. pose proof PI_4 as P4.
  pose proof (Nat.div_mod j n ltac:(lia)) as Ed. pose proof (Nat.mod_upper_bound j n ltac:(lia)) as Hr. set (r := j mod n) in *. set (q := j / n) in *.
  assert (E : Rabs (sin (PI * INR j / INR n)) = Rabs (sin (PI * INR r / INR n))).
  { rewrite Ed, plus_INR, mult_INR. replace (PI * (INR n * INR q + INR r) / INR n)%R with (PI * INR r / INR n + INR q * PI)%R by (field; lra). clear. induction q as [|q IH]; [cbn [INR]; rewrite Rmult_0_l, Rplus_0_r; reflexivity|].
    rewrite S_INR. replace (PI * INR r / INR n + (INR q + 1) * PI)%R with (PI * INR r / INR n + INR q * PI + PI)%R by ring. rewrite neg_sin, Rabs_Ropp. exact IH. }
  rewrite E. assert (Low : forall m, 1 <= m -> 2 * m <= n -> (1 / INR n <= sin (PI * INR m / INR n))%R).
  { intros m H1 H2. assert (M1 : (1 <= INR m)%R) by (change 1%R with (INR 1); apply le_INR, H1). assert (M2 : (2 * INR m <= INR n)%R) by (change 2%R with (INR 2); rewrite <- mult_INR; apply le_INR, H2).
    assert (B1 : (3 * / INR n <= PI * INR m / INR n)%R). { unfold Rdiv. apply Rmult_le_compat_r; [left; apply Rinv_0_lt_compat, Pn|nra]. }
    assert (B2 : (PI * INR m / INR n <= 2)%R). { apply (Rmult_le_reg_r (INR n)); [exact Pn|]. unfold Rdiv. rewrite Rmult_assoc, Rinv_l, Rmult_1_r by lra. nra. }
    pose proof (Rinv_0_lt_compat _ Pn) as Pi'. pose proof (sin_low (PI * INR m / INR n) ltac:(split; lra)) as S. lra. }
  destruct (Nat.le_gt_cases (2 * r) n) as [H|H].
  - refine (Rle_trans _ _ _ (Low r ltac:(lia) H) (Rle_abs _)).
  - refine (Rle_trans _ _ _ (Low (n - r) ltac:(lia) ltac:(lia)) _). rewrite minus_INR by lia. replace (PI * (INR n - INR r) / INR n)%R with (PI - PI * INR r / INR n)%R by (field; lra). rewrite sin_PI_x. apply Rle_abs.
Qed.

Section S.
Variables (w : btype) (k : kind) (L T kb : nat) (b : block).
Hypothesis OK : block_ok w k L T b.
Notation n := (n_of L T b).
Notation tf := (translates b).
Notation LZ1 := (Z.of_nat L + 1)%Z.
Lemma cells2_n : tf = true -> cells2 L T = (INR n * INR n)%R.
Proof.
  intros E. destruct (cells_n w k L T b OK E) as (E1 & E2 & E3 & _). unfold cells2. rewrite E1 at 1 2. rewrite mult_INR. assert (0 < INR T)%R by (apply lt_0_INR; lia). field. lra.
Qed.
Lemma flat_n : tf = true -> flat L T kb = ((2 * kb) mod n =? 0).
Proof.
  intros E. destruct (cells_n w k L T b OK E) as (E1 & E2 & E3 & _). unfold flat. rewrite E1 at 1. rewrite (Nat.mul_comm T n), Nat.mul_mod_distr_r by lia.
  destruct (Nat.eqb_spec ((2 * kb) mod n) 0) as [->|Ne]; [reflexivity|]. destruct (Nat.eqb_spec ((2 * kb) mod n * T) 0); [nia|reflexivity].
Qed.
Lemma kval_n : tf = true -> kval L T kb = (PI * INR (2 * kb) / INR n)%R.
Proof.
  intros E. destruct (cells_n w k L T b OK E) as (E1 & E2 & E3 & _). unfold kval. rewrite E1 at 1. rewrite !mult_INR. change (INR 2) with 2%R. assert (0 < INR T)%R by (apply lt_0_INR; lia). assert (0 < INR n)%R by (apply lt_0_INR; lia). field. lra.
Qed.
Lemma small_flat : tf = true -> small_sin L T kb = flat L T kb.
Proof.
  intros E. destruct (cells_n w k L T b OK E) as (E1 & E2 & E3 & _). pose proof (L_pos w k L T b OK) as HL. assert (PL : (0 < INR L)%R) by (apply lt_0_INR; lia). unfold small_sin. destruct (flat L T kb) eqn:F.
  - pose proof (flat_sinm L T kb HL 1 F) as S. unfold sinm in S. rewrite Rmult_1_r in S. rewrite S, Rabs_R0. destruct (Rlt_dec 0 (1 / INR L)) as [|N]; [reflexivity|]. destruct N. apply Rdiv_lt_0_compat; lra.
  - destruct (Rlt_dec _ _) as [Hlt|]; [|reflexivity]. rewrite (flat_n E) in F. apply Nat.eqb_neq in F. rewrite (kval_n E) in Hlt. pose proof (sin_gap (2 * kb) n E2 F) as G.
    assert (1 / INR L <= 1 / INR n)%R. { unfold Rdiv. rewrite !Rmult_1_l. apply Rinv_le_contravar; [apply lt_0_INR; lia|]. apply le_INR, (n_le_L w k L T b OK). } lra.
Qed.
Lemma nu_flat : tf = true -> nu (th_of L T kb b) = if flat L T kb then 1%R else (/ 2)%R.
Proof.
  intros E. pose proof (L_pos w k L T b OK) as HL. rewrite <- (kval_th L T kb b E). unfold nu. destruct (flat L T kb) eqn:F.
  - pose proof (flat_sinm L T kb HL 1 F) as S. unfold sinm in S. rewrite Rmult_1_r in S. destruct (Req_EM_T (cos (2 * kval L T kb)) 1) as [|N]; [reflexivity|]. destruct N. rewrite cos_2a_sin, S. ring.
  - pose proof (nonflat_gen L T kb HL F) as G. destruct (Req_EM_T (cos (2 * kval L T kb)) 1) as [N|]; [|reflexivity]. exfalso. apply gen_cos in G. contradiction.
Qed.
(* the conditions under which the small integers of _get_norms hold the labels *)
Definition fits8 : Prop :=
  match b with
  | BT_P _ => kb < L / T /\ (T = 1 \/ 2 * kb * T <> L)
  | BT_Z _ | BT_PZ _ => L <= 63
  | BT_A _ | BT_B _ | BT_A_B _ _ => L <= 128
  | BT_P_Z _ _ => L <= 10
  | _ => True
  end.
Definition Kn : R := if semi b then kap0 L T kb b else kap L T b.
Definition nr (e : entry) : R := if semi b then nrms L T kb b e else nrm L T kb b e.
Lemma sgn_Z x : x <> 0%Z -> Z.sgn x = sgn x.
Proof. intros H. unfold sgn. destruct (Z.ltb_spec 0 x); [apply Z.sgn_pos; lia|apply Z.sgn_neg; lia]. Qed.
Lemma sgn_2h h x : (h = 0 \/ h = 1)%Z -> x <> 0%Z -> IZR (Z.sgn ((h * 2 - 1) * x)) = (IZR (2 * h - 1) * IZR (sgn x))%R.
Proof. intros Hh Hx. rewrite Z.sgn_mul, (sgn_Z x Hx), mult_IZR. f_equal. destruct Hh as [-> | ->]; reflexivity. Qed.
Lemma dm m h : (0 <= m < LZ1)%Z -> ((m + h * LZ1) mod LZ1 = m /\ (m + h * LZ1) / LZ1 = h)%Z.
Proof. intros H. rewrite Z.mod_add, Z.div_add by lia. rewrite Z.mod_small, Z.div_small by lia. lia. Qed.
Lemma special_flat : tf = true -> kb < L / T -> T = 1 \/ 2 * kb * T <> L -> special_k L kb = flat L T kb.
Proof.
  intros E Hk D. destruct (cells_n w k L T b OK E) as (E1 & E2 & E3 & _). rewrite (flat_n E). assert (En : n = L / T) by (unfold n_of; rewrite E; reflexivity). unfold special_k.
  destruct (Nat.eqb_spec ((2 * kb) mod n) 0) as [Z|Z].
  - apply Nat.mod_divide in Z; [|lia]. destruct Z as [c Hc]. assert (c = 0 \/ c = 1) as [-> | ->] by nia.
    + destruct (Nat.eqb_spec kb 0); [apply Bool.orb_true_r|lia].
    + destruct D as [-> |D]; [|nia]. destruct (Nat.eqb_spec (2 * kb) L); [reflexivity|lia].
  - destruct (Nat.eqb_spec (2 * kb) L) as [Q|_]; [destruct Z; apply Nat.mod_divide; [lia|]; exists T; rewrite Q; exact E1|]. destruct (Nat.eqb_spec kb 0) as [->|]; [destruct Z; apply Nat.mod_0_l; lia|reflexivity].
Qed.
Lemma norm2_eq e : fits8 -> lab L b e -> norm2 L T kb b e = (Kn * nr e)%R.
Proof.
  intros F Hl. pose proof (L_pos w k L T b OK) as HL. pose proof cells2_n as C2. pose proof small_flat as SF. pose proof nu_flat as NF. pose proof special_flat as SpF.
  unfold Kn, nr, kap0, kap, norm2, fits8, lab in *. destruct b; cbn [semi translates heads length] in *; try (specialize (C2 eq_refl)); try (specialize (SF eq_refl)); try (specialize (NF eq_refl)); unfold nrms, nrm; try (symmetry; apply Rmult_1_l); rewrite ?C2; cbn [INR].
  - (* T *) assert (IZR (e_N e) <> 0%R) by (apply not_0_IZR; lia). field. assumption.
  - (* T Z *) destruct Hl as (HN & m & h & Em & Hm & Hh). assert (IZR (e_N e) <> 0%R) by (apply not_0_IZR; lia). unfold norm_TZ. rewrite Em. destruct (dm m h ltac:(lia)) as [D1 D2]. rewrite (int8_id (m + h * LZ1)) by lia. rewrite D1, D2. rewrite (int8_id m) by lia. rewrite (int8_id h) by lia. rewrite (Z.mul_comm h 2).
    destruct (0 <=? m - 1)%Z; field; assumption.
  - (* T A *) destruct Hl as (HN & Hm). assert (IZR (e_N e) <> 0%R) by (apply not_0_IZR; lia). unfold norm_sub. destruct (Z.ltb_spec 0 (e_m e)), (Z.leb_spec 0 (e_m e - 1)); try lia; [rewrite int8_id by lia|]; field; assumption.
  - (* T B *) destruct Hl as (HN & Hm). assert (IZR (e_N e) <> 0%R) by (apply not_0_IZR; lia). unfold norm_sub. destruct (Z.ltb_spec 0 (e_m e)), (Z.leb_spec 0 (e_m e - 1)); try lia; [rewrite int8_id by lia|]; field; assumption.
  - (* T A B *) destruct Hl as (HN & m & c & Em & Hm & Hc). assert (IZR (e_N e) <> 0%R) by (apply not_0_IZR; lia). unfold norm_AB. rewrite Em. destruct (dm m c ltac:(lia)) as [D1 D2]. rewrite D1, D2, !int8_id by lia.
    assert (c = 1 \/ c = 2 \/ c = 3 \/ c = 4)%Z as [-> | [-> | [-> | ->]]] by lia; rewrite ?mult_IZR; field; assumption.
  - (* T P *) destruct Hl as (HN & m & h & Em & Hm & Hh). assert (IZR (e_N e) <> 0%R) by (apply not_0_IZR; lia). unfold norm_TP, fTP. rewrite (SpF eq_refl (proj1 F) (proj2 F)), NF, Em. destruct (dm m h ltac:(lia)) as [D1 D2]. rewrite D1, D2. rewrite (int8_id h) by lia. rewrite (sgn_2h h _ Hh HN), (sgn_Z _ HN).
    destruct (0 <=? m - 1)%Z, (flat L T kb); field; assumption.
  - (* T PZ *) destruct Hl as (HN & m & h & Em & Hm & Hh). assert (IZR (e_N e) <> 0%R) by (apply not_0_IZR; lia). unfold norm_TP, fTP. rewrite SF, NF, Em. destruct (dm m h ltac:(lia)) as [D1 D2]. rewrite (int8_id (m + h * LZ1)) by lia. rewrite D1, D2. rewrite (int8_id m) by lia. rewrite (int8_id h) by lia. rewrite (sgn_2h h _ Hh HN), (sgn_Z _ HN).
    destruct (0 <=? m - 1)%Z, (flat L T kb); field; assumption.
  - (* T P Z *) destruct Hl as (HN & m & j & c & Em & Hm & Hj & Hc). assert (NR : IZR (e_N e) <> 0%R) by (apply not_0_IZR; lia). 
    assert (E1 : (e_m e mod LZ1 = m /\ e_m e / LZ1 = j + c * LZ1)%Z) by (rewrite Em; replace (m + j * LZ1 + c * (LZ1 * LZ1))%Z with (m + (j + c * LZ1) * LZ1)%Z by ring; apply dm; lia). destruct E1 as [E1 E2].
    destruct (dm j c ltac:(lia)) as [E3 E4]. assert (E5 : (e_m e / (LZ1 * LZ1) = c)%Z) by (rewrite <- Z.div_div by lia; rewrite E2; exact E4).
    assert (Bc : (0 <= c * LZ1 <= 110)%Z) by (split; [apply Z.mul_nonneg_nonneg; lia|change 110%Z with (10 * 11)%Z; apply Z.mul_le_mono_nonneg; lia]).
    assert (G1 : int8 (e_m e / (LZ1 * LZ1)) = c) by (rewrite E5; apply int8_id; clear - Hc; lia). assert (G2 : int8 (int8 (e_m e / LZ1) mod LZ1) = j) by (rewrite E2, (int8_id (j + c * LZ1) ltac:(clear - Bc Hj F; lia)), E3; apply int8_id; clear - Hj F; lia). assert (G3 : int8 (e_m e mod LZ1) = m) by (rewrite E1; apply int8_id; clear - Hm F; lia).
    assert (G4 : cTPZ L e = c) by (unfold cTPZ; rewrite E2; exact E4). assert (G5 : nnTPZ L e = j) by (unfold nnTPZ; rewrite E2; exact E3). assert (G6 : mmTPZ L e = m) by exact E1.
    assert (c = 0 \/ c = 1 \/ c = 2 \/ c = 3 \/ c = 4 \/ c = 5 \/ c = 6 \/ c = 7 \/ c = 8 \/ c = 9 \/ c = 10)%Z as Cs by (clear - Hc; lia). unfold norm_TPZ, f1TPZ. cbv zeta.
    rewrite G4, G1. clear - Cs NR G2 G3 G5 G6 HN SF NF.
    destruct Cs as [-> | [-> | [-> | [-> | [-> | [-> | [-> | [-> | [-> | [-> | ->]]]]]]]]]]; cbv match; rewrite ?G2, ?G3, ?G5, ?G6, SF, NF, (sgn_Z _ HN), ?mult_IZR; destruct (flat L T kb); field; assumption.
Qed.
End S.
