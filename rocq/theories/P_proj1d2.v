(* What the loops of the projectors of the one-dimensional bases add up. *)
From Verif Require Import AuxN SpecC SpecOps SpecMaps SpecFermi SpecChain M_bits1d SpecChain1d SpecCheck1d SpecBlock1d M_check1d
  P_maps P_square P_bits1d P_bits1d4 P_bits1d5 P_check1d P_check1d2 P_check1d3 P_check1d4 P_check1d5 P_block1d P_block1d2 P_block1d3 P_block1d4
  M_ops M_op1d P_op1d P_op1d2 M_proj1d P_proj1d C39_checks.
From Coq Require Import Permutation.
Local Open Scope nat_scope.

Section S.
Variables (w : btype) (k : kind) (L T kb : nat) (b : block).
Hypothesis OK : block_ok w k L T b.
Hypothesis Hsh : translates b = false -> shift_fits w k L (Z.of_nat L).
Notation M := (Mst k L).
Notation two := (two_of b).
Notation tf := (translates b).
Notation n := (n_of L T b).
Notation Hs := (heads b).
Notation To := (T_of T b).
Notation X := (X w k L To two n).
Notation G := (G w k L To two n).
Notation eps := (eps two tf).

(* the visits with r translations *)
Definition row_visits (s : N) (r : nat) : list visit :=
  map (fun h => vis r (chiZ b h) (X (- Z.of_nat r) h s) (G (- Z.of_nat r) h s)) (h0 :: flip_heads b).
Lemma stage_ok fs hs : Forall2 (flip_ok w k L T b) fs hs -> forall r s g, is_state k L s ->
  flip_stage w k L T r fs (s, g) = Some (map (fun h => vis r (chiZ b h) (X 0 h s) (g * G 0 h s)%Z) hs, (s, g)).
Proof.
  induction 1 as [|[[label go] back] h fs hs F _ IH]; intros r s g Hst; [reflexivity|]. destruct F as (Hh & -> & F). destruct (F s g Hst) as [F1 F2].
  cbn [flip_stage]. rewrite F1, F2, (IH r s g Hst). reflexivity.
Qed.
Lemma heads_flip h : In h (h0 :: flip_heads b) -> In h Hs.
Proof. intros Hh. exact (Permutation_in _ (flip_perm b) Hh). Qed.
Lemma stages_ok pz : pz = [LP; LZ] \/ pz = [LZ; LP] -> forall s, is_state k L s -> forall c r,
  stages w k L T b (flips b pz) c r (X (- Z.of_nat r) h0 s, G (- Z.of_nat r) h0 s) = Some (flat_map (row_visits s) (seq r c), X (- Z.of_nat (r + c)) h0 s).
Proof.
  intros Hpz s Hst. pose proof (block_grp w k L T b OK) as GR. pose proof (proj2 (M_st k L s) Hst) as Ds. pose proof (g_H0 _ _ _ _ _ _ _ GR) as H0.
  induction c as [|c IH]; intros r; [rewrite Nat.add_0_r; reflexivity|]. cbn [stages].
  assert (D1 : (X (- Z.of_nat r) h0 s < N.of_nat M)%N) by (apply (g_XD _ _ _ _ _ _ _ GR); assumption). assert (S1 : is_state k L (X (- Z.of_nat r) h0 s)) by (apply M_st, D1).
  rewrite (stage_ok _ _ (flips_ok w k L T b OK pz Hpz) r _ _ S1), (shift_back w k L T b OK Hsh _ _ S1).
  rewrite (g_Xm _ _ _ _ _ _ _ GR _ h0 _ h0 s H0 H0 Ds), (g_Gm _ _ _ _ _ _ _ GR _ h0 _ h0 s H0 H0 Ds). rewrite (P_block1d.e0 _ _ _ _ _ _ _ GR), hx_0. cbn [sg].
  replace (- Z.of_nat r + -1)%Z with (- Z.of_nat (S r))%Z by lia. rewrite (IH (S r)). cbn [seq flat_map fst snd]. rewrite Nat.add_succ_comm. f_equal. f_equal.
  unfold row_visits at 2. cbn [map app]. f_equal.
  f_equal. apply map_ext_in. intros h Hh. assert (Ih : In h Hs) by (apply heads_flip; right; exact Hh).
  rewrite (g_Xm _ _ _ _ _ _ _ GR _ h0 _ h s H0 Ih Ds), (g_Gm _ _ _ _ _ _ _ GR _ h0 _ h s H0 Ih Ds), (P_block1d.e0 _ _ _ _ _ _ _ GR), hx_0. cbn [sg]. rewrite Z.add_0_r. reflexivity.
Qed.
Lemma visits_ok pz s : pz = [LP; LZ] \/ pz = [LZ; LP] -> is_state k L s -> visits w k L T b pz s = Some (flat_map (row_visits s) (seq 0 n), s).
Proof.
  intros Hpz Hst. pose proof (block_grp w k L T b OK) as GR. pose proof (proj2 (M_st k L s) Hst) as Ds. pose proof (g_H0 _ _ _ _ _ _ _ GR) as H0. pose proof (stages_ok pz Hpz s Hst (L / step L T b) 0) as E.
  change (- Z.of_nat 0)%Z with 0%Z in E. rewrite (g_X0 _ _ _ _ _ _ _ GR s Ds), (G0 _ _ _ _ _ _ _ GR s Ds) in E. unfold visits. rewrite E. rewrite (step_n w k L T b OK). f_equal. f_equal. cbn [Nat.add].
  replace (- Z.of_nat n)%Z with (0 - Z.of_nat n)%Z by lia. rewrite <- (g_Xn _ _ _ _ _ _ _ GR (0 - Z.of_nat n)%Z h0 s H0 Ds). replace (0 - Z.of_nat n + Z.of_nat n)%Z with 0%Z by lia. apply (g_X0 _ _ _ _ _ _ _ GR s Ds).
Qed.

(* the coefficients are those of the specification, with the translations reversed *)
Lemma kval_th : tf = true -> kval L T kb = th_of L T kb b. Proof. intros E. unfold th_of. rewrite E. reflexivity. Qed.
Lemma C_cf e r : e_N e <> 0%Z -> r < n -> C_fun L T kb b e r = cf L T kb b (e_N e) (- Z.of_nat r).
Proof.
  intros HN Hr. unfold C_fun, cf. destruct (semi b) eqn:Sm.
  - rewrite (kval_th (semi_tf w k L T b OK Sm)). destruct (Z.ltb_spec 0 (e_N e)) as [Hp|Hp].
    + unfold cp. f_equal. rewrite opp_IZR, <- INR_IZR_INZ. rewrite Ropp_mult_distr_r_reverse, cos_neg. reflexivity.
    + destruct (Z.ltb_spec (e_N e) 0); [|lia]. unfold cm. f_equal. rewrite opp_IZR, <- INR_IZR_INZ. rewrite Ropp_mult_distr_r_reverse, sin_neg. reflexivity.
  - destruct (Bool.bool_dec tf true) as [E|E].
    + rewrite E. unfold cab. rewrite <- (kval_th E). rewrite opp_IZR, <- INR_IZR_INZ. replace (- (kval L T kb * - INR r))%R with (kval L T kb * INR r)%R by ring.
      destruct (Nat.eqb_spec kb 0) as [->|K0]; [unfold kval; cbn [INR]; replace (2 * PI * 0 * INR T / INR L * INR r)%R with 0%R by (unfold Rdiv; ring); symmetry; apply cis_0|].
      destruct (Nat.eqb_spec (2 * kb * T) L) as [KL|_]; [|reflexivity].
      pose proof (L_pos w k L T b OK) as LP. assert (EK : kval L T kb = PI). { unfold kval. rewrite <- KL, !mult_INR. change (INR 2) with 2%R. pose proof (lt_0_INR (2 * kb * T) ltac:(lia)) as Q. rewrite !mult_INR in Q. change (INR 2) with 2%R in Q. field. split; [intros Z; rewrite Z in Q; lra|intros Z; rewrite Z in Q; lra]. }
      rewrite EK. clear. induction r as [|r IH]; [cbn [pow INR]; rewrite Rmult_0_r; symmetry; apply cis_0|]. rewrite S_INR. cbn [pow]. replace (PI * (INR r + 1))%R with (PI * INR r + PI)%R by ring. rewrite cis_add, <- IH. unfold cis. rewrite cos_PI, sin_PI. apply C_eq; cbn; ring.
    + apply Bool.not_true_is_false in E. rewrite E. unfold cab, th_of. rewrite E, Rmult_0_l, Ropp_0. symmetry. apply cis_0.
Qed.
(* the sum over all visits of a state *)
Lemma sum_visits e (F : N -> bool) t : e_N e <> 0%Z -> is_state k L (e_s e) -> is_state k L t -> (forall r h, In h Hs -> F (X r h (e_s e)) = (X r h (e_s e) =? t)%N) ->
  Csum (flat_map (row_visits (e_s e)) (seq 0 n)) (fun v => if F (v_state v) then weight L T kb b e v else C0) =
  (V n Hs (chi b) X G (cf L T kb b (e_N e)) (e_s e) t * RtoC (/ norm_of L T kb b e))%C.
Proof.
  intros HN Hst Ht HF. pose proof (block_grp w k L T b OK) as GR. pose proof (proj2 (M_st k L (e_s e)) Hst) as Ds. pose proof (g_Hn _ _ _ _ _ _ _ GR) as Hn. set (s := e_s e) in *. set (c := cf L T kb b (e_N e)). rewrite Csum_flat.
  transitivity (Csum (zs n) (fun r => Csum Hs (fun h => c (- r)%Z * ch (chi b) h * U X G (- r)%Z h s t * RtoC (/ norm_of L T kb b e)))%C).
  - unfold zs. rewrite Csum_map. apply Csum_ext. intros r Hr. apply in_seq in Hr. unfold row_visits. rewrite Csum_map, <- (Csum_perm _ _ _ (flip_perm b)). apply Csum_ext. intros h Hh. cbn [v_state v_r v_label v_sign].
    assert (Ih : In h Hs) by (apply heads_flip, Hh). rewrite (HF _ _ Ih). unfold U, Gc, ch, chi. destruct (_ =? t)%N; [|ring]. unfold weight. cbn [v_r v_label v_sign]. rewrite C_cf by (assumption || lia). fold c. ring.
  - unfold V. rewrite <- Csum_mul_r. pose proof (cf_per w k L T kb b OK (e_N e)) as Pc. fold c in Pc.
    rewrite <- (reindex_sg n Hn true 0 (fun r => Csum Hs (fun h => c r * ch (chi b) h * U X G r h s t) * RtoC (/ norm_of L T kb b e))%C).
    + apply Csum_ext. intros r _. cbv beta. cbn [sg]. rewrite Z.add_0_l, <- Csum_mul_r. reflexivity.
    + intros r. f_equal. apply Csum_ext. intros h Hh. rewrite (Pc r), (U_per _ _ _ _ _ _ _ GR h s t Hh Ds r). reflexivity.
Qed.
End S.
