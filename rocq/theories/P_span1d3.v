(* Semi-momentum blocks: the kept states span the cosine and sine states of every orbit. *)
From Verif Require Import AuxN SpecC SpecOps SpecMaps SpecFermi SpecChain M_bits1d SpecChain1d SpecCheck1d SpecBlock1d M_check1d
  P_maps P_square P_bits1d P_bits1d4 P_bits1d5 P_check1d P_check1d2 P_check1d3 P_check1d4 P_check1d5 P_block1d P_block1d2 P_block1d3 P_block1d4
  M_ops M_symop P_symop P_photon M_op1d P_op1d P_op1d2 P_op1d3 P_op1d4 P_op1d5 P_op1d6 P_semi1d P_semi1d2 P_semi1d3 P_span1d P_span1d2 C39_checks C39_reference C39_translations.
From Coq Require Import Permutation.
Local Open Scope nat_scope.

Lemma Rzero_no x : x <> 0%R -> Rzero x = false. Proof. intros H. unfold Rzero. destruct (Req_EM_T x 0); [contradiction|reflexivity]. Qed.
Lemma Rzero_yes x : x = 0%R -> Rzero x = true. Proof. intros H. unfold Rzero. destruct (Req_EM_T x 0); [reflexivity|contradiction]. Qed.
Section S.
Variables (w : btype) (k : kind) (L T kb : nat) (b : block).
Hypothesis OK : block_ok w k L T b.
Hypothesis Sm : semi b = true.
Notation M := (Mst k L).
Notation two := (two_of b).
Notation tf := (translates b).
Notation n := (n_of L T b).
Notation Hs := (heads b).
Notation To := (T_of T b).
Notation X := (X w k L To two n).
Notation G := (G w k L To two n).
Notation eps := (eps two tf).
Notation th := (th_of L T kb b).
Notation V := (V n Hs (chi b) X G).
Notation cp := (cp th).
Notation cm := (cm th).
Notation cosm := (cosm L T kb).
Notation sinm := (sinm L T kb).
Notation Tcond := (Tcond w k L T kb b).
Notation cf := (cf L T kb b).
Notation dot := (dotv M).
Notation overlaps := (overlaps w k L T kb b).
Notation kap0 := (kap0 L T kb b).
Notation flat := (flat L T kb).
Notation sigmas := (sigmas L T kb).
Notation vcos := (vcos L T kb).
Notation vsin := (vsin L T kb).
(* the cosine or sine state of s is zero or a multiple of a kept one *)
Definition hit (s : N) (es : list entry) (sigma : Z) : Prop :=
  (forall t, V (cf sigma) s t = C0) \/ exists e a, In e es /\ e_s e = s /\ forall t, V (cf sigma) s t = (a * V (cf (sgn (e_N e))) s t)%C.
Lemma flat_cm s t : flat = true -> V cm s t = C0.
Proof.
  intros Hf. unfold P_block1d.V. apply Csum_zero. intros r _. apply Csum_zero. intros h _. rewrite (cm_sin w k L T kb b OK Sm), (flat_sinm L T kb (L_pos w k L T b OK) r Hf). apply C_eq; cbn; ring.
Qed.
Lemma hit_kept s r Mv Pd sg : (0 < r)%Z -> plus_minus sg -> In sg sigmas -> Pd sg = true -> hit s (map (fun sg => mk s (sg * r) Mv) (filter Pd sigmas)) sg.
Proof.
  intros Hr Hs Hi Hp. right. exists (mk s (sg * r) Mv), C1. split; [apply in_map_iff; exists sg; split; [reflexivity|]; apply filter_In; auto|]. split; [reflexivity|]. intros t. cbn [e_N]. rewrite (sgn_mul sg r Hs Hr). ring.
Qed.
Lemma cf1 : cf 1 = cp. Proof. apply (cf_pos L T kb b Sm). lia. Qed.
Lemma cfm : cf (-1) = cm. Proof. apply (cf_neg L T kb b Sm). lia. Qed.
Lemma in_one : In 1%Z sigmas. Proof. unfold M_op1d.sigmas. destruct flat; cbn; auto. Qed.
Lemma in_both : flat = false -> In (-1)%Z sigmas. Proof. intros E. unfold M_op1d.sigmas. rewrite E. cbn; auto. Qed.
Lemma null_self s kp A B Y sr : is_state k L s -> overlaps s kp A B Y -> plus_minus sr -> (sr = 1%Z \/ flat = false) -> (A + IZR sr * B = 0)%R -> forall t, V (cf sr) s t = C0.
Proof.
  intros Hst O Hr D E. apply (V_null w k L T b OK (cf sr) s Hst). rewrite (dot_self w k L T kb b OK Sm s kp A B Y sr O Hr D), E, Rmult_0_r. reflexivity.
Qed.
Lemma hit_zero s kp B Y es : is_state k L s -> overlaps s kp 0 B Y -> B = 0%R -> forall sg, plus_minus sg -> hit s es sg.
Proof.
  intros Hst O -> sg Hs. left. destruct flat eqn:Ef.
  - destruct Hs as [-> | ->]; [|rewrite cfm; intros t; apply flat_cm, Ef]. apply (null_self s kp 0 0 Y 1 Hst O); [left; reflexivity|left; reflexivity|ring].
  - apply (null_self s kp 0 0 Y sg Hst O Hs); [right; exact Ef|ring].
Qed.
Lemma hit_plain s r Mv Pd Zf kp : is_state k L s -> (0 < r)%Z -> overlaps s kp Zf 0 0 -> (Zf <> 0%R -> forall sg, plus_minus sg -> Pd sg = true) ->
  forall sg, plus_minus sg -> hit s (map (fun sg => mk s (sg * r) Mv) (filter Pd sigmas)) sg.
Proof.
  intros Hst Hr O HP sg Hs. destruct (Req_EM_T Zf 0) as [->|NZ]; [apply (hit_zero s kp 0 0); auto|]. specialize (HP NZ). destruct flat eqn:Ef.
  - destruct Hs as [-> | ->]; [apply hit_kept; [exact Hr|left; reflexivity|apply in_one|apply HP; left; reflexivity]|]. left. rewrite cfm. intros t. apply flat_cm, Ef.
  - apply hit_kept; [exact Hr|exact Hs|destruct Hs as [-> | ->]; [apply in_one|apply in_both, Ef]|apply HP, Hs].
Qed.
Lemma hit_mix s r Mv Pd Zf x y kp : is_state k L s -> (0 < r)%Z -> overlaps s kp Zf (Zf * x) (- (Zf * y)) -> (x * x + y * y = 1)%R -> (Zf <> 0 -> 1 + x <> 0 -> Pd 1%Z = true)%R -> (Zf <> 0 -> 1 + x = 0 -> Pd (-1)%Z = true)%R ->
  forall sg, plus_minus sg -> hit s (map (fun sg => mk s (sg * r) Mv) (filter Pd sigmas)) sg.
Proof.
  intros Hst Hr O Exy HP HM sg Hs. destruct (Req_EM_T Zf 0) as [E0|NZ]; [apply (hit_zero s kp (Zf * x) (- (Zf * y))); [exact Hst|rewrite E0 in O at 1; exact O|rewrite E0; ring|exact Hs]|]. specialize (HP NZ). specialize (HM NZ).
  destruct (Req_EM_T (1 + x) 0) as [E1|N1].
  - (* V cp = 0 *) destruct Hs as [-> | ->]; [left; apply (null_self s kp _ _ _ 1 Hst O); [left; reflexivity|left; reflexivity|transitivity (Zf * (1 + x))%R; [ring|rewrite E1; ring]]|].
    destruct flat eqn:Ef; [left; rewrite cfm; intros t; apply flat_cm, Ef|]. apply hit_kept; [exact Hr|right; reflexivity|apply in_both, Ef|apply HM, E1].
  - destruct Hs as [-> | ->]; [apply hit_kept; [exact Hr|left; reflexivity|apply in_one|apply HP, N1]|].
    destruct flat eqn:Ef; [left; rewrite cfm; intros t; apply flat_cm, Ef|]. right. exists (mk s (1 * r) Mv), (RtoC (- y / (1 + x))).
    split; [apply in_map_iff; exists 1%Z; split; [reflexivity|]; apply filter_In; split; [apply in_one|apply HP, N1]|]. split; [reflexivity|]. cbn [e_N]. rewrite (sgn_mul 1 r ltac:(left; reflexivity) Hr). rewrite cfm, cf1.
    destruct O as [PP Q]. destruct (Q ltac:(rewrite (thk w k L T kb b OK Sm); apply (nonflat_gen L T kb (L_pos w k L T b OK) Ef))) as (MM & PM & MP).
    set (a := RtoC (- y / (1 + x))). set (u t := (C1 * V cm s t + - a * V cp s t)%C).
    assert (U0 : forall t, (t < N.of_nat M)%N -> u t = C0).
    { apply (dot_zero M u). unfold u at 2. rewrite dot_lin2. rewrite (dot_sym M (V cm s) u), (dot_sym M (V cp s) u). unfold u. rewrite !dot_lin2, PP, MM, PM, MP. unfold a. apply C_eq; cbn; [|ring]. 
      assert (Ey : (y * y = (1 - x) * (1 + x))%R) by lra. field_simplify_eq; [|exact N1]. replace (y ^ 2)%R with ((1 - x) * (1 + x))%R by (rewrite <- Ey; ring). ring. }
    intros t. destruct (N.lt_ge_cases t (N.of_nat M)) as [Ht|Ht]; [|rewrite !(V_out w k L T b OK) by (exact Hst || lia); ring].
    specialize (U0 t Ht). transitivity (u t + a * V cp s t)%C; [unfold u; ring|rewrite U0; ring].
Qed.
Lemma hit_dropped s es : is_state k L s -> ~ compatible w k L T (q_of kb b) [[LT]] s -> forall sg, plus_minus sg -> hit s es sg.
Proof.
  intros Hst Nc sg Hs. left. intros t. destruct (C_dec (V (cf sg) s t) C0) as [E|N]; [exact E|]. destruct Nc. apply (nonzero_compat_s w k L T kb b OK s t Sm Hst). destruct Hs as [-> | ->]; [rewrite cf1 in N; left|rewrite cfm in N; right]; exact N.
Qed.
Lemma ret_prod g h s x y : In g Hs -> In h Hs -> is_state k L s -> X x g s = s -> X y h s = s -> exists z, X z (hx g h) s = s.
Proof.
  intros Hg Hh Hst E1 E2. pose proof (g_Xm _ _ _ _ _ _ _ (block_grp w k L T b OK) x g y h s Hg Hh (proj2 (M_st k L s) Hst)) as E. rewrite E1, E2 in E. eexists. symmetry. exact E.
Qed.
Lemma ret_yes h s m sign : In h Hs -> is_state k L s -> first_return w k L T (hw two h) s m sign -> m <> (-1)%Z -> exists x, X x h s = s.
Proof. intros Hh Hst Fr Nm. destruct (ret_first w k L T kb b OK h s m sign Hh Hst (Et w k L T b OK Sm) Fr) as [(i & _ & _ & E & _)|(E & _)]; [eexists; exact E|contradiction]. Qed.
Lemma ret_no h s sign : In h Hs -> is_state k L s -> first_return w k L T (hw two h) s (-1) sign -> forall x, X x h s <> s.
Proof. intros Hh Hst Fr. destruct (ret_first w k L T kb b OK h s (-1)%Z sign Hh Hst (Et w k L T b OK Sm) Fr) as [(i & E & _)|(_ & _ & H)]; [lia|exact H]. Qed.
Lemma cs1 m : (cosm m * cosm m + sinm m * sinm m = 1)%R. Proof. unfold M_op1d.cosm, M_op1d.sinm. pose proof (sin2_cos2 (kval L T kb * IZR m)) as Q. unfold Rsqr in Q. lra. Qed.
Lemma cs_pm f q m : plus_minus f -> plus_minus q -> ((IZR f * IZR q * cosm m) * (IZR f * IZR q * cosm m) + (IZR f * IZR q * sinm m) * (IZR f * IZR q * sinm m) = 1)%R.
Proof. intros [-> | ->] [-> | ->]; refine (eq_trans _ (cs1 m)); ring. Qed.
Lemma kept_p x : (1 + x <> 0)%R -> kept_sigma x 1 = true.
Proof. intros H. unfold kept_sigma. cbn [Z.eqb Pos.eqb andb negb]. rewrite Rmult_1_l, (Rzero_no _ H). reflexivity. Qed.
Lemma kept_m x : (1 + x = 0)%R -> kept_sigma x (-1) = true.
Proof. intros H. unfold kept_sigma. cbn [Z.eqb Pos.eqb andb negb]. rewrite (Rzero_no (1 + -1 * x)), (Rzero_yes (1 - -1 * x)) by lra. reflexivity. Qed.
(* translations with one reflection *)
Lemma span_one s g p check es : is_state k L s -> (forall x h, In h Hs -> (X x h s <= s)%N) -> Hs = [h0; g] -> eps g = true -> generators b = [[LT]; hw two g] -> IZR p = chi b g -> plus_minus p ->
  (exists r, check kb T s = Some r /\ reports w k L T (q_of kb b) (hw two g) (hw two g) s r) -> keep_TP L T kb check p s = Some es -> forall sg, plus_minus sg -> hit s es sg.
Proof.
  intros Hst Hx EH Eg Egen Ep Hp (r & Ec & R0 & mp & sign & -> & D1 & D2). unfold keep_TP. rewrite Ec. intros E. injection E as <-. pose proof (Et w k L T b OK Sm) as Ett.
  assert (Hex : extremal w k L T [[LT]; hw two g] s) by (pose proof (X_extremal w k L T kb b OK s Hst Hx) as Q; rewrite (To_t T b Ett), Egen in Q; exact Q).
  destruct (Z.ltb_spec 0 R0) as [Hr|Hr]; [|apply hit_dropped; [exact Hst|]; intros Hc; pose proof (proj2 D1 (Logic.conj Hex Hc)); lia].
  destruct (proj1 D1 Hr) as [_ Hco]. destruct (D2 Hr) as [Lp Fr]. pose proof (Tc_of w k L T kb b OK s Hst Ett Hco) as Tc. assert (Hg : In g Hs) by (rewrite EH; right; left; reflexivity).
  destruct (over_one w k L T kb b OK Sm s g R0 mp sign Hst Tc Lp EH Eg Fr) as [_ O]. destruct (first_bound w k L T kb b OK g s mp sign Hg Hst Ett Fr) as [Bm Bs]. rewrite <- Ep in O.
  destruct (Z.eqb_spec mp (-1)) as [->|Nm]; cbn [negb].
  - rewrite <- (filter_all sigmas). unfold P_semi1d.vcos, P_semi1d.vsin in O. cbn [Z.eqb Pos.eqb] in O. rewrite Rmult_0_r, Rmult_0_r, Ropp_0 in O. apply (hit_plain s R0 0 _ 1%R _ Hst Hr O). reflexivity.
  - assert (Bv : vcos mp sign = (IZR sign * cosm mp)%R /\ vsin mp sign = (IZR sign * sinm mp)%R) by (unfold P_semi1d.vcos, P_semi1d.vsin; destruct (Z.eqb_spec mp (-1)); [contradiction|auto]). rewrite (proj1 Bv), (proj2 Bv) in O.
    assert (Hsg : plus_minus sign) by (destruct Bs as [-> | ->]; [left|right]; reflexivity).
    apply (hit_mix s R0 _ _ 1%R (IZR sign * IZR p * cosm mp) (IZR sign * IZR p * sinm mp) (kap0 / IZR R0) Hst Hr).
    + replace (1 * (IZR sign * IZR p * cosm mp))%R with (1 * (IZR p * (IZR sign * cosm mp)))%R by ring. replace (1 * (IZR sign * IZR p * sinm mp))%R with (1 * (IZR p * (IZR sign * sinm mp)))%R by ring. exact O.
    + apply cs_pm; assumption.
    + intros _. apply kept_p.
    + intros _. apply kept_m.
Qed.
End S.
Section F.
Variables (w : btype) (k : kind) (L T kb : nat) (p z : Z).
Notation b := (BT_P_Z p z).
Hypothesis OK : block_ok w k L T b.
Notation X := (X w k L (T_of T b) false (n_of L T b)).
Notation cosm := (cosm L T kb).
Notation sinm := (sinm L T kb).
Notation hP := (true, false).
Notation hZ := (false, true).
Notation hPZ := (true, true).
Notation hit := (hit w k L T kb b).
Let Sm : semi b = true := eq_refl.
Lemma span_four s es : is_state k L s -> (forall x h, In h (heads b) -> (X x h s <= s)%N) -> (exists r, check_T_P_Z w k L kb T s = Some r /\ reports2 w k L T (q_of kb b) LP LZ s r) ->
  keep_TPZ w k L T kb p z s = Some es -> forall sg, plus_minus sg -> hit s es sg.
Proof.
  intros Hst Hx (r & Ec & R0 & mp & mz & mpz & sp & sz & spz & -> & D1 & D2). unfold keep_TPZ. rewrite Ec. cbv zeta. intros E. injection E as <-.
  assert (Hex : extremal w k L T [[LT]; [LP]; [LZ]] s) by exact (X_extremal w k L T kb b OK s Hst Hx).
  destruct (Z.ltb_spec 0 R0) as [Hr|Hr]; [|apply (hit_dropped w k L T kb b OK Sm); [exact Hst|]; intros Hc; pose proof (proj2 D1 (Logic.conj Hex Hc)); lia].
  destruct (proj1 D1 Hr) as [_ Hco]. destruct (D2 Hr) as (Lp & F1 & F2 & F3).
  pose proof (Tc_of w k L T kb b OK s Hst eq_refl Hco) as Tc. destruct (Logic.conj OK I) as [(_ & _ & _ & Hp & Hz) _].
  assert (HP : In hP (heads b)) by (cbn; auto). assert (HZ : In hZ (heads b)) by (cbn; auto). assert (HPZ : In hPZ (heads b)) by (cbn; auto).
  destruct (first_bound w k L T kb b OK hP s mp sp HP Hst eq_refl F1) as [B1 S1]. destruct (first_bound w k L T kb b OK hZ s mz sz HZ Hst eq_refl F2) as [B2 S2]. destruct (first_bound w k L T kb b OK hPZ s mpz spz HPZ Hst eq_refl F3) as [B3 S3].
  destruct (rho_first_p w k L T kb b OK Sm s hP mp sp Hst Tc HP F1) as [P1 P2]. destruct (rho_first_p w k L T kb b OK Sm s hZ mz sz Hst Tc HZ F2) as [Z1 Z2]. destruct (rho_first_p w k L T kb b OK Sm s hPZ mpz spz Hst Tc HPZ F3) as [Q1 Q2].
  cbn [two_of translates eps andb negb fst] in P2, Z2, Q2.
  pose proof (over_four w k L T kb p z OK s R0 _ _ _ _ _ Hst Tc Lp P1 P2 Z1 Z2 Q1 Q2) as O. 
  assert (Hsp : plus_minus sp) by exact S1. assert (Hsz : plus_minus sz) by exact S2. assert (Hspz : plus_minus spz) by exact S3. assert (Hpz : plus_minus (p * z)%Z) by (destruct Hp as [-> | ->], Hz as [-> | ->]; [left|right|right|left]; reflexivity).
  pose proof (ret_prod w k L T b OK) as RP. pose proof (ret_yes w k L T kb b OK Sm) as RY. pose proof (ret_no w k L T kb b OK Sm) as RN.
  destruct (Z.eqb_spec mp (-1)) as [Ep|Np]; [rewrite Ep in *|]; (destruct (Z.eqb_spec mz (-1)) as [Ez|Nz]; [rewrite Ez in *|]); (destruct (Z.eqb_spec mpz (-1)) as [Eq|Nq]; [rewrite Eq in *|]); cbn [negb andb app]; rewrite ?app_nil_r.
  - (* none *) destruct (v_no L T kb sp) as [V1 V2], (v_no L T kb sz) as [V3 V4], (v_no L T kb spz) as [V5 V6]. rewrite V1, V2, V3, V5, V6 in O. rewrite <- (filter_all (sigmas L T kb)).
    apply (hit_plain w k L T kb b OK Sm s R0 0 _ 1%R (kap0 L T kb b / IZR R0) Hst Hr); [refine (ov_eq _ _ _ _ _ _ _ _ _ _ _ _ _ _ _ O _ _ _); ring|reflexivity].
  - (* PZ *) destruct (v_no L T kb sp) as [V1 V2], (v_no L T kb sz) as [V3 V4], (v_yes L T kb mpz spz Nq) as [V5 V6]. rewrite V1, V2, V3, V5, V6 in O.
    apply (hit_mix w k L T kb b OK Sm s R0 _ _ 1%R (IZR spz * IZR (p * z) * cosm mpz) (IZR spz * IZR (p * z) * sinm mpz) (kap0 L T kb b / IZR R0) Hst Hr).
    + refine (ov_eq _ _ _ _ _ _ _ _ _ _ _ _ _ _ _ O _ _ _); ring.
    + apply cs_pm; assumption.
    + intros _ H. apply kept_p. rewrite mult_IZR in H. intros E. apply H. rewrite <- E. ring.
    + intros _ H. apply kept_m. rewrite mult_IZR in H. rewrite <- H. ring.
  - (* Z *) destruct (v_no L T kb sp) as [V1 V2], (v_yes L T kb mz sz Nz) as [V3 V4], (v_no L T kb spz) as [V5 V6]. rewrite V1, V2, V3, V5, V6 in O.
    apply (hit_plain w k L T kb b OK Sm s R0 _ _ (1 + IZR z * (IZR sz * cosm mz))%R (kap0 L T kb b / IZR R0) Hst Hr).
    + refine (ov_eq _ _ _ _ _ _ _ _ _ _ _ _ _ _ _ O _ _ _); ring.
    + intros NZ sg _. rewrite Rzero_no; [reflexivity|]. intros E. apply NZ. rewrite <- E. ring.
  - (* Z and PZ only *) exfalso. destruct (RY hZ s mz sz HZ Hst F2 Nz) as [x Ex]. destruct (RY hPZ s mpz spz HPZ Hst F3 Nq) as [y Ey]. destruct (RP hZ hPZ s x y HZ HPZ Hst Ex Ey) as [v Ev]. exact (RN hP s sp HP Hst F1 v Ev).
  - (* P *) destruct (v_yes L T kb mp sp Np) as [V1 V2], (v_no L T kb sz) as [V3 V4], (v_no L T kb spz) as [V5 V6]. rewrite V1, V2, V3, V5, V6 in O.
    apply (hit_mix w k L T kb b OK Sm s R0 _ _ 1%R (IZR sp * IZR p * cosm mp) (IZR sp * IZR p * sinm mp) (kap0 L T kb b / IZR R0) Hst Hr).
    + refine (ov_eq _ _ _ _ _ _ _ _ _ _ _ _ _ _ _ O _ _ _); ring.
    + apply cs_pm; assumption.
    + intros _. apply kept_p.
    + intros _. apply kept_m.
  - exfalso. destruct (RY hP s mp sp HP Hst F1 Np) as [x Ex]. destruct (RY hPZ s mpz spz HPZ Hst F3 Nq) as [y Ey]. destruct (RP hP hPZ s x y HP HPZ Hst Ex Ey) as [v Ev]. exact (RN hZ s sz HZ Hst F2 v Ev).
  - exfalso. destruct (RY hP s mp sp HP Hst F1 Np) as [x Ex]. destruct (RY hZ s mz sz HZ Hst F2 Nz) as [y Ey]. destruct (RP hP hZ s x y HP HZ Hst Ex Ey) as [v Ev]. exact (RN hPZ s spz HPZ Hst F3 v Ev).
  - (* all *) destruct (rho_prod w k L T kb p z OK s mp sp mz sz Hst Tc Np Nz F1 F2) as (Q1' & Q2' & S0).
    pose proof (over_four w k L T kb p z OK s R0 _ _ _ _ _ Hst Tc Lp P1 P2 Z1 Z2 Q1' Q2') as O'. clear O. destruct (v_yes L T kb mp sp Np) as [V1 V2], (v_yes L T kb mz sz Nz) as [V3 V4]. rewrite V1, V2, V3 in O'.
    assert (One : (1 + IZR z * (IZR sz * cosm mz) <> 0 -> 1 - IZR z * IZR sz * cosm mz = 0)%R).
    { intros NZ. pose proof (cs1 L T kb mz) as Q. rewrite S0 in Q. assert (Q' : ((1 + IZR z * (IZR sz * cosm mz)) * (1 - IZR z * IZR sz * cosm mz) = 0)%R) by (destruct Hz as [-> | ->], Hsz as [-> | ->]; nra).
      destruct (Rmult_integral _ _ Q') as [E|E]; [contradiction|exact E]. }
    apply (hit_mix w k L T kb b OK Sm s R0 _ _ (1 + IZR z * (IZR sz * cosm mz))%R (IZR sp * IZR p * cosm mp) (IZR sp * IZR p * sinm mp) (kap0 L T kb b / IZR R0) Hst Hr).
    + refine (ov_eq _ _ _ _ _ _ _ _ _ _ _ _ _ _ _ O' _ _ _); rewrite ?mult_IZR; ring.
    + apply cs_pm; assumption.
    + intros NZ H. cbn [Z.eqb Pos.eqb andb negb]. rewrite !Rzero_no; [reflexivity| |]; intros E; [apply NZ|apply H]; rewrite <- E; ring.
    + intros NZ H. cbn [Z.eqb Pos.eqb andb negb]. rewrite (Rzero_no (1 + -1 * IZR sp * IZR p * cosm mp)), (Rzero_no (1 + IZR z * IZR sz * cosm mz)), (Rzero_yes (1 - -1 * IZR sp * IZR p * cosm mp)), (Rzero_yes (1 - IZR z * IZR sz * cosm mz)); [reflexivity| | | |].
      * exact (One NZ).
      * rewrite <- H. ring.
      * intros E. apply NZ. rewrite <- E. ring.
      * intros E. assert (Q : (IZR sp * IZR p * cosm mp = 1)%R) by lra. lra.
Qed.
End F.

Lemma span_keep w k L T kb b : block_ok w k L T b -> (match b with BT_A_B _ _ => N.even (levels k) = true | _ => True end) -> forall s es, is_state k L s ->
  (forall x h, In h (heads b) -> (X w k L (T_of T b) (two_of b) (n_of L T b) x h s <= s)%N) -> keep w k L T kb b s = Some es -> forall sg, plus_minus sg -> hit w k L T kb b s es sg.
Proof.
  intros OK Ev s es Hst Hx E. pose proof (SFb w k L T b OK) as SF. destruct (semi b) eqn:Sm.
  - pose proof (fun HC => C39_one_symmetry w k L T s (q_of kb b) SF HC Hst) as OC. pose proof (fun HC => C39_two_symmetries w k L T s (q_of kb b) SF HC Hst) as TC.
    destruct (Logic.conj OK I) as [(_ & HC & H) _]. destruct b; try discriminate Sm; cbn [keep] in E.
    + refine (span_one w k L T kb (BT_P p) OK Sm s (true, false) p _ es Hst Hx eq_refl eq_refl eq_refl _ H _ E); [unfold chi, chiZ; cbn [q12 fst snd]; rewrite Z.mul_1_r; reflexivity|]. exact (proj1 (OC (HC eq_refl))).
    + refine (span_one w k L T kb (BT_PZ pz) OK Sm s (true, true) pz _ es Hst Hx eq_refl eq_refl eq_refl _ (proj2 H) _ E); [unfold chi, chiZ; cbn [q12 fst snd]; rewrite Z.mul_1_r; reflexivity|]. exact (proj2 (proj2 (OC (HC eq_refl)) (proj1 H))).
    + apply (span_four w k L T kb p z OK s es Hst Hx); [exact (proj1 (TC (HC eq_refl)) (proj1 H))|exact E].
  - intros sg _. destruct (keep_ab w k L T kb b OK Sm s Hst) as (es' & E' & K). rewrite E in E'. injection E' as <-. destruct es as [|e es].
    + left. unfold cf. rewrite Sm. apply (drop_ab w k L T kb b OK Sm Ev s Hst Hx E).
    + right. destruct (K e (or_introl eq_refl)) as (_ & Es & _). exists e, C1. split; [left; reflexivity|]. split; [exact Es|]. intros t. unfold cf. rewrite Sm. ring.
Qed.
