(* Completeness of the one-dimensional blocks: states whose projection does not vanish have compatible quantum numbers. *)
From Verif Require Import AuxN SpecC SpecOps SpecMaps SpecFermi SpecChain M_bits1d SpecChain1d SpecCheck1d SpecBlock1d M_check1d
  P_maps P_square P_bits1d P_bits1d4 P_bits1d5 P_check1d P_check1d2 P_check1d3 P_check1d4 P_check1d5 P_block1d P_block1d2 P_block1d3 P_block1d4
  M_ops M_symop P_symop P_photon M_op1d P_op1d P_op1d2 P_op1d3 P_op1d4 P_op1d5 P_op1d6 P_semi1d P_semi1d2 C39_checks C39_reference C39_translations.
From Coq Require Import Permutation.
Local Open Scope nat_scope.

Lemma C_dec (a b : C) : {a = b} + {a <> b}.
Proof. destruct a as [a1 a2], b as [b1 b2]. destruct (Req_EM_T a1 b1) as [->|N1]; [|right; congruence]. destruct (Req_EM_T a2 b2) as [->|N2]; [left; reflexivity|right; congruence]. Qed.
Lemma C_integral (a b : C) : (a * b)%C = C0 -> a <> C0 -> b = C0.
Proof.
  intros E N. destruct a as [a1 a2], b as [b1 b2]. unfold Cmul, C0, RtoC in *. cbn [fst snd] in *. injection E as E1 E2.
  assert (P : (a1 * a1 + a2 * a2 <> 0)%R).
  { intros Q. apply N. assert (0 <= a1 * a1)%R by nra. assert (0 <= a2 * a2)%R by nra. assert (Q1 : (a1 * a1 = 0)%R) by lra. assert (Q2 : (a2 * a2 = 0)%R) by lra. f_equal; [destruct (Rmult_integral _ _ Q1)|destruct (Rmult_integral _ _ Q2)]; assumption. }
  f_equal; apply (Rmult_eq_reg_l (a1 * a1 + a2 * a2)); try exact P.
  - transitivity (a1 * (a1 * b1 - a2 * b2) + a2 * (a1 * b2 + a2 * b1))%R; [ring|]. rewrite E1, E2. ring.
  - transitivity (a1 * (a1 * b2 + a2 * b1) - a2 * (a1 * b1 - a2 * b2))%R; [ring|]. rewrite E1, E2. ring.
Qed.
Lemma Rsum_cons {X} (x : X) l f : Rsum (x :: l) f = (f x + Rsum l f)%R. Proof. reflexivity. Qed.
Lemma dot_zero M u : dotv M u u = C0 -> forall t, (t < N.of_nat M)%N -> u t = C0.
Proof.
  intros E t Ht. apply (f_equal fst) in E. unfold dotv in E. rewrite Csum_fst in E. cbn [C0 RtoC fst] in E.
  assert (Ex : forall l, Rsum l (fun x => fst (Cconj (u x) * u x)%C) = 0%R -> forall x, In x l -> u x = C0).
  { induction l as [|y l IH]; intros E0 x; [intros []|]. 
    assert (Pos : forall z, (0 <= fst (Cconj (u z) * u z)%C)%R) by (intros z; cbn; nra).
    assert (PosL : forall l', (0 <= Rsum l' (fun x => fst (Cconj (u x) * u x)%C))%R) by (induction l' as [|z l' I]; [cbn; lra|]; rewrite Rsum_cons; pose proof (Pos z); lra).
    rewrite Rsum_cons in E0. pose proof (Pos y). pose proof (PosL l). intros [<-|Hx]; [|apply IH; [lra|exact Hx]].
    assert (Q : (fst (Cconj (u y) * u y)%C = 0)%R) by lra. destruct (u y) as [a c]. cbn in Q. assert (Q1 : (a * a = 0)%R) by nra. assert (Q2 : (c * c = 0)%R) by nra.
    apply C_eq; cbn; [destruct (Rmult_integral _ _ Q1)|destruct (Rmult_integral _ _ Q2)]; assumption. }
  apply (Ex _ E). apply al_in. exact Ht.
Qed.
Lemma cis_one y : cis y = C1 -> exists z, y = (2 * PI * IZR z)%R.
Proof.
  intros E. apply (f_equal fst) in E. unfold cis, C1, RtoC in E. cbn [fst] in E. replace y with (2 * (y / 2))%R in E by field. rewrite cos_2a_sin in E. assert (Q : (sin (y / 2) * sin (y / 2) = 0)%R) by lra.
  assert (S0 : sin (y / 2) = 0%R) by (destruct (Rmult_integral _ _ Q); assumption). apply sin_eq_0_0 in S0. destruct S0 as [z Hz]. exists z. replace y with (2 * (y / 2))%R by field. rewrite Hz. ring.
Qed.
Definition ang (L : nat) (m : Z) : C := cis (PI * IZR m / INR L).
Lemma ang_one L m : 1 <= L -> ang L m = C1 -> (m mod (2 * Z.of_nat L) = 0)%Z.
Proof.
  intros HL E. apply cis_one in E. destruct E as [z Hz]. assert (NL : INR L <> 0%R) by (apply not_0_INR; lia). assert (NP : PI <> 0%R) by (pose proof PI_RGT_0; lra).
  assert (E : IZR m = IZR (z * (2 * Z.of_nat L))).
  { rewrite !mult_IZR, <- INR_IZR_INZ. apply (Rmult_eq_reg_l PI); [|exact NP]. apply (Rmult_eq_reg_r (/ INR L)); [|apply Rinv_neq_0_compat, NL]. transitivity (2 * PI * IZR z)%R; [rewrite <- Hz; unfold Rdiv; ring|field; exact NL]. }
  apply eq_IZR in E. rewrite E. apply Z.mod_mul. lia.
Qed.
Lemma ang_add L x y : ang L (x + y) = (ang L x * ang L y)%C.
Proof. unfold ang. rewrite <- cis_add, plus_IZR. f_equal. unfold Rdiv. ring. Qed.
Lemma ang_0 L : ang L 0 = C1. Proof. unfold ang. replace (PI * 0 / INR L)%R with 0%R by (unfold Rdiv; ring). apply cis_0. Qed.
Lemma ang_half L q : 1 <= L -> plus_minus q -> ang L (half_turn L q) = RtoC (IZR q).
Proof.
  intros HL H. unfold half_turn. destruct H as [-> | ->]; cbn [Z.ltb Z.compare]; [apply ang_0|]. unfold ang. rewrite <- INR_IZR_INZ. replace (PI * INR L / INR L)%R with PI by (field; apply not_0_INR; lia).
  unfold cis. rewrite cos_PI, sin_PI. reflexivity.
Qed.

Lemma compat_sub w k L q s gens gens' T0 : incl gens gens' -> compatible w k L T0 q gens' s -> compatible w k L T0 q gens s.
Proof. intros Hi HC word sign (gs & F & E) Hr. apply (HC word sign); [|exact Hr]. exists gs. split; [|exact E]. eapply Forall_impl; [|exact F]. intros g Hg. apply Hi, Hg. Qed.
Section S.
Variables (w : btype) (k : kind) (L T kb : nat) (b : block).
Hypothesis OK : block_ok w k L T b.
Notation M := (Mst k L).
Notation two := (two_of b).
Notation tf := (translates b).
Notation n := (n_of L T b).
Notation Hs := (heads b).
Notation To := (T_of T b).
Notation X := (X w k L To two n).
Notation G := (G w k L To two n).
Notation eps := (eps two tf).
Notation th := (th_of L T kb b).
Notation V := (V n Hs (chi b) X G).
Notation cab := (cab th).
Notation cp := (cp th).
Notation cm := (cm th).
Notation q := (q_of kb b).
Notation sto := (sto w k L To).
Notation sgo := (sgo w k L To).

(* generators *)
Lemma gen_cases g : In g (generators b) -> (g = [LT] /\ tf = true) \/ exists h, In h Hs /\ g = hw two h.
Proof.
  unfold generators. destruct b; cbn [translates app In heads two_of]; intros Hg; repeat destruct Hg as [<-|Hg]; try contradiction; try (left; split; reflexivity); right;
  solve [exists (true, false); split; [cbn; auto|reflexivity] | exists (false, true); split; [cbn; auto|reflexivity] | exists (true, true); split; [cbn; auto|reflexivity]].
Qed.
Lemma gen_lok g : In g (generators b) -> Forall (lok w k L To) g.
Proof.
  intros Hg. destruct (gen_cases g Hg) as [[-> Et]|(h & Hh & ->)]; [|apply (okf_lok w k L To two), (hw_okf w k L T b OK), Hh].
  constructor; [|constructor]. pose proof (tf_ok w k L T b OK) as TO. rewrite Et in TO. apply TO.
Qed.
Lemma hw0 : hw two h0 = []. Proof. unfold hw, h0. destruct two; reflexivity. Qed.
Lemma gen_X g s : In g (generators b) -> is_state k L s -> exists x h, In h Hs /\ sto g s = X x h s /\ sgo g s = G x h s /\ (semi b = false -> ang L (phase_of L To q g) = (ch (chi b) h * cis (th * IZR x))%C).
Proof.
  intros Hg Hst. pose proof (block_grp w k L T b OK) as GR. pose proof (L_pos w k L T b OK) as HL. destruct (pm_q w k L T b OK) as [P1 P2]. destruct (gen_cases g Hg) as [[-> Et]|(h & Hh & ->)].
  - exists 1%Z, h0. destruct (head_word w k L T b OK h0 1 s (heads_0 w k L T b OK) Hst (or_introl Et)) as [E1 E2]. rewrite hw0 in E1, E2. cbn [repeat app] in E1, E2. rewrite (e0' _ _ _ _ _ _ _ GR) in E1, E2. cbn [sg] in E1, E2.
    split; [apply (heads_0 w k L T b OK)|]. split; [exact E1|]. split; [exact E2|]. intros _. unfold ch. rewrite (c0 _ _ _ _ _ _ _ GR). unfold phase_of. cbn [fold_right phase]. cbn [q_of q_k]. rewrite (To_t T b Et). rewrite Z.add_0_r.
    unfold ang, th_of. rewrite Et. unfold momentum. rewrite !mult_IZR, <- !INR_IZR_INZ. replace (2 * PI * INR kb * INR T / INR L * 1)%R with (PI * (2 * INR kb * INR T) / INR L)%R by (unfold Rdiv; ring). apply C_eq; cbn; ring.
  - exists 0%Z, h. destruct (head_word w k L T b OK h 0 s Hh Hst (or_intror eq_refl)) as [E1 E2]. cbn [repeat] in E1, E2. rewrite app_nil_r in E1, E2. replace (sg (eps h) (Z.of_nat 0)) with 0%Z in E1, E2 by (destruct (eps h); reflexivity).
    split; [exact Hh|]. split; [exact E1|]. split; [exact E2|]. intros _. rewrite Rmult_0_r, cis_0. unfold ch, chi, chiZ.
    transitivity (RtoC (IZR ((if fst h then fst (q12 b) else 1) * (if snd h then snd (q12 b) else 1)))); [|apply C_eq; cbn; ring].
    rewrite mult_IZR, RtoC_mul. assert (Q1 : ang L (half_turn L (fst (q12 b))) = RtoC (IZR (fst (q12 b)))) by (apply ang_half; assumption). assert (Q2 : ang L (half_turn L (snd (q12 b))) = RtoC (IZR (snd (q12 b)))) by (apply ang_half; assumption).
    unfold hw, phase_of. destruct two, h as [[|] [|]]; cbn [fst snd app fold_right phase q_of q_p q_z q_a q_b]; rewrite ?Z.add_0_r, ?ang_add, ?ang_0, ?Q1, ?Q2; apply C_eq; cbn; ring.
Qed.
Lemma word_group gs : Forall (fun g => In g (generators b)) gs -> forall s, is_state k L s -> exists x h, In h Hs /\ sto (concat gs) s = X x h s /\ sgo (concat gs) s = G x h s /\
  Forall (lok w k L To) (concat gs) /\ (semi b = false -> ang L (phase_of L To q (concat gs)) = (ch (chi b) h * cis (th * IZR x))%C).
Proof.
  pose proof (block_grp w k L T b OK) as GR. pose proof (SFb w k L T b OK) as SF. induction 1 as [|g gs Hg _ IH]; intros s Hst.
  - exists 0%Z, h0. pose proof (proj2 (M_st k L s) Hst) as Ds. split; [apply (heads_0 w k L T b OK)|]. cbn [concat]. rewrite (g_X0 _ _ _ _ _ _ _ GR s Ds), (G0 _ _ _ _ _ _ _ GR s Ds). split; [reflexivity|]. split; [reflexivity|]. split; [constructor|].
    intros _. cbn [phase_of fold_right]. rewrite ang_0, Rmult_0_r, cis_0. unfold ch. rewrite (c0 _ _ _ _ _ _ _ GR). apply C_eq; cbn; ring.
  - destruct (gen_X g s Hg Hst) as (x & h & Hh & E1 & E2 & E3). pose proof (gen_lok g Hg) as Lg. pose proof (sto_lt w k L To SF g s Lg Hst) as Lt. destruct (IH (sto g s) Lt) as (x' & h' & Hh' & E1' & E2' & Lk & E3').
    destruct (sto_app w k L To SF g (concat gs) s Lg Lk Hst) as [A1 A2]. exists (x + sg (eps h) x')%Z, (hx h h'). pose proof (proj2 (M_st k L s) Hst) as Ds. cbn [concat].
    split; [apply (heads_cl w k L T b OK); assumption|]. split; [rewrite A1, E1', E1; apply (g_Xm _ _ _ _ _ _ _ GR); assumption|]. split; [rewrite A2, E2', E2, E1; apply (g_Gm _ _ _ _ _ _ _ GR); assumption|].
    split; [apply Forall_app; auto|]. intros Sm. assert (Pa : forall u v, phase_of L To q (u ++ v) = (phase_of L To q u + phase_of L To q v)%Z) by (induction u as [|l u I]; intros v; [reflexivity|]; cbn [app phase_of fold_right]; fold (phase_of L To q (u ++ v)) (phase_of L To q u); rewrite I; lia).
    rewrite Pa, ang_add, (E3 Sm), (E3' Sm). rewrite (eps_ab w k L T b OK h Sm Hh). cbn [sg]. unfold ch. rewrite (g_Ch _ _ _ _ _ _ _ GR h h' Hh Hh'), RtoC_mul, plus_IZR, Rmult_plus_distr_l, cis_add. ring.
Qed.
Lemma X_extremal s : is_state k L s -> (forall x h, In h Hs -> (X x h s <= s)%N) -> extremal w k L To (generators b) s.
Proof.
  intros Hst Hx word t g (gs & F & ->) Hr. destruct (word_group gs F s Hst) as (x & h & Hh & E1 & _ & Lk & _). apply (reaches_iff w k L To (SFb w k L T b OK) _ _ _ _ Lk Hst) in Hr. destruct Hr as [-> _]. rewrite E1. apply Hx, Hh.
Qed.
Lemma V_out c s t : is_state k L s -> ~ (t < N.of_nat M)%N -> V c s t = C0.
Proof.
  intros Hst Ht. pose proof (block_grp w k L T b OK) as GR. unfold P_block1d.V. apply Csum_zero. intros r _. apply Csum_zero. intros h Hh. unfold U. destruct (N.eqb_spec (X r h s) t) as [E|]; [|ring].
  exfalso. apply Ht. rewrite <- E. apply (g_XD _ _ _ _ _ _ _ GR); [exact Hh|apply M_st, Hst].
Qed.
Lemma V_null c s : is_state k L s -> dotv M (V c s) (V c s) = C0 -> forall t, V c s t = C0.
Proof. intros Hst E t. destruct (N.lt_ge_cases t (N.of_nat M)) as [H|H]; [apply (dot_zero M _ E t H)|apply V_out; [exact Hst|lia]]. Qed.
Lemma unit_G x h s : In h Hs -> is_state k L s -> plus_minus (G x h s).
Proof. intros Hh Hst. apply (sgo_unit w k L To (SFb w k L T b OK)); [apply (X_lok w k L T b OK), Hh|exact Hst]. Qed.
(* abelian blocks *)
Lemma nonzero_compat s t : semi b = false -> is_state k L s -> V cab s t <> C0 -> compatible w k L To q (generators b) s.
Proof.
  intros Sm Hst Nz word sign (gs & F & ->) Hr. pose proof (block_grp w k L T b OK) as GR. pose proof (L_pos w k L T b OK) as HL. destruct (word_group gs F s Hst) as (x & h & Hh & E1 & E2 & Lk & E3). specialize (E3 Sm).
  apply (reaches_iff w k L To (SFb w k L T b OK) _ _ _ _ Lk Hst) in Hr. destruct Hr as [Es ->]. rewrite E1 in Es. rewrite E2. apply ang_one; [exact HL|]. rewrite ang_add, E3, (ang_half L _ HL (unit_G x h s Hh Hst)).
  assert (Bk : back M Hs eps X x h s s) by (split; [apply M_st, Hst|]; split; [apply M_st, Hst|]; split; [exact Hh|]; rewrite (eps_ab w k L T b OK h Sm Hh); exact Es).
  pose proof (V_back_ab n M th (Hth w k L T kb b OK) Hs eps (chi b) X G GR x h s s t (eps_ab w k L T b OK h Sm Hh) Bk) as E. rewrite (eps_ab w k L T b OK h Sm Hh) in E. cbn [sg] in E.
  set (g := (Gc G x h s * ch (chi b) h)%C) in *. set (c := cab x) in *.
  assert (E1' : (C1 + - (g * c))%C = C0).
  { assert (Q : (V cab s t * (C1 + - (g * c)))%C = C0) by (transitivity (V cab s t + - (g * c * V cab s t))%C; [ring|]; rewrite <- E; ring). exact (C_integral _ _ Q Nz). }
  assert (Egc : (g * c)%C = C1) by (transitivity (C1 + - (C1 + - (g * c)))%C; [ring|rewrite E1'; ring]).
  assert (Gg : (g * g)%C = C1).
  { unfold g, Gc, ch. rewrite <- !RtoC_mul. apply (f_equal RtoC). pose proof (chi2 w k L T b OK h) as Q. destruct (unit_G x h s Hh Hst) as [E0|E0]; rewrite E0; refine (eq_trans _ Q); ring. }
  assert (Ec : c = g) by (transitivity (g * g * c)%C; [rewrite Gg; ring|]; transitivity (g * (g * c))%C; [ring|]; rewrite Egc; ring).
  assert (Ecc : cis (th * IZR x) = g).
  { rewrite <- (Ropp_involutive (th * IZR x)), <- cis_conj. fold (P_block1d2.cab th x). fold c. rewrite Ec. unfold g, Gc, ch. rewrite <- RtoC_mul. apply Cconj_RtoC. }
  rewrite Ecc. transitivity (g * g)%C; [|exact Gg]. unfold g at 2. unfold Gc. ring.
Qed.
(* semi-momentum blocks *)
Lemma nonzero_compat_s s t : semi b = true -> is_state k L s -> V cp s t <> C0 \/ V cm s t <> C0 -> compatible w k L T q [[LT]] s.
Proof.
  intros Sm Hst Nz word sign (gs & F & ->) Hr. pose proof (block_grp w k L T b OK) as GR. pose proof (L_pos w k L T b OK) as HL. pose proof (semi_tf w k L T b OK Sm) as Et.
  assert (Eg : exists i, concat gs = repeat LT i).
  { clear Hr. induction F as [|g gs Hg _ [i Hi]]; [exists 0; reflexivity|]. destruct Hg as [<-|[]]. exists (S i). cbn [concat repeat app]. rewrite Hi. reflexivity. }
  destruct Eg as [i Ei]. rewrite Ei in *. assert (WX : forall t g, reaches w k L T (repeat LT i) s t g <-> t = X (Z.of_nat i) h0 s /\ g = G (Z.of_nat i) h0 s).
  { intros t0 g. pose proof (word_X w k L T b OK h0 i s (heads_0 w k L T b OK) Hst (or_introl Et) t0 g) as Q. rewrite (To_t T b Et) in Q at 1. rewrite hw0, (e0' _ _ _ _ _ _ _ GR) in Q. exact Q. }
  apply WX in Hr. destruct Hr as [Es ->]. apply ang_one; [exact HL|]. rewrite ang_add, (ang_half L _ HL (unit_G _ h0 s (heads_0 w k L T b OK) Hst)).
  assert (Ea : ang L (phase_of L T q (repeat LT i)) = cis (th * IZR (Z.of_nat i))).
  { assert (Ep : phase_of L T q (repeat LT i) = (Z.of_nat i * (2 * Z.of_nat kb * Z.of_nat T))%Z) by (unfold phase_of; clear; induction i as [|m IH]; [reflexivity|]; cbn [repeat fold_right phase q_of q_k]; cbn [q_of q_k phase] in IH; rewrite IH; lia).
    rewrite Ep. unfold ang, th_of. rewrite Et. unfold momentum. rewrite !mult_IZR, <- !INR_IZR_INZ. f_equal. unfold Rdiv. ring. }
  rewrite Ea. set (x := Z.of_nat i) in *. assert (Bk : back M Hs eps X x h0 s s) by (split; [apply M_st, Hst|]; split; [apply M_st, Hst|]; split; [apply (heads_0 w k L T b OK)|]; rewrite (e0' _ _ _ _ _ _ _ GR); exact Es).
  pose proof (V_back_p n M th (Hth w k L T kb b OK) Hs eps (chi b) X G GR x h0 s s t Bk) as Ep. pose proof (V_back_m n M th (Hth w k L T kb b OK) Hs eps (chi b) X G GR x h0 s s t Bk) as Em.
  rewrite (e0' _ _ _ _ _ _ _ GR) in Ep, Em. cbn [sg] in Ep, Em. unfold ch in Ep, Em. rewrite (c0 _ _ _ _ _ _ _ GR) in Ep, Em. unfold Gc in Ep, Em. set (u := V cp s t) in *. set (v := V cm s t) in *. unfold P_block1d2.cp, P_block1d2.cm in Ep, Em.
  set (gz := G x h0 s) in *. assert (U0 : plus_minus gz) by (apply unit_G; [apply (heads_0 w k L T b OK)|exact Hst]). set (y := (th * IZR x)%R) in *.
  set (cc := RtoC (cos y)) in *. set (ss := RtoC (sin y)) in *. set (g := RtoC (IZR gz)) in *.
  assert (Gg : (g * g)%C = C1) by (unfold g; rewrite <- RtoC_mul; destruct U0 as [E0|E0]; rewrite E0; apply C_eq; cbn; ring).
  assert (Cs : (cc * cc + ss * ss)%C = C1) by (unfold cc, ss; pose proof (sin2_cos2 y) as Q; unfold Rsqr in Q; apply C_eq; cbn; nra).
  assert (E1 : u = (g * (cc * u - ss * v))%C) by (etransitivity; [exact Ep|]; change (RtoC 1) with C1; ring).
  assert (E2 : v = (g * (cc * v + ss * u))%C) by (etransitivity; [exact Em|]; change (RtoC 1) with C1; ring).
  set (d := (C1 + C1 + - (g * cc) + - (g * cc))%C).
  assert (Du : (d * u)%C = C0).
  { assert (Q1 : ((C1 - g * cc) * u + g * ss * v)%C = C0) by (rewrite E1 at 1; transitivity ((g * (cc * u - ss * v)) - g * cc * (g * (cc * u - ss * v)) + g * ss * v)%C; [ring|]; rewrite <- E1; rewrite E1 at 1; ring).
    assert (Q2 : ((C1 - g * cc) * v - g * ss * u)%C = C0) by (transitivity (v - g * (cc * v + ss * u))%C; [ring|rewrite <- E2; ring]).
    transitivity ((C1 - g * cc) * ((C1 - g * cc) * u + g * ss * v) - g * ss * ((C1 - g * cc) * v - g * ss * u) + (C1 - (cc * cc + ss * ss)) * u + (C1 - g * g) * (cc * cc + ss * ss) * u)%C; [unfold d; ring|]. rewrite Q1, Q2, Cs, Gg. ring. }
  assert (Dv : (d * v)%C = C0).
  { assert (Q1 : ((C1 - g * cc) * u + g * ss * v)%C = C0) by (transitivity (u - g * (cc * u - ss * v))%C; [ring|rewrite <- E1; ring]).
    assert (Q2 : ((C1 - g * cc) * v - g * ss * u)%C = C0) by (transitivity (v - g * (cc * v + ss * u))%C; [ring|rewrite <- E2; ring]).
    transitivity ((C1 - g * cc) * ((C1 - g * cc) * v - g * ss * u) + g * ss * ((C1 - g * cc) * u + g * ss * v) + (C1 - (cc * cc + ss * ss)) * v + (C1 - g * g) * (cc * cc + ss * ss) * v)%C; [unfold d; ring|]. rewrite Q1, Q2, Cs, Gg. ring. }
  assert (D0 : d = C0).
  { destruct (C_dec d C0) as [E|N]; [exact E|]. exfalso. destruct Nz as [N'|N']; apply N'; [exact (C_integral _ _ Du N)|exact (C_integral _ _ Dv N)]. }
  assert (R0 : (IZR gz * cos y = 1)%R) by (apply (f_equal fst) in D0; unfold d, g, cc in D0; cbn in D0; lra).
  assert (S0 : sin y = 0%R) by (pose proof (sin2_cos2 y) as Q; unfold Rsqr in Q; assert (Q' : (sin y * sin y = 0)%R) by (destruct U0 as [E|E]; rewrite E in R0; nra); destruct (Rmult_integral _ _ Q'); assumption).
  unfold cis. rewrite S0. apply C_eq; cbn; [|ring]. destruct U0 as [E|E]; rewrite E in *; lra.
Qed.
End S.
