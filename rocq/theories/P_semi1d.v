(* Semi-momentum blocks: overlaps of the cosine and sine states of one orbit. *)
From Verif Require Import AuxN SpecC SpecOps SpecMaps SpecFermi SpecChain M_bits1d SpecChain1d SpecCheck1d SpecBlock1d M_check1d
  P_maps P_square P_bits1d P_bits1d4 P_bits1d5 P_check1d P_check1d2 P_check1d3 P_check1d4 P_check1d5 P_block1d P_block1d2 P_block1d3 P_block1d4
  M_ops M_symop P_symop P_photon M_op1d P_op1d P_op1d2 P_op1d3 P_op1d4 P_op1d5 P_op1d6 C39_checks C39_reference C39_translations.
From Coq Require Import Permutation.
Local Open Scope nat_scope.

Lemma dot_lin2 M u v x (a c : C) : dotv M u (fun t => a * v t + c * x t)%C = (a * dotv M u v + c * dotv M u x)%C.
Proof. unfold dotv. rewrite <- !Csum_mul_l, <- Csum_add. apply Csum_ext. intros t _. ring. Qed.
Lemma dot_sym M u v : dotv M v u = Cconj (dotv M u v).
Proof. unfold dotv. rewrite Csum_conj. apply Csum_ext. intros t _. apply C_eq; cbn; ring. Qed.
Lemma dot_ext2 M u v v' : (forall t, v t = v' t) -> dotv M u v = dotv M u v'.
Proof. intros H. unfold dotv. apply Csum_ext. intros t _. rewrite H. reflexivity. Qed.
Lemma dot_scal2 M u v (a : C) : dotv M u (fun t => a * v t)%C = (a * dotv M u v)%C.
Proof. unfold dotv. rewrite <- Csum_mul_l. apply Csum_ext. intros t _. ring. Qed.

Section F.
Variables (L T kb : nat).
Hypothesis HL : 1 <= L.
Lemma flat_sinm m : flat L T kb = true -> sinm L T kb m = 0%R.
Proof.
  intros Hf. unfold flat in Hf. apply Nat.eqb_eq in Hf. apply Nat.mod_divide in Hf; [|lia]. destruct Hf as [c Hc]. unfold sinm, kval. apply sin_eq_0_1. exists (Z.of_nat c * m)%Z.
  rewrite mult_IZR, <- INR_IZR_INZ. apply (f_equal INR) in Hc. rewrite !mult_INR in Hc. cbn [INR] in Hc. assert (INR L <> 0%R) by (apply not_0_INR; lia).
  apply (Rmult_eq_reg_r (INR L)); [|assumption]. transitivity (PI * IZR m * (INR c * INR L))%R; [rewrite <- Hc; field; assumption|ring].
Qed.
Lemma nonflat_gen : flat L T kb = false -> generic (kval L T kb).
Proof.
  intros Hf E. apply (f_equal fst) in E. unfold cis in E. cbn [fst] in E. rewrite cos_2a_sin in E. assert (Q : (sin (kval L T kb) * sin (kval L T kb) = 0)%R) by (cbn in E; lra).
  assert (S0 : sin (kval L T kb) = 0%R) by (destruct (Rmult_integral _ _ Q); assumption). apply sin_eq_0_0 in S0. destruct S0 as [z Hz]. unfold kval in Hz.
  assert (NL : INR L <> 0%R) by (apply not_0_INR; lia). assert (NP : PI <> 0%R) by (pose proof PI_RGT_0; lra).
  assert (E1 : (INR (2 * kb * T) = IZR z * INR L)%R).
  { rewrite !mult_INR. cbn [INR]. apply (Rmult_eq_reg_l PI); [|exact NP]. apply (Rmult_eq_reg_r (/ INR L)); [|apply Rinv_neq_0_compat, NL]. transitivity (2 * PI * INR kb * INR T / INR L)%R; [unfold Rdiv; ring|]. rewrite Hz. field. exact NL. }
  rewrite !INR_IZR_INZ, <- mult_IZR in E1. apply eq_IZR in E1. unfold flat in Hf. apply Nat.eqb_neq in Hf. apply Hf. apply Nat.mod_divide; [lia|]. exists (Z.to_nat z). nia.
Qed.
End F.

Section S.
Variables (w : btype) (k : kind) (L T kb : nat) (b : block).
Hypothesis OK : block_ok w k L T b.
Hypothesis Sm : semi b = true.
Notation M := (Mst k L).
Notation two := (two_of b).
Notation tf := (translates b).
Notation n := (n_of L T b).
Notation Hs := (heads b).
Notation To := (T_of T b).
Notation X := (X w k L To two n).
Notation G := (G w k L To two n).
Notation eps := (eps two tf).
Notation th := (th_of L T kb b).
Notation V := (V n Hs (chi b) X G).
Notation cp := (cp th).
Notation cm := (cm th).
Notation cosm := (cosm L T kb).
Notation sinm := (sinm L T kb).
Notation Tcond := (Tcond w k L T kb b).
Notation cf := (cf L T kb b).
Notation dot := (dotv M).
Lemma Et : tf = true. Proof. exact (semi_tf w k L T b OK Sm). Qed.
Lemma thk : th = kval L T kb. Proof. exact (th_k L T kb b Et). Qed.
Lemma cp_cos l : cp l = RtoC (cosm l). Proof. unfold P_block1d2.cp, M_op1d.cosm. rewrite thk. reflexivity. Qed.
Lemma cm_sin l : cm l = RtoC (sinm l). Proof. unfold P_block1d2.cm, M_op1d.sinm. rewrite thk. reflexivity. Qed.
Lemma cf_pos sg : (0 < sg)%Z -> cf sg = cp. Proof. intros H. unfold P_op1d2.cf. rewrite Sm. destruct (Z.ltb_spec 0 sg); [reflexivity|lia]. Qed.
Lemma cf_neg sg : (sg <= 0)%Z -> cf sg = cm. Proof. intros H. unfold P_op1d2.cf. rewrite Sm. destruct (Z.ltb_spec 0 sg); [lia|reflexivity]. Qed.
Definition kap0 : R := (INR (length Hs) * INR n * INR n * nu th)%R.
Lemma kap0_pos : (0 < kap0)%R.
Proof.
  unfold kap0. pose proof (nu_pos th). pose proof (g_Hn _ _ _ _ _ _ _ (block_grp w k L T b OK)) as Hn. assert (0 < INR n)%R by (apply lt_0_INR; lia).
  assert (0 < INR (length Hs))%R by (apply lt_0_INR; destruct b; cbn; lia). repeat apply Rmult_lt_0_compat; assumption.
Qed.
(* the state that V(cf sc) becomes after the reference search *)
Definition Wl (sc l : Z) (s t : N) : C :=
  if (0 <? sc)%Z then (RtoC (cosm l) * V cp s t + - RtoC (sinm l) * V cm s t)%C else (RtoC (cosm l) * V cm s t + RtoC (sinm l) * V cp s t)%C.
Lemma V_back_s sc l h s r t : back M Hs eps X l h s r -> V (cf sc) s t = (Gc G (sg (eps h) l) h s * ch (chi b) h * RtoC (if (eps h && negb (0 <? sc)%Z)%bool then -1 else 1) * Wl sc l r t)%C.
Proof.
  intros Hb. pose proof (block_grp w k L T b OK) as GR. unfold Wl. destruct (Z.ltb_spec 0 sc).
  - rewrite cf_pos by assumption. rewrite Bool.andb_false_r. rewrite (V_back_p n M th (Hth w k L T kb b OK) Hs eps (chi b) X G GR l h s r t Hb), cp_cos, cm_sin. change (RtoC 1) with C1. ring.
  - rewrite cf_neg by assumption. rewrite Bool.andb_true_r. rewrite (V_back_m n M th (Hth w k L T kb b OK) Hs eps (chi b) X G GR l h s r t Hb), cp_cos, cm_sin. ring.
Qed.

(* overlaps of the two states of one orbit *)
Definition overlaps (s : N) (kp A B Y : R) : Prop :=
  dot (V cp s) (V cp s) = RtoC (kp * (A + B)) /\
  (generic th -> dot (V cm s) (V cm s) = RtoC (kp * (A - B)) /\ dot (V cp s) (V cm s) = RtoC (kp * Y) /\ dot (V cm s) (V cp s) = RtoC (kp * Y)).
Lemma overlaps_of s R0 vp vm A B Y : is_state k L s -> Tcond s -> least_period w k L T s R0 ->
  (forall g, In g Hs -> rho X G s cp g (RtoC (vp g))) -> (forall g, In g Hs -> rho X G s cm g (RtoC (vm g))) ->
  Csum Hs (fun g => RtoC (chi b g * vp g)) = RtoC (A + B) -> Csum Hs (fun g => RtoC (chi b g * (if eps g then -1 else 1) * vp g)) = RtoC (A - B) ->
  Csum Hs (fun g => RtoC (chi b g * vm g)) = RtoC Y -> (0 < R0)%Z /\ overlaps s (kap0 / IZR R0) A B Y.
Proof.
  intros Hst Tc Lp Hp Hm E1 E2 E3. pose proof (block_grp w k L T b OK) as GR. destruct (period_Ac w k L T kb b OK s R0 Hst Tc Et Lp) as [H0 EA]. split; [exact H0|].
  pose proof (proj2 (M_st k L s) Hst) as Ds. assert (NR : IZR R0 <> 0%R) by (apply not_0_IZR; lia).
  assert (EA' : Ac n X s = RtoC (INR n / IZR R0)).
  { assert (Q : Ac n X s = (Ac n X s * RtoC (IZR R0) * RtoC (/ IZR R0))%C) by (transitivity (Ac n X s * RtoC (IZR R0 * / IZR R0))%C; [rewrite Rinv_r by exact NR; apply C_eq; cbn; ring|rewrite RtoC_mul; ring]). rewrite Q, EA, <- RtoC_mul. reflexivity. }
  assert (KK : forall z S, (Csum Hs z = RtoC S -> LH Hs * RtoC (INR n * nu th) * Ac n X s * Csum Hs z = RtoC (kap0 / IZR R0 * S))%C).
  { intros z S0 ->. unfold LH, kap0. rewrite EA', <- !RtoC_mul. f_equal. field. exact NR. }
  split.
  - rewrite (dot_pp n M th (Hth w k L T kb b OK) Hs eps (chi b) X G GR s Ds Tc (fun g => RtoC (vp g)) Hp). apply KK. rewrite <- E1. apply Csum_ext. intros g _. unfold ch. symmetry. apply RtoC_mul.
  - intros Gn. assert (PM : dot (V cp s) (V cm s) = RtoC (kap0 / IZR R0 * Y)).
    { rewrite (dot_pm n M th (Hth w k L T kb b OK) Hs eps (chi b) X G GR s Ds Tc (fun g => RtoC (vm g)) Gn Hm). apply KK. rewrite <- E3. apply Csum_ext. intros g _. unfold ch. symmetry. apply RtoC_mul. }
    split; [|split; [exact PM|rewrite dot_sym, PM; apply Cconj_RtoC]].
    rewrite (dot_mm n M th (Hth w k L T kb b OK) Hs eps (chi b) X G GR s Ds Tc (fun g => RtoC (vp g)) Gn Hp). apply KK. rewrite <- E2. apply Csum_ext. intros g _. unfold ch. rewrite !RtoC_mul. reflexivity.
Qed.
(* the bracket of the matrix elements *)
Definition brk (A B Y : R) (sr sc l : Z) : R :=
  if (sr =? sc)%Z then (cosm l * (A + IZR sr * B) - IZR sr * sinm l * Y)%R else (cosm l * Y - IZR sc * sinm l * (A + IZR sr * B))%R.
Lemma dot_Wl s kp A B Y sr sc l : overlaps s kp A B Y -> plus_minus sr -> plus_minus sc -> (generic th \/ sr = 1 /\ sc = 1 /\ sinm l = 0%R)%Z ->
  dot (V (cf sr) s) (Wl sc l s) = RtoC (kp * brk A B Y sr sc l).
Proof.
  intros [PP Q] Hr Hc D. unfold Wl, brk. destruct D as [Gn|(-> & -> & Es)].
  - destruct (Q Gn) as (MM & PM & MP). destruct Hr as [-> | ->], Hc as [-> | ->]; cbn [Z.ltb Z.compare Z.eqb Pos.eqb];
      rewrite ?(cf_pos 1) by lia; rewrite ?(cf_neg (-1)) by lia; rewrite dot_lin2, ?PP, ?MM, ?PM, ?MP; apply C_eq; cbn; ring.
  - cbn [Z.ltb Z.compare Z.eqb Pos.eqb]. rewrite (cf_pos 1) by lia. rewrite dot_lin2, PP, Es. apply C_eq; cbn; ring.
Qed.
(* the overlaps that occur: a factor Zf of the inversions and the return after a reflection *)
Lemma brk_mix Zf f q m sr sc l : (Zf <> 0)%R -> plus_minus sr -> plus_minus sc -> (1 + IZR f * IZR sr * IZR q * cosm m <> 0)%R ->
  brk Zf (Zf * (IZR f * IZR q * cosm m)) (- (Zf * (IZR f * IZR q * sinm m))) sr sc l =
  (Zf * (1 + IZR sr * (IZR f * IZR q * cosm m)) * mix L T kb f m q sr sc l)%R.
Proof.
  intros NZ Hr Hc ND. assert (Ecos : cosm (l - m) = (cosm l * cosm m + sinm l * sinm m)%R) by (unfold M_op1d.cosm, M_op1d.sinm; rewrite minus_IZR, Rmult_minus_distr_l, cos_minus; reflexivity).
  assert (Esin : sinm (l - m) = (sinm l * cosm m - cosm l * sinm m)%R) by (unfold M_op1d.cosm, M_op1d.sinm; rewrite minus_IZR, Rmult_minus_distr_l, sin_minus; reflexivity).
  unfold brk, mix. rewrite Ecos, Esin. destruct (Z.eqb_spec sr sc) as [<-|Ne].
  - field_simplify_eq; [|exact ND]. destruct Hr as [-> | ->]; ring.
  - assert (Esc : IZR sc = (- IZR sr)%R) by (destruct Hr as [-> | ->], Hc as [-> | ->]; try contradiction; cbn; lra). rewrite Esc. assert (ND' : (1 - IZR f * - IZR sr * IZR q * cosm m <> 0)%R) by (intros E; apply ND; rewrite <- E; ring).
    field_simplify_eq; [|exact ND']. destruct Hr as [-> | ->]; ring.
Qed.
Lemma brk_plain Zf sr sc l : plus_minus sr -> plus_minus sc -> brk Zf 0 0 sr sc l = (Zf * plain L T kb sr sc l)%R.
Proof. intros Hr Hc. unfold brk, plain. destruct (sr =? sc)%Z; ring. Qed.

(* returns *)
Definition vcos (m sign : Z) : R := if (m =? -1)%Z then 0%R else (IZR sign * cosm m)%R.
Definition vsin (m sign : Z) : R := if (m =? -1)%Z then 0%R else (IZR sign * sinm m)%R.
Lemma rho_first_p s g m sign : is_state k L s -> Tcond s -> In g Hs -> first_return w k L T (hw two g) s m sign ->
  rho X G s cp g (RtoC (vcos m sign)) /\ rho X G s cm g (RtoC (if eps g then - vsin m sign else 0)).
Proof.
  intros Hst Tc Hg Hr. destruct (ret_first w k L T kb b OK g s m sign Hg Hst Et Hr) as [(i & -> & Hi & E1 & E2 & _)|(-> & _ & Nr)].
  - assert (F : (Z.of_nat i =? -1)%Z = false) by (apply Z.eqb_neq; lia). unfold vcos, vsin. rewrite F. split; left; exists (sg (eps g) (Z.of_nat i)); (split; [exact E1|]); unfold Gc; rewrite E2, ?cp_cos, ?cm_sin, <- RtoC_mul; f_equal.
    + destruct (eps g); cbn [sg]; [|reflexivity]. unfold M_op1d.cosm. rewrite opp_IZR, Ropp_mult_distr_r_reverse, cos_neg. reflexivity.
    + destruct (eps g) eqn:Eg; cbn [sg] in *; [unfold M_op1d.sinm; rewrite opp_IZR, Ropp_mult_distr_r_reverse, sin_neg; ring|].
      assert (S0 : sinm (Z.of_nat i) = 0%R) by (unfold M_op1d.sinm; rewrite <- thk; exact (ret_flat w k L T kb b OK s g (Z.of_nat i) Hst Tc Hg Eg E1)). rewrite S0. ring.
  - cbn [vcos vsin Z.eqb Pos.eqb]. split; right; (split; [exact Nr|]); [reflexivity|]. unfold vsin. cbn [Z.eqb Pos.eqb]. destruct (eps g); rewrite ?Ropp_0; reflexivity.
Qed.
Lemma rho_id_s s : is_state k L s -> rho X G s cp h0 (RtoC 1) /\ rho X G s cm h0 (RtoC 0).
Proof.
  intros Hst. pose proof (block_grp w k L T b OK) as GR. pose proof (proj2 (M_st k L s) Hst) as Ds.
  split; left; exists 0%Z; (split; [apply (g_X0 _ _ _ _ _ _ _ GR s Ds)|]); unfold Gc; rewrite (G0 _ _ _ _ _ _ _ GR s Ds).
  - unfold P_block1d2.cp. rewrite Rmult_0_r, cos_0. apply C_eq; cbn; ring.
  - unfold P_block1d2.cm. rewrite Rmult_0_r, sin_0. apply C_eq; cbn; ring.
Qed.
(* one reflection *)
Lemma over_one s g R0 m sign : is_state k L s -> Tcond s -> least_period w k L T s R0 -> Hs = [h0; g] -> eps g = true -> first_return w k L T (hw two g) s m sign ->
  (0 < R0)%Z /\ overlaps s (kap0 / IZR R0) 1 (1 * (chi b g * vcos m sign)) (- (1 * (chi b g * vsin m sign))).
Proof.
  intros Hst Tc Lp EH Eg Fr. assert (Hg : In g Hs) by (rewrite EH; right; left; reflexivity). destruct (rho_first_p s g m sign Hst Tc Hg Fr) as [Rp Rm]. destruct (rho_id_s s Hst) as [Ip Im]. rewrite Eg in Rm.
  pose proof (block_grp w k L T b OK) as GR. pose proof (e0' _ _ _ _ _ _ _ GR) as E0. pose proof (c0 _ _ _ _ _ _ _ GR) as C0'.
  assert (Ng : g <> h0) by (intros ->; congruence).
  assert (Q : forall h, {h = h0} + {h <> h0}) by (intros [[|] [|]]; ((left; reflexivity) || (right; discriminate))).
  set (vp h := if Q h then 1%R else vcos m sign). set (vm h := if Q h then 0%R else (- vsin m sign)%R).
  assert (P0 : vp h0 = 1%R /\ vm h0 = 0%R) by (unfold vp, vm; destruct (Q h0); [auto|contradiction]). assert (P1 : vp g = vcos m sign /\ vm g = (- vsin m sign)%R) by (unfold vp, vm; destruct (Q g); [contradiction|auto]).
  destruct P0 as [Pa Pb], P1 as [Pc Pd].
  apply (overlaps_of s R0 vp vm); try assumption.
  - intros h Hh. rewrite EH in Hh. destruct Hh as [<-|[<-|[]]]; rewrite ?Pa, ?Pc; assumption.
  - intros h Hh. rewrite EH in Hh. destruct Hh as [<-|[<-|[]]]; rewrite ?Pb, ?Pd; assumption.
  - rewrite EH, !Csum_cons, Csum_nil, C0', Pa, Pc. apply C_eq; cbn; ring.
  - rewrite EH, !Csum_cons, Csum_nil, C0', Pa, Pc, E0, Eg. apply C_eq; cbn; ring.
  - rewrite EH, !Csum_cons, Csum_nil, C0', Pb, Pd. apply C_eq; cbn; ring.
Qed.
End S.
