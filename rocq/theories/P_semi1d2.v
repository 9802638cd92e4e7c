(* Semi-momentum blocks: the stored states. *)
From Verif Require Import AuxN SpecC SpecOps SpecMaps SpecFermi SpecChain M_bits1d SpecChain1d SpecCheck1d SpecBlock1d M_check1d
  P_maps P_square P_bits1d P_bits1d4 P_bits1d5 P_check1d P_check1d2 P_check1d3 P_check1d4 P_check1d5 P_block1d P_block1d2 P_block1d3 P_block1d4
  M_ops M_symop P_symop P_photon M_op1d P_op1d P_op1d2 P_op1d3 P_op1d4 P_op1d5 P_op1d6 P_semi1d C39_checks C39_reference C39_translations.
From Coq Require Import Permutation.
Local Open Scope nat_scope.

Lemma decode3 a c d B : (0 <= a < B)%Z -> (0 <= c < B)%Z -> let x := (a + B * c + d * (B * B))%Z in (x mod B = a /\ (x / B) mod B = c /\ x / B / B = d)%Z.
Proof.
  intros Ha Hc x. assert (E1 : (x / B = c + d * B)%Z) by (unfold x; replace (a + B * c + d * (B * B))%Z with (a + (c + d * B) * B)%Z by ring; rewrite Z.div_add by lia; rewrite Z.div_small by lia; ring).
  split; [unfold x; replace (a + B * c + d * (B * B))%Z with (a + (c + d * B) * B)%Z by ring; rewrite Z.mod_add by lia; apply Z.mod_small; lia|].
  rewrite E1. split; [rewrite Z.mod_add by lia; apply Z.mod_small; lia|rewrite Z.div_add by lia; rewrite Z.div_small by lia; ring].
Qed.
Lemma kept_one x : kept_sigma x 1 = true -> kept_sigma x (-1) = true -> False.
Proof.
  unfold kept_sigma. cbn [Z.eqb Pos.eqb andb negb]. rewrite Bool.andb_true_r. intros H1 H2. apply Bool.andb_true_iff in H2. destruct H2 as [_ H2]. rewrite Bool.negb_involutive in H2. apply Rzero_t in H2.
  apply Bool.negb_true_iff, Rzero_f in H1. apply H1. rewrite <- H2. cbn. ring.
Qed.
Lemma kept_nz x sg : kept_sigma x sg = true -> (1 + IZR sg * x <> 0)%R.
Proof. unfold kept_sigma. intros H. apply Bool.andb_true_iff in H. destruct H as [H _]. apply Bool.negb_true_iff, Rzero_f in H. exact H. Qed.
Lemma sgn_mul sg r : plus_minus sg -> (0 < r)%Z -> sgn (sg * r) = sg.
Proof. intros [-> | ->] Hr; unfold sgn; [destruct (Z.ltb_spec 0 (1 * r)); [reflexivity|lia]|destruct (Z.ltb_spec 0 (-1 * r)); [lia|reflexivity]]. Qed.
Lemma sgn_pm x : plus_minus (sgn x). Proof. unfold sgn. destruct (0 <? x)%Z; [left|right]; reflexivity. Qed.
Lemma NoDup_filter' {A} (f : A -> bool) l : NoDup l -> NoDup (filter f l).
Proof. apply NoDup_filter. Qed.
Lemma pm_R x : plus_minus x -> (IZR x * IZR x = 1)%R /\ (IZR x = 1 \/ IZR x = -1)%R. Proof. intros [-> | ->]; cbn; split; try lra; auto. Qed.
Lemma pm_cos x y c : plus_minus x -> plus_minus y -> (-1 <= c <= 1)%R -> (-1 <= IZR x * IZR y * c <= 1)%R.
Proof. intros [-> | ->] [-> | ->] H; lra. Qed.

Section S.
Variables (w : btype) (k : kind) (L T kb : nat) (b : block).
Hypothesis OK : block_ok w k L T b.
Hypothesis Sm : semi b = true.
Notation M := (Mst k L).
Notation two := (two_of b).
Notation tf := (translates b).
Notation n := (n_of L T b).
Notation Hs := (heads b).
Notation To := (T_of T b).
Notation X := (X w k L To two n).
Notation G := (G w k L To two n).
Notation eps := (eps two tf).
Notation th := (th_of L T kb b).
Notation V := (V n Hs (chi b) X G).
Notation cp := (cp th).
Notation cm := (cm th).
Notation cosm := (cosm L T kb).
Notation sinm := (sinm L T kb).
Notation Tcond := (Tcond w k L T kb b).
Notation cf := (cf L T kb b).
Notation dot := (dotv M).
Notation overlaps := (overlaps w k L T kb b).
Notation kap0 := (kap0 L T kb b).
Notation Wl := (Wl w k L T kb b).
Notation flat := (flat L T kb).
Notation sigmas := (sigmas L T kb).
Notation vcos := (vcos L T kb).
Notation vsin := (vsin L T kb).
Definition nrms (e : entry) : R := match b with BT_P p | BT_PZ p => norm_TP L T kb p e | BT_P_Z p z => norm_TPZ L T kb p z e | _ => 1%R end.
Definition mixb (e : entry) (sr sc l : Z) : R :=
  match b with
  | BT_P q | BT_PZ q => let mmr := (e_m e mod (Z.of_nat L + 1) - 1)%Z in if (mmr <? 0)%Z then plain L T kb sr sc l else mix L T kb (fTP L e) mmr q sr sc l
  | BT_P_Z p z =>
    match cTPZ L e with
    | 1%Z | 2%Z | 7%Z | 8%Z | 9%Z | 10%Z => mix L T kb (f1TPZ L e) (mmTPZ L e) p sr sc l
    | 5%Z | 6%Z => mix L T kb (f1TPZ L e) (mmTPZ L e) (p * z) sr sc l
    | _ => plain L T kb sr sc l
    end
  | _ => 1%R
  end.
Definition entry_ok (s : N) (e : entry) : Prop :=
  e_s e = s /\ (forall x g, In g Hs -> (X x g s <= s)%N) /\ (0 < nrms e)%R /\ (sgn (e_N e) = 1%Z \/ flat = false) /\
  dot (V (cf (sgn (e_N e))) s) (V (cf (sgn (e_N e))) s) = RtoC (kap0 * nrms e) /\
  forall sc l, plus_minus sc -> (flat = false \/ sgn (e_N e) = 1 /\ sc = 1)%Z -> dot (V (cf (sgn (e_N e))) s) (Wl sc l s) = RtoC (kap0 * nrms e * mixb e (sgn (e_N e)) sc l).
Definition kept_semi (s : N) (es : list entry) : Prop :=
  NoDup (map (fun e => sgn (e_N e)) es) /\ (forall e, In e es -> entry_ok s e) /\
  forall e e', In e es -> In e' es -> sgn (e_N e) <> sgn (e_N e') -> dot (V (cf (sgn (e_N e))) s) (V (cf (sgn (e_N e'))) s) = C0.
Lemma kept_nil s : kept_semi s []. Proof. split; [constructor|]. split; [intros e []|intros e e0 []]. Qed.
Lemma sigmas_in sg : In sg sigmas -> plus_minus sg /\ (sg = 1%Z \/ flat = false).
Proof. unfold M_op1d.sigmas. destruct flat; intros H; cbn [In] in H; unfold plus_minus; intuition lia. Qed.
Lemma sigmas_nd : NoDup sigmas. Proof. unfold M_op1d.sigmas. destruct flat; repeat (constructor; [cbn; intuition lia|]); constructor. Qed.
Lemma HL1' : 1 <= L. Proof. exact (L_pos w k L T b OK). Qed.
Lemma gen_flat sr sc l : (flat = false \/ sr = 1 /\ sc = 1)%Z -> (generic th \/ sr = 1 /\ sc = 1 /\ sinm l = 0%R)%Z.
Proof.
  intros D. destruct flat eqn:E; [|left; rewrite (thk w k L T kb b OK Sm); apply (nonflat_gen L T kb HL1' E)]. destruct D as [D|[-> ->]]; [discriminate|]. right. split; [reflexivity|]. split; [reflexivity|]. exact (flat_sinm L T kb HL1' l E).
Qed.
Lemma dot_self s kp A B Y sr : overlaps s kp A B Y -> plus_minus sr -> (sr = 1%Z \/ flat = false) -> dot (V (cf sr) s) (V (cf sr) s) = RtoC (kp * (A + IZR sr * B)).
Proof.
  intros O Hr D. assert (D' : (generic th \/ sr = 1 /\ sr = 1 /\ sinm 0 = 0%R)%Z) by (apply gen_flat; destruct D; auto).
  pose proof (dot_Wl w k L T kb b Sm s kp A B Y sr sr 0 O Hr Hr D') as E. unfold brk in E. rewrite Z.eqb_refl in E.
  assert (E0 : cosm 0 = 1%R /\ sinm 0 = 0%R) by (unfold M_op1d.cosm, M_op1d.sinm; rewrite Rmult_0_r, cos_0, sin_0; auto). destruct E0 as [E1 E2].
  transitivity (dot (V (cf sr) s) (Wl sr 0 s)); [|rewrite E, E1, E2; f_equal; ring]. apply dot_ext2. intros t. unfold P_semi1d.Wl. rewrite E1, E2.
  destruct Hr as [-> | ->]; cbn [Z.ltb Z.compare]; [rewrite (cf_pos L T kb b Sm 1) by lia|rewrite (cf_neg L T kb b Sm (-1)) by lia]; apply C_eq; cbn; ring.
Qed.
Lemma dot_cross s kp A B sr sr' : overlaps s kp A B 0 -> plus_minus sr -> plus_minus sr' -> sr <> sr' -> flat = false -> dot (V (cf sr) s) (V (cf sr') s) = C0.
Proof.
  intros [_ Q] Hr Hr' Ne Hf. destruct (Q ltac:(rewrite (thk w k L T kb b OK Sm); apply (nonflat_gen L T kb HL1' Hf))) as (_ & PM & MP). rewrite Rmult_0_r in *.
  destruct Hr as [-> | ->], Hr' as [-> | ->]; try contradiction; rewrite (cf_pos L T kb b Sm 1), (cf_neg L T kb b Sm (-1)) by lia; assumption.
Qed.
Lemma list_mix s r Mv Pd Zf f q m : is_state k L s -> (0 < r)%Z -> (forall x g, In g Hs -> (X x g s <= s)%N) ->
  overlaps s (kap0 / IZR r) Zf (Zf * (IZR f * IZR q * cosm m)) (- (Zf * (IZR f * IZR q * sinm m))) -> plus_minus f -> plus_minus q ->
  (forall sg, In sg sigmas -> Pd sg = true -> (0 < Zf)%R /\ (1 + IZR sg * (IZR f * IZR q * cosm m) <> 0)%R) -> (Pd 1%Z = true -> Pd (-1)%Z = true -> False) ->
  (forall sg, plus_minus sg -> nrms (mk s (sg * r) Mv) = (Zf * (1 + IZR sg * (IZR f * IZR q * cosm m)) / IZR r)%R) ->
  (forall sg sc l, plus_minus sg -> mixb (mk s (sg * r) Mv) sg sc l = mix L T kb f m q sg sc l) ->
  kept_semi s (map (fun sg => mk s (sg * r) Mv) (filter Pd sigmas)).
Proof.
  intros Hst Hr Hx O Hf Hq HP H1 HN HM. assert (NR : (0 < IZR r)%R) by (apply IZR_lt; lia).
  assert (In' : forall e, In e (map (fun sg => mk s (sg * r) Mv) (filter Pd sigmas)) -> exists sg, In sg sigmas /\ Pd sg = true /\ e = mk s (sg * r) Mv /\ sgn (e_N e) = sg).
  { intros e He. apply in_map_iff in He. destruct He as (sg & <- & Hsg). apply filter_In in Hsg. destruct Hsg as [Hi Hp]. exists sg. split; [exact Hi|]. split; [exact Hp|]. split; [reflexivity|]. cbn [e_N]. apply sgn_mul; [apply (sigmas_in sg Hi)|exact Hr]. }
  split; [|split].
  - rewrite map_map. cbn [e_N]. rewrite (map_ext_in _ (fun sg => sg)); [rewrite map_id; apply NoDup_filter', sigmas_nd|]. intros sg Hsg. apply filter_In in Hsg. apply sgn_mul; [apply (sigmas_in sg (proj1 Hsg))|exact Hr].
  - intros e He. destruct (In' e He) as (sg & Hi & Hp & -> & Esg). destruct (sigmas_in sg Hi) as [Hpm HD]. destruct (HP sg Hi Hp) as [PZ ND]. unfold entry_ok. rewrite Esg. cbn [e_s]. split; [reflexivity|]. split; [exact Hx|]. rewrite (HN sg Hpm).
    assert (PD : (0 < 1 + IZR sg * (IZR f * IZR q * cosm m))%R).
    { pose proof (pm_cos f q (cosm m) Hf Hq (COS_bound _)) as B1. assert (GE : (0 <= 1 + IZR sg * (IZR f * IZR q * cosm m))%R) by (destruct Hpm as [-> | ->]; lra). destruct GE as [GE|GE]; [exact GE|destruct (ND (eq_sym GE))]. }
    split; [apply Rdiv_lt_0_compat; [apply Rmult_lt_0_compat; assumption|exact NR]|]. split; [exact HD|]. split.
    + rewrite (dot_self s _ _ _ _ sg O Hpm HD). f_equal. field. lra.
    + intros sc l Hsc D. rewrite (dot_Wl w k L T kb b Sm s _ _ _ _ sg sc l O Hpm Hsc (gen_flat sg sc l D)). rewrite (HM sg sc l Hpm). rewrite (brk_mix L T kb Zf f q m sg sc l); [f_equal; field; lra|lra|exact Hpm|exact Hsc|].
      intros E. apply ND. rewrite <- E. ring.
  - intros e e' He He' Hne. exfalso. destruct (In' e He) as (sg & Hi & Hp & _ & Esg). destruct (In' e' He') as (sg' & Hi' & Hp' & _ & Esg'). destruct (sigmas_in sg Hi) as [Hpm _]. destruct (sigmas_in sg' Hi') as [Hpm' _].
    rewrite Esg, Esg' in Hne. destruct Hpm as [-> | ->], Hpm' as [-> | ->]; try contradiction; apply H1; assumption.
Qed.
Lemma list_plain s r Mv Pd Zf : is_state k L s -> (0 < r)%Z -> (forall x g, In g Hs -> (X x g s <= s)%N) ->
  overlaps s (kap0 / IZR r) Zf 0 0 -> (forall sg, In sg sigmas -> Pd sg = true -> (0 < Zf)%R) ->
  (forall sg, plus_minus sg -> nrms (mk s (sg * r) Mv) = (Zf / IZR r)%R) ->
  (forall sg sc l, plus_minus sg -> mixb (mk s (sg * r) Mv) sg sc l = plain L T kb sg sc l) ->
  kept_semi s (map (fun sg => mk s (sg * r) Mv) (filter Pd sigmas)).
Proof.
  intros Hst Hr Hx O HP HN HM. assert (NR : (0 < IZR r)%R) by (apply IZR_lt; lia).
  assert (In' : forall e, In e (map (fun sg => mk s (sg * r) Mv) (filter Pd sigmas)) -> exists sg, In sg sigmas /\ Pd sg = true /\ e = mk s (sg * r) Mv /\ sgn (e_N e) = sg).
  { intros e He. apply in_map_iff in He. destruct He as (sg & <- & Hsg). apply filter_In in Hsg. destruct Hsg as [Hi Hp]. exists sg. split; [exact Hi|]. split; [exact Hp|]. split; [reflexivity|]. cbn [e_N]. apply sgn_mul; [apply (sigmas_in sg Hi)|exact Hr]. }
  split; [|split].
  - rewrite map_map. cbn [e_N]. rewrite (map_ext_in _ (fun sg => sg)); [rewrite map_id; apply NoDup_filter', sigmas_nd|]. intros sg Hsg. apply filter_In in Hsg. apply sgn_mul; [apply (sigmas_in sg (proj1 Hsg))|exact Hr].
  - intros e He. destruct (In' e He) as (sg & Hi & Hp & -> & Esg). destruct (sigmas_in sg Hi) as [Hpm HD]. pose proof (HP sg Hi Hp) as PZ. unfold entry_ok. rewrite Esg. cbn [e_s]. split; [reflexivity|]. split; [exact Hx|]. rewrite (HN sg Hpm).
    split; [apply Rdiv_lt_0_compat; assumption|]. split; [exact HD|]. split.
    + rewrite (dot_self s _ _ _ _ sg O Hpm HD). f_equal. field. lra.
    + intros sc l Hsc D. rewrite (dot_Wl w k L T kb b Sm s _ _ _ _ sg sc l O Hpm Hsc (gen_flat sg sc l D)). rewrite (HM sg sc l Hpm). rewrite (brk_plain L T kb Zf sg sc l Hpm Hsc). f_equal. field. lra.
  - intros e e' He He' Hne. destruct (In' e He) as (sg & Hi & Hp & _ & Esg). destruct (In' e' He') as (sg' & Hi' & Hp' & _ & Esg'). destruct (sigmas_in sg Hi) as [Hpm D]. destruct (sigmas_in sg' Hi') as [Hpm' D'].
    rewrite Esg, Esg' in *. apply (dot_cross s _ _ _ sg sg' O Hpm Hpm' Hne). destruct D as [->|D]; [|exact D]. destruct D' as [->|D']; [contradiction|exact D'].
Qed.
Lemma filter_all {A} (l : list A) : filter (fun _ => true) l = l. Proof. induction l; cbn; congruence. Qed.

(* translations with one reflection *)
Lemma keep_one s g p check : is_state k L s -> Hs = [h0; g] -> eps g = true -> generators b = [[LT]; hw two g] -> IZR p = chi b g -> plus_minus p ->
  (forall e, nrms e = norm_TP L T kb p e) -> (forall e sr sc l, mixb e sr sc l = let mmr := (e_m e mod (Z.of_nat L + 1) - 1)%Z in if (mmr <? 0)%Z then plain L T kb sr sc l else mix L T kb (fTP L e) mmr p sr sc l) ->
  (exists r, check kb T s = Some r /\ reports w k L T (q_of kb b) (hw two g) (hw two g) s r) -> exists es, keep_TP L T kb check p s = Some es /\ kept_semi s es.
Proof.
  intros Hst EH Eg Egen Ep Hp HN HM (r & Ec & R0 & mp & sign & -> & D1 & D2). unfold keep_TP. rewrite Ec. eexists. split; [reflexivity|].
  destruct (Z.ltb_spec 0 R0) as [Hr|Hr]; [|apply kept_nil]. destruct (proj1 D1 Hr) as [Hex Hco]. destruct (D2 Hr) as [Lp Fr]. pose proof (Et w k L T b OK Sm) as Ett.
  pose proof (Tc_of w k L T kb b OK s Hst Ett Hco) as Tc. assert (Hg : In g Hs) by (rewrite EH; right; left; reflexivity).
  assert (Hx : forall x h, In h Hs -> (X x h s <= s)%N) by (apply (extremal_X w k L T b OK s Hst); rewrite (To_t T b Ett), Egen; exact Hex).
  destruct (over_one w k L T kb b OK Sm s g R0 mp sign Hst Tc Lp EH Eg Fr) as [_ O]. destruct (first_bound w k L T kb b OK g s mp sign Hg Hst Ett Fr) as [Bm Bs]. rewrite <- Ep in O.
  assert (NR : (IZR R0 <> 0)%R) by (apply not_0_IZR; lia).
  destruct (Z.eqb_spec mp (-1)) as [->|Nm]; cbn [negb].
  - rewrite <- (filter_all sigmas). unfold P_semi1d.vcos, P_semi1d.vsin in O. cbn [Z.eqb Pos.eqb] in O. rewrite Rmult_0_r, Rmult_0_r, Ropp_0 in O.
    apply (list_plain s R0 0 _ 1%R Hst Hr Hx O); [intros; lra| |].
    + intros sg Hs'. rewrite HN. unfold norm_TP. cbn [e_N e_m]. rewrite Z.mod_0_l by lia. cbn [Z.leb Z.compare Z.sub Z.add Z.opp Z.pos_sub]. rewrite (sgn_mul sg R0 Hs' Hr), mult_IZR. destruct (pm_R sg Hs') as [Q [-> | ->]]; field; lra.
    + intros sg sc l Hs'. rewrite HM. cbn [e_m]. rewrite Z.mod_0_l by lia. reflexivity.
  - assert (Bm' : (0 <= mp < Z.of_nat L)%Z) by lia. assert (Bv : vcos mp sign = (IZR sign * cosm mp)%R /\ vsin mp sign = (IZR sign * sinm mp)%R) by (unfold P_semi1d.vcos, P_semi1d.vsin; destruct (Z.eqb_spec mp (-1)); [contradiction|auto]). rewrite (proj1 Bv), (proj2 Bv) in O.
    assert (Em : forall sg, ((e_m (mk s (sg * R0) (mp + 1 + (Z.of_nat L + 1) * ((sign + 1) / 2)))) mod (Z.of_nat L + 1) = mp + 1 /\ (e_m (mk s (sg * R0) (mp + 1 + (Z.of_nat L + 1) * ((sign + 1) / 2)))) / (Z.of_nat L + 1) = (sign + 1) / 2)%Z).
    { intros sg. cbn [e_m]. rewrite (Z.mul_comm (Z.of_nat L + 1)). rewrite Z.mod_add, Z.div_add by lia. rewrite Z.mod_small, Z.div_small by lia. lia. }
    assert (Ef : forall sg, fTP L (mk s (sg * R0) (mp + 1 + (Z.of_nat L + 1) * ((sign + 1) / 2))) = sign).
    { intros sg. unfold fTP. rewrite (proj1 (Em sg)), (proj2 (Em sg)). destruct (Z.leb_spec 0 (mp + 1 - 1)); [|lia]. apply sign_half. exact Bs. }
    apply (list_mix s R0 _ _ 1%R sign p mp Hst Hr Hx); [| |exact Hp| | | |].
    + replace (1 * (IZR sign * IZR p * cosm mp))%R with (1 * (IZR p * (IZR sign * cosm mp)))%R by ring. replace (1 * (IZR sign * IZR p * sinm mp))%R with (1 * (IZR p * (IZR sign * sinm mp)))%R by ring. exact O.
    + destruct Bs as [-> | ->]; [left|right]; reflexivity.
    + intros sg _ K. split; [lra|]. apply kept_nz in K. exact K.
    + apply kept_one.
    + intros sg Hs'. rewrite HN. unfold norm_TP. rewrite Ef, (proj1 (Em sg)). cbn [e_N]. destruct (Z.leb_spec 0 (mp + 1 - 1)); [|lia]. replace (mp + 1 - 1)%Z with mp by ring. rewrite (sgn_mul sg R0 Hs' Hr), mult_IZR. destruct (pm_R sg Hs') as [Q [-> | ->]]; field; lra.
    + intros sg sc l Hs'. rewrite HM. cbv zeta. rewrite Ef, (proj1 (Em sg)). destruct (Z.ltb_spec (mp + 1 - 1) 0); [lia|]. replace (mp + 1 - 1)%Z with mp by ring. reflexivity.
Qed.
End S.
