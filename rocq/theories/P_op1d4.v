(* Blocks without semi-momentum: kept states and their norms. *)
From Verif Require Import AuxN SpecC SpecOps SpecMaps SpecFermi SpecChain M_bits1d SpecChain1d SpecCheck1d SpecBlock1d M_check1d
  P_maps P_square P_bits1d P_bits1d4 P_bits1d5 P_check1d P_check1d2 P_check1d3 P_check1d4 P_check1d5 P_block1d P_block1d2 P_block1d3 P_block1d4
  M_ops M_op1d P_op1d P_op1d2 P_op1d3 C39_checks C39_reference C39_translations.
Local Open Scope nat_scope.

Section S.
Variables (w : btype) (k : kind) (L T kb : nat) (b : block).
Hypothesis OK : block_ok w k L T b.
Notation M := (Mst k L).
Notation two := (two_of b).
Notation tf := (translates b).
Notation n := (n_of L T b).
Notation Hs := (heads b).
Notation To := (T_of T b).
Notation X := (X w k L To two n).
Notation G := (G w k L To two n).
Notation eps := (eps two tf).
Notation th := (th_of L T kb b).
Notation V := (V n Hs (chi b) X G).
Notation cab := (cab th).
Notation cosm := (cosm L T kb).
Notation Tcond := (Tcond w k L T kb b).
Definition q_of : quanta := {| q_k := kb; q_p := fst (q12 b); q_z := snd (q12 b); q_a := fst (q12 b); q_b := snd (q12 b) |}.
Definition nrm (e : entry) : R :=
  match b with
  | BFull | BNo => 1 
  | BP _ | BZ _ | BPZ _ | BA _ | BB _ | BP_Z _ _ | BA_B _ _ => IZR (e_N e)
  | BT => (1 / IZR (e_N e))
  | BT_Z z => norm_TZ L T kb z e
  | BT_A a => norm_sub L T kb a e
  | BT_B a => norm_sub L T kb a e
  | BT_A_B a c => norm_AB L T kb a c e
  | _ => 1
  end%R.
Definition kap : R := if tf then (INR (length Hs) * INR n * INR n)%R else 1%R.
Lemma kap_pos : (0 < kap)%R.
Proof.
  unfold kap. pose proof (g_Hn _ _ _ _ _ _ _ (block_grp w k L T b OK)) as Hn. destruct tf; [|lra]. assert (0 < INR n)%R by (apply lt_0_INR; lia). assert (0 < INR (length Hs))%R by (apply lt_0_INR; destruct b; cbn; lia). apply Rmult_lt_0_compat; [apply Rmult_lt_0_compat|]; assumption.
Qed.
Lemma eps_ab h : semi b = false -> In h Hs -> eps h = false.
Proof. destruct b; cbn [semi heads In]; intros Hsm Hh; try discriminate Hsm; repeat destruct Hh as [<-|Hh]; try contradiction; reflexivity. Qed.

(* without translations *)
Lemma X_const x g s : tf = false -> X x g s = X 0 g s.
Proof. intros E. unfold P_block1d4.X. assert (Ec : forall r, cnt n r = 0) by (intros r; destruct (cnt_tf L T b r) as [E'|E']; [congruence|exact E']). rewrite !Ec. reflexivity. Qed.
Lemma n_one : tf = false -> n = 1. Proof. intros E. unfold n_of. rewrite E. reflexivity. Qed.
Lemma dot_single s : semi b = false -> is_state k L s -> tf = false -> (forall g, In g Hs -> X 0 g s = s -> (chi b g * IZR (G 0 g s) = 1)%R) ->
  dotv M (V cab s) (V cab s) = RtoC (INR (length Hs) * INR (length (filter (fun g => (X 0 g s =? s)%N) Hs))).
Proof.
  intros Sm Hst E Hc. pose proof (block_grp w k L T b OK) as GR. pose proof (proj2 (M_st k L s) Hst) as Ds.
  pose proof (Hth w k L T kb b OK) as HT. assert (cab0 : cab 0 = C1) by (unfold P_block1d2.cab; rewrite Rmult_0_r, Ropp_0; apply cis_0).
  rewrite (dot_ab n M th HT Hs eps (chi b) X G GR s Ds (Tc_none w k L T kb b OK s Hst E) (fun g => if (X 0 g s =? s)%N then Gc G 0 g s else C0)).
  - assert (EA : Ac n X s = C1).
    { unfold Ac. rewrite (n_one E) at 1. unfold zs. cbn [seq map]. rewrite Csum_cons, Csum_nil. change (Z.of_nat 0) with 0%Z. rewrite (g_X0 _ _ _ _ _ _ _ GR s Ds), N.eqb_refl. apply C_eq; cbn; ring. }
    rewrite EA. unfold LH. rewrite (n_one E). assert (ES : forall l, incl l Hs -> Csum l (fun g => (ch (chi b) g * (if (X 0 g s =? s)%N then Gc G 0 g s else C0))%C) = RtoC (INR (length (filter (fun g => (X 0 g s =? s)%N) l)))).
    { induction l as [|g l IH]; intros Hi; [reflexivity|]. rewrite Csum_cons, IH by (intros x Hx; apply Hi; right; exact Hx). cbn [filter]. destruct (N.eqb_spec (X 0 g s) s) as [Eg|Eg].
      - cbn [length]. rewrite S_INR, RtoC_add. unfold ch, Gc. rewrite <- RtoC_mul, (Hc g (Hi g (or_introl eq_refl)) Eg). apply C_eq; cbn; ring.
      - ring. }
    rewrite (n_one E) in ES. rewrite (ES Hs (incl_refl _)), RtoC_mul. cbn [INR]. unfold C1. apply C_eq; cbn; ring.
  - intros g Hg. apply eps_ab; assumption.
  - intros g Hg. destruct (N.eqb_spec (X 0 g s) s) as [Eg|Eg]; [left; exists 0%Z; split; [exact Eg|]; rewrite cab0; ring|right; split; [|reflexivity]]. intros x. rewrite (X_const x g s E). exact Eg.
Qed.
Lemma reach0 g s : In g Hs -> is_state k L s -> tf = false -> reaches w k L 1 (hw two g) s (X 0 g s) (G 0 g s).
Proof.
  intros Hg Hst E. pose proof (proj2 (word_X w k L T b OK g 0 s Hg Hst (or_intror eq_refl) _ _) (Logic.conj eq_refl eq_refl)) as Re. cbn [repeat] in Re. rewrite app_nil_r in Re. change (Z.of_nat 0) with 0%Z in Re. replace (sg (eps g) 0) with 0%Z in Re by (destruct (eps g); reflexivity).
  rewrite (To_f T b E) in Re at 1. exact Re.
Qed.
Lemma phase_hw g : phase_of L 1 q_of (hw two g) = ((if fst g then half_turn L (fst (q12 b)) else 0) + (if snd g then half_turn L (snd (q12 b)) else 0))%Z.
Proof. unfold hw, phase_of. destruct two, g as [[|] [|]]; cbn [fst snd app fold_right phase q_of q_p q_z q_a q_b]; lia. Qed.
Lemma compat_chi s : is_state k L s -> tf = false -> compatible w k L 1 q_of (generators b) s -> forall g, In g Hs -> X 0 g s = s -> (chi b g * IZR (G 0 g s) = 1)%R.
Proof.
  intros Hst E HC g Hg Eg. pose proof (block_grp w k L T b OK) as GR. pose proof (L_pos w k L T b OK) as HL.
  pose proof (reach0 g s Hg Hst E) as Re. rewrite Eg in Re. specialize (HC _ _ (prod_hw w k L T b OK g Hg) Re). rewrite phase_hw in HC.
  pose proof (g_Gu _ _ _ _ _ _ _ GR 0%Z g s Hg (proj2 (M_st k L s) Hst)) as U. assert (U' : G 0 g s = 1%Z \/ G 0 g s = (-1)%Z) by nia.
  destruct (pm_q w k L T b OK) as [P1 P2]. unfold chi, chiZ. rewrite <- mult_IZR. f_equal.
  apply Z.mod_divide in HC; [|lia]. destruct HC as [z Hz]. unfold half_turn in Hz.
  destruct P1 as [E1|E1], P2 as [E2|E2], U' as [E3|E3], g as [[|] [|]]; cbn [fst snd] in Hz |- *; rewrite ?E1, ?E2, ?E3 in Hz |- *; cbn [Z.ltb Z.compare] in Hz; try reflexivity; exfalso;
    first [assert (EL : (Z.of_nat L * (1 - 2 * z) = 0)%Z) by lia | assert (EL : (Z.of_nat L * (3 - 2 * z) = 0)%Z) by lia]; apply Z.mul_eq_0 in EL; lia.
Qed.
Definition kept_ok (s : N) (es : list entry) : Prop := forall e, In e es ->
  es = [e] /\ e_s e = s /\ (forall x g, In g Hs -> (X x g s <= s)%N) /\ dotv M (V cab s) (V cab s) = RtoC (kap * nrm e) /\ (0 < nrm e)%R.
Lemma single_ok s v c : semi b = false -> is_state k L s -> tf = false -> decides w k L 1 q_of (generators b) s v c (map (hw two) Hs) -> c = Z.of_nat (length Hs) ->
  (forall e, nrm e = IZR (e_N e)) -> exists es, keep1 (Some v) s = Some es /\ kept_ok s es.
Proof.
  intros Sm Hst E [D1 D2] -> Hn. eexists. split; [reflexivity|]. destruct (0 <? v)%Z eqn:Ev; [|intros e []]. apply Z.ltb_lt in Ev. intros e [<-|[]]. split; [reflexivity|]. split; [reflexivity|].
  destruct (proj1 D1 Ev) as [Hex Hco]. split; [|split].
  - apply (extremal_X w k L T b OK s Hst). rewrite (To_f T b E). exact Hex.
  - rewrite (dot_single s Sm Hst E (compat_chi s Hst E Hco)). unfold kap. rewrite E, Hn. cbn [e_N]. rewrite (D2 Ev), mult_IZR, <- !INR_IZR_INZ, Rmult_1_l. do 3 f_equal.
    assert (Er : forall g, In g Hs -> returns_to w k L 1 s (hw two g) = (X 0 g s =? s)%N).
    { intros g Hg. unfold returns_to. pose proof (reach0 g s Hg Hst E) as Re. unfold reaches in Re. rewrite Re. reflexivity. }
    assert (El : forall l, incl l Hs -> length (filter (fun g => (X 0 g s =? s)%N) l) = length (filter (returns_to w k L 1 s) (map (hw two) l))); [|apply El, incl_refl].
    induction l as [|g l IH]; intros Hi; [reflexivity|]. cbn [map filter]. rewrite (Er g (Hi g (or_introl eq_refl))). specialize (IH (fun x Hx => Hi x (or_intror Hx))). destruct (X 0 g s =? s)%N; cbn [length]; congruence.
  - rewrite Hn. cbn [e_N]. apply IZR_lt, Ev.
Qed.

(* with translations *)
Lemma Tc_of s : is_state k L s -> tf = true -> compatible w k L T q_of [[LT]] s -> Tcond s.
Proof. intros Hst E HC. exact (compat_cis w k L T kb b OK s q_of Hst eq_refl E HC). Qed.
Definition vret (m sign : Z) : R := if (m =? -1)%Z then 0%R else (IZR sign * cosm m)%R.
Lemma th_k : tf = true -> th = kval L T kb. Proof. intros E. unfold th_of. rewrite E. reflexivity. Qed.
Lemma rho_first s g m sign : semi b = false -> is_state k L s -> tf = true -> Tcond s -> In g Hs -> first_return w k L T (hw two g) s m sign -> rho X G s cab g (RtoC (vret m sign)).
Proof.
  intros Sm Hst E Tc Hg Hr. destruct (ret_first w k L T kb b OK g s m sign Hg Hst E Hr) as [(i & -> & Hi & E1 & E2 & _)|(-> & _ & Nr)].
  - left. exists (Z.of_nat i). rewrite (eps_ab g Sm Hg) in E1, E2. cbn [sg] in E1, E2. split; [exact E1|]. unfold vret. destruct (Z.eqb_spec (Z.of_nat i) (-1)); [lia|]. unfold Gc. rewrite E2.
    unfold P_block1d2.cab, cis. rewrite cos_neg, sin_neg, (ret_flat w k L T kb b OK s g (Z.of_nat i) Hst Tc Hg (eps_ab g Sm Hg) E1). unfold M_op1d.cosm. rewrite (th_k E). apply C_eq; cbn; ring.
  - right. split; [exact Nr|reflexivity].
Qed.
Lemma vret_le m sign : (sign = 1 \/ sign = -1)%Z -> (-1 <= vret m sign <= 1)%R.
Proof. intros Hs. unfold vret. destruct (m =? -1)%Z; [lra|]. unfold M_op1d.cosm. pose proof (COS_bound (kval L T kb * IZR m)). destruct Hs as [-> | ->]; lra. Qed.
Lemma dot_T s R0 v : semi b = false -> is_state k L s -> tf = true -> Tcond s -> least_period w k L T s R0 -> (forall g, In g Hs -> rho X G s cab g (RtoC (v g))) ->
  (0 < R0)%Z /\ dotv M (V cab s) (V cab s) = (RtoC (kap / IZR R0) * Csum Hs (fun g => RtoC (chi b g * v g)))%C.
Proof.
  intros Sm Hst E Tc Lp Hv. destruct (period_Ac w k L T kb b OK s R0 Hst Tc E Lp) as [H0 EA]. split; [exact H0|].
  rewrite (dot_ab n M th (Hth w k L T kb b OK) Hs eps (chi b) X G (block_grp w k L T b OK) s (proj2 (M_st k L s) Hst) Tc (fun g => RtoC (v g))); [|intros g Hg; apply eps_ab; assumption|exact Hv].
  assert (NR : IZR R0 <> 0%R) by (apply not_0_IZR; lia). f_equal; [|apply Csum_ext; intros g _; unfold ch; symmetry; apply RtoC_mul].
  unfold kap, LH. rewrite E. assert (EA' : Ac n X s = RtoC (INR n / IZR R0)).
  { assert (E1 : Ac n X s = (Ac n X s * RtoC (IZR R0) * RtoC (/ IZR R0))%C) by (transitivity (Ac n X s * RtoC (IZR R0 * / IZR R0))%C; [rewrite Rinv_r by exact NR; apply C_eq; cbn; ring|rewrite RtoC_mul; ring]). rewrite E1, EA, <- RtoC_mul. reflexivity. }
  rewrite EA', <- !RtoC_mul. f_equal. field. exact NR.
Qed.
Lemma rho_id s : is_state k L s -> rho X G s cab h0 (RtoC 1).
Proof.
  intros Hst. left. exists 0%Z. pose proof (block_grp w k L T b OK) as GR. pose proof (proj2 (M_st k L s) Hst) as Ds. split; [apply (g_X0 _ _ _ _ _ _ _ GR s Ds)|].
  unfold Gc. rewrite (G0 _ _ _ _ _ _ _ GR s Ds). unfold P_block1d2.cab. rewrite Rmult_0_r, Ropp_0, cis_0. apply C_eq; cbn; ring.
Qed.
End S.
