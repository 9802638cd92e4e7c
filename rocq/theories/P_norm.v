From Verif Require Import AuxN SpecC SpecSymm M_symm P_symm.
Local Open Scope nat_scope.

Section N.
Variables (D : N -> Prop) (nt : nat) (pers : list nat) (ms : smap) (qs : list Z).
Hypothesis HG : good_maps D nt pers ms.
Variable s : N.
Hypothesis Hs : D s.
Let T d := sact ms d.
Let P d := nth d pers 0.
Let x0 : N * Z := (s, 1%Z).
Notation W := (W ms).
Notation valid := (valid nt pers).
Let K d := ks qs pers d.

(* angle of the first c exponents *)
Definition thp (c : nat) (g : list nat) : R := Rsum (seq 0 c) (fun d => (ks qs pers d * INR (nth d g 0%nat))%R).
Lemma thp_S c g : thp (S c) g = (thp c g + K c * INR (nth c g 0%nat))%R.
Proof. unfold thp. rewrite seq_S, Rsum_app. cbn. unfold K. ring. Qed.
Lemma thp_ext c g h : (forall d, d < c -> nth d g 0 = nth d h 0) -> thp c g = thp c h.
Proof. intros H. unfold thp. apply Rsum_ext. intros d Hd. apply in_seq in Hd. rewrite H by lia. reflexivity. Qed.
Lemma thp_zeros c e g : c <= e -> (forall d, c <= d -> d < e -> nth d g 0 = 0) -> thp e g = thp c g.
Proof.
  intros Hce H. induction e as [|e IH]; [replace c with 0 by lia; reflexivity|].
  destruct (Nat.eq_dec c (S e)) as [->|]; [reflexivity|]. rewrite thp_S, (H e) by lia. cbn [INR].
  rewrite IH; [ring|lia|]. intros; apply H; lia.
Qed.
Lemma thp_theta g : thp nt g = theta qs pers g.
Proof. unfold thp, theta. rewrite (gm_len _ _ _ _ HG). apply Rsum_ext. intros d _. unfold ks. reflexivity. Qed.

Lemma ks_period d : d < nt -> cis (K d * INR (P d)) = C1.
Proof.
  intros Hd. pose proof (gm_pos _ _ _ _ HG d Hd) as Hp. unfold K, ks, P.
  replace (2 * PI * IZR (nth d qs 0%Z) / INR (nth d pers 0%nat) * INR (nth d pers 0%nat))%R with (2 * PI * IZR (nth d qs 0%Z))%R; [apply cis_2PI|].
  field. apply not_0_INR. lia.
Qed.

(* contribution of a group element to the norm *)
Definition F (g : list nat) : R :=
  if (fst (W nt g x0) =? s)%N then (IZR (snd (W nt g x0)) * cos (theta qs pers g))%R else 0%R.

Lemma chk_inner_spec c : forall st, c <= nt -> valid (c_gg st) -> (c_t st, c_ph st) = W c (c_gg st) x0 ->
  (forall e, c <= e -> e < nt -> nth e (c_gg st) 0 = 0) -> cis (c_k st) = cis (thp c (c_gg st)) ->
  match chk_inner pers qs ms nt s c st with
  | C_nan => exists g, valid g /\ (s < fst (W nt g x0))%N
  | C_st st' =>
    valid (c_gg st') /\ (forall e, c <= e -> nth e (c_gg st') 0 = nth e (c_gg st) 0) /\
    valp pers c (c_gg st') = (S (valp pers c (c_gg st))) mod prodp pers c /\
    (c_t st', c_ph st') = W c (c_gg st') x0 /\ cis (c_k st') = cis (thp c (c_gg st')) /\
    (0 < c -> (c_t st' <= s)%N) /\
    c_norm st' = (c_norm st + if ((c =? nt) && (0 <? c))%bool then (if (c_t st =? s)%N then IZR (c_ph st) * cos (c_k st) else 0) else 0)%R
  end.
Proof.
  induction c as [|c IH]; intros st Hc Vg Et Hz Hk.
  - cbn. split; [assumption|]. split; [reflexivity|]. split; [reflexivity|]. split; [assumption|]. split; [assumption|]. split; [lia|].
    rewrite andb_false_r. ring.
  - cbn [chk_inner].
    set (gc := nth c (c_gg st) 0). set (m := ms c (c_t st)).
    pose proof Vg as [Lg Vg']. pose proof (Vg' c Hc) as Vc. fold gc in Vc. fold (P c) in Vc |- *.
    assert (Hdom : forall k, k <= nt -> D (fst (W k (c_gg st) x0))) by (intros k Hk'; apply (W_dom D nt pers ms HG); assumption).
    assert (Em : (fst m, c_ph st * snd m)%Z = Nat.iter (S gc) (T c) (W c (c_gg st) x0)).
    { rewrite iter_S. change (Nat.iter gc (T c) (W c (c_gg st) x0)) with (W (S c) (c_gg st) x0). rewrite <- Et. reflexivity. }
    set (norm' := if ((c =? nt - 1) && (c_t st =? s)%N)%bool then _ else c_norm st).
    assert (En : norm' = (c_norm st + if ((S c =? nt) && (0 <? S c))%bool then (if (c_t st =? s)%N then IZR (c_ph st) * cos (c_k st) else 0) else 0)%R).
    { unfold norm'. replace (S c =? nt) with (c =? nt - 1) by (destruct (Nat.eqb_spec c (nt - 1)), (Nat.eqb_spec (S c) nt); reflexivity || lia).
      destruct (c =? nt - 1), (c_t st =? s)%N; cbn; ring. }
    assert (Ek : cis (c_k st + ks qs pers c) = (cis (thp c (c_gg st)) * cis (K c * INR (S gc)))%C).
    { rewrite cis_add, Hk, <- !cis_add. f_equal. rewrite thp_S. unfold gc. rewrite S_INR. fold (K c). ring. }
    clearbody norm'.
    destruct (Nat.ltb_spec (P c - 1) (S gc)) as [L|L].
    + assert (Egc : S gc = P c) by lia.
      set (st2 := mkC _ _ _ _ _).
      assert (G2 : forall d, nth d (c_gg st2) 0 = if d =? c then 0 else nth d (c_gg st) 0).
      { intros d. cbn [st2 c_gg]. apply (nth_step nt); assumption. }
      assert (V2 : valid (c_gg st2)) by (cbn [st2 c_gg]; eapply step_wrap; [exact HG|assumption|assumption|unfold gc, P in *; lia]).
      assert (Z2 : forall e, c <= e -> e < nt -> nth e (c_gg st2) 0 = 0).
      { intros e He Hent. rewrite G2. destruct (Nat.eqb_spec e c); [reflexivity|]. apply Hz; lia. }
      assert (E2 : (c_t st2, c_ph st2) = W c (c_gg st2) x0).
      { cbn [st2 c_t c_ph]. rewrite Em, Egc. unfold T, P. rewrite (T_period D nt pers ms HG) by first [lia | apply Hdom; lia].
        apply W_ext; [exact pers|]. intros d Hd. rewrite G2. destruct (Nat.eqb_spec d c); [lia|reflexivity]. }
      assert (K2 : cis (c_k st2) = cis (thp c (c_gg st2))).
      { cbn [st2 c_k]. rewrite Ek, Egc. rewrite ks_period by lia.
        rewrite (thp_ext c (c_gg st2) (c_gg st)) by (intros d Hd; rewrite G2; destruct (Nat.eqb_spec d c); [lia|reflexivity]). ring. }
      destruct (N.ltb_spec s (c_t st2)) as [Ls|Ls].
      * exists (c_gg st2). split; [assumption|]. rewrite (W_zeros pers ms c nt) by (lia || assumption). rewrite <- E2. exact Ls.
      * specialize (IH st2 ltac:(lia) V2 E2 Z2 K2). destruct (chk_inner pers qs ms nt s c st2) as [|st']; [assumption|].
        destruct IH as (V' & Z' & Val' & E' & K' & T' & N').
        assert (Nc : nth c (c_gg st') 0 = 0). { rewrite Z' by lia. rewrite G2, Nat.eqb_refl. reflexivity. }
        split; [assumption|]. split; [|split; [|split; [|split; [|split]]]].
        -- intros e He. rewrite Z' by lia. rewrite G2. destruct (Nat.eqb_spec e c); [lia|reflexivity].
        -- cbn [valp prodp]. rewrite Nc, Val', Nat.add_0_r.
           rewrite (valp_ext pers ms c (c_gg st2) (c_gg st)) by (intros d Hd; rewrite G2; destruct (Nat.eqb_spec d c); [lia|reflexivity]).
           fold gc. fold (P c). replace (S (valp pers c (c_gg st) * P c + gc)) with (S (valp pers c (c_gg st)) * P c) by lia.
           rewrite Nat.mul_mod_distr_r; [reflexivity|pose proof (prodp_pos D nt pers ms HG c ltac:(lia)); lia|lia].
        -- cbn [P_symm.W]. rewrite Nc. exact E'.
        -- rewrite thp_S, Nc. cbn [INR]. rewrite Rmult_0_r, Rplus_0_r. exact K'.
        -- intros _. destruct (Nat.eq_dec c 0) as [->|]; [|apply T'; lia].
           cbn [P_symm.W] in E'. injection E' as E' _. lia.
        -- rewrite N'. replace (c =? nt) with false by (symmetry; apply Nat.eqb_neq; lia). cbn [andb].
           cbn [st2 c_norm]. rewrite En. ring.
    + set (st2 := mkC _ _ _ _ _).
      assert (G2 : forall d, nth d (c_gg st2) 0 = if d =? c then S gc else nth d (c_gg st) 0).
      { intros d. cbn [st2 c_gg]. apply (nth_step nt); assumption. }
      assert (V2 : valid (c_gg st2)) by (cbn [st2 c_gg]; apply step_inc; [assumption|assumption|unfold P in L; lia]).
      assert (Z2 : forall e, S c <= e -> e < nt -> nth e (c_gg st2) 0 = 0).
      { intros e He Hent. rewrite G2. destruct (Nat.eqb_spec e c); [lia|]. apply Hz; lia. }
      assert (E2 : (c_t st2, c_ph st2) = W (S c) (c_gg st2) x0).
      { cbn [P_symm.W]. rewrite G2, Nat.eqb_refl.
        rewrite (W_ext pers ms c _ (c_gg st)) by (intros d Hd; rewrite G2; destruct (Nat.eqb_spec d c); [lia|reflexivity]).
        cbn [st2 c_t c_ph]. exact Em. }
      assert (K2 : cis (c_k st2) = cis (thp (S c) (c_gg st2))).
      { cbn [st2 c_k]. rewrite Ek, thp_S, G2, Nat.eqb_refl.
        rewrite (thp_ext c (c_gg st2) (c_gg st)) by (intros d Hd; rewrite G2; destruct (Nat.eqb_spec d c); [lia|reflexivity]).
        rewrite <- cis_add. reflexivity. }
      destruct (N.ltb_spec s (c_t st2)) as [Ls|Ls].
      * exists (c_gg st2). split; [assumption|]. rewrite (W_zeros pers ms (S c) nt) by (lia || assumption). rewrite <- E2. exact Ls.
      * split; [assumption|]. split; [|split; [|split; [assumption|split; [assumption|split]]]].
        -- intros e He. rewrite G2. destruct (Nat.eqb_spec e c); [lia|reflexivity].
        -- cbn [valp prodp]. rewrite G2, Nat.eqb_refl.
           rewrite (valp_ext pers ms c (c_gg st2) (c_gg st)) by (intros d Hd; rewrite G2; destruct (Nat.eqb_spec d c); [lia|reflexivity]).
           fold gc. fold (P c).
           pose proof (valp_lt nt pers ms c (c_gg st) ltac:(lia) ltac:(intros; apply Vg'; lia)) as Lt.
           rewrite Nat.mod_small; [lia|].
           assert (S (valp pers c (c_gg st)) * P c <= prodp pers c * P c) by (apply Nat.mul_le_mono_r; lia). lia.
        -- intros _. assumption.
        -- exact En.
Qed.

Lemma chk_outer_spec : 0 < nt -> forall fuel st L, valid (c_gg st) -> (c_t st, c_ph st) = W nt (c_gg st) x0 ->
  cis (c_k st) = cis (theta qs pers (c_gg st)) -> (c_t st <= s)%N ->
  NoDup L -> (forall g, In g L <-> valid g /\ valp pers nt g < valp pers nt (c_gg st)) ->
  (forall g, In g L -> (fst (W nt g x0) <= s)%N) -> c_norm st = Rsum L F ->
  prodp pers nt - valp pers nt (c_gg st) <= fuel ->
  match chk_outer fuel pers qs ms nt s st with
  | None => False
  | Some C_nan => exists g, valid g /\ (s < fst (W nt g x0))%N
  | Some (C_st st') => (forall g, valid g -> (fst (W nt g x0) <= s)%N) /\ c_norm st' = Rsum (group pers) F
  end.
Proof.
  intros Hnt. induction fuel as [|fuel IH]; intros st L Vg Et Hk Ht ND HL HLe Hn Hf.
  - pose proof (valp_lt nt pers ms nt (c_gg st) (Nat.le_refl _) (proj2 Vg)). lia.
  - cbn [chk_outer]. rewrite (status_spec D nt pers ms HG) by assumption.
    pose proof (chk_inner_spec nt st (Nat.le_refl _) Vg Et ltac:(intros; lia) ltac:(rewrite thp_theta; assumption)) as I.
    destruct (chk_inner pers qs ms nt s nt st) as [|st']; [assumption|].
    destruct I as (V2 & _ & Val2 & E2 & K2 & T2 & N2). specialize (T2 Hnt).
    rewrite Nat.eqb_refl in N2. replace (0 <? nt) with true in N2 by (symmetry; apply Nat.ltb_lt; lia). cbn [andb] in N2.
    set (L' := c_gg st :: L).
    assert (NI : ~ In (c_gg st) L) by (rewrite HL; lia).
    assert (HL' : forall g, In g L' <-> valid g /\ valp pers nt g < S (valp pers nt (c_gg st))).
    { intros g. unfold L'. cbn [In]. rewrite HL. split.
      - intros [<-|[H1 H2]]; [split; [assumption|lia]|split; [assumption|lia]].
      - intros [H1 H2]. destruct (Nat.eq_dec (valp pers nt g) (valp pers nt (c_gg st))) as [E|E]; [left|right; split; [assumption|lia]].
        symmetry. eapply (valid_ext nt pers ms); try assumption. eapply (valp_inj pers ms); [apply H1|apply Vg|assumption]. }
    assert (Hle' : forall g, In g L' -> (fst (W nt g x0) <= s)%N).
    { intros g [<-|Hg]; [|apply HLe; assumption]. rewrite <- Et. exact Ht. }
    assert (Hn' : c_norm st' = Rsum L' F).
    { rewrite N2, Hn. unfold L'. cbn [Rsum fold_right]. fold (Rsum L F). unfold F at 2. rewrite <- Et. cbn [fst snd].
      destruct (c_t st =? s)%N; [|ring]. injection Hk as Hc _. rewrite Hc. ring. }
    assert (ND' : NoDup L') by (constructor; assumption).
    pose proof (valp_lt nt pers ms nt (c_gg st) (Nat.le_refl _) (proj2 Vg)) as Lt.
    destruct (Nat.eqb_spec (S (valp pers nt (c_gg st))) (prodp pers nt)) as [E|E].
    + assert (All : forall g, valid g -> In g L').
      { intros g Hg. apply HL'. split; [assumption|]. rewrite E. eapply (valp_lt nt pers ms); [lia|apply Hg]. }
      split; [intros g Hg; apply Hle', All, Hg|]. rewrite Hn'. apply Rsum_perm. apply NoDup_Permutation; [assumption|apply group_NoDup; assumption || exact nt || exact ms || exact pers|].
      intros g. rewrite (group_valid D nt pers ms HG). split; [intros Hg; apply HL' in Hg; apply Hg|apply All].
    + rewrite Nat.mod_small in Val2 by lia.
      apply (IH st' L'); try assumption; try (rewrite Val2; assumption); try lia.
      rewrite <- thp_theta. exact K2.
Qed.

Lemma check_state_sum fuel : 0 < nt <= max_nt -> prodp pers nt <= fuel ->
  match check_state fuel pers qs ms nt s with
  | None => False
  | Some NaN => exists g, valid g /\ (s < fst (W nt g x0))%N
  | Some (Norm x) => (forall g, valid g -> (fst (W nt g x0) <= s)%N) /\ x = Rsum (group pers) F
  end.
Proof.
  intros Hnt Hf. unfold check_state.
  replace (nt =? 0) with false by (symmetry; apply Nat.eqb_neq; lia).
  replace (max_nt <? nt) with false by (symmetry; apply Nat.ltb_ge; lia). cbn [orb].
  pose proof (valid_zero D nt pers ms HG) as V0.
  assert (Z0 : valp pers nt (repeat 0 nt) = 0).
  { clear. generalize nt at 1. intros c. induction c as [|c IH]; [reflexivity|]. cbn [valp]. rewrite IH, nth_repeat. reflexivity. }
  pose proof (chk_outer_spec ltac:(lia) fuel (mkC (repeat 0 nt) s 1 0 0) []) as H. cbn [c_gg c_t c_ph c_k c_norm] in H.
  rewrite Z0 in H.
  assert (R : match chk_outer fuel pers qs ms nt s (mkC (repeat 0 nt) s 1 0 0) with
    | None => False
    | Some C_nan => exists g, valid g /\ (s < fst (W nt g x0))%N
    | Some (C_st st') => (forall g, valid g -> (fst (W nt g x0) <= s)%N) /\ c_norm st' = Rsum (group pers) F end).
  { apply H.
    - assumption.
    - rewrite (W_zero nt pers ms). reflexivity.
    - rewrite <- thp_theta. f_equal. rewrite (thp_zeros 0 nt) by (try lia; intros; apply nth_repeat). reflexivity.
    - lia.
    - constructor.
    - intros g. split; [intros []|intros [_ X]; lia].
    - intros g [].
    - reflexivity.
    - lia. }
  destruct (chk_outer fuel pers qs ms nt s (mkC (repeat 0 nt) s 1 0 0)) as [[|st']|]; exact R.
Qed.

(* ---- character sum over the stabiliser ---- *)
Lemma sign_pm c g : c <= nt -> snd (W c g x0) = 1%Z \/ snd (W c g x0) = (-1)%Z.
Proof.
  assert (Step : forall d x, d < nt -> D (fst x) -> (snd x = 1%Z \/ snd x = (-1)%Z) -> snd (sact ms d x) = 1%Z \/ snd (sact ms d x) = (-1)%Z).
  { intros d x Hd Hx H. unfold sact. cbn [snd]. destruct (gm_sign _ _ _ _ HG d (fst x) Hd Hx) as [E|E], H as [E'|E']; rewrite E, E'; auto. }
  assert (It : forall d p x, d < nt -> D (fst x) -> (snd x = 1%Z \/ snd x = (-1)%Z) ->
     snd (Nat.iter p (sact ms d) x) = 1%Z \/ snd (Nat.iter p (sact ms d) x) = (-1)%Z).
  { intros d p x Hd Hx H. induction p as [|p IHp]; [assumption|]. rewrite iter_S. apply Step; [assumption| |assumption].
    apply (iterT_dom D nt pers ms HG); assumption. }
  induction c as [|c IH]; intros Hc; [left; reflexivity|]. cbn [P_symm.W]. apply It; [lia| |apply IH; lia].
  apply (W_dom D nt pers ms HG); [lia|assumption].
Qed.

Definition chi (g : list nat) : C := (RtoC (IZR (snd (W nt g x0))) * cis (theta qs pers g))%C.
Definition fixes (g : list nat) : bool := (fst (W nt g x0) =? s)%N.

Lemma theta_gadd g h : cis (theta qs pers (gadd nt pers g h)) = (cis (theta qs pers g) * cis (theta qs pers h))%C.
Proof.
  rewrite <- !thp_theta. assert (G : forall c, c <= nt -> cis (thp c (gadd nt pers g h)) = (cis (thp c g) * cis (thp c h))%C).
  { induction c as [|c IH]; intros Hc; [unfold thp; cbn; rewrite cis_0; ring|]. rewrite !thp_S, !cis_add, IH by lia.
    rewrite (nth_gadd nt pers) by lia.
    assert (E : cis (K c * INR ((nth c g 0 + nth c h 0) mod nth c pers 0)) = (cis (K c * INR (nth c g 0%nat)) * cis (K c * INR (nth c h 0%nat)))%C).
    { rewrite <- cis_add, <- Rmult_plus_distr_l, <- plus_INR.
      pose proof (gm_pos _ _ _ _ HG c Hc) as Hp. set (v := nth c g 0 + nth c h 0). set (p := nth c pers 0) in *.
      rewrite (Nat.div_mod v p) at 2 by lia. rewrite plus_INR, mult_INR.
      replace (K c * (INR p * INR (v / p) + INR (v mod p)))%R with (K c * INR p * INR (v / p) + K c * INR (v mod p))%R by ring.
      rewrite cis_add. assert (E1 : forall q, cis (K c * INR p * INR q) = C1).
      { induction q as [|q IHq]; [replace (K c * INR p * INR 0)%R with 0%R by (cbn; ring); apply cis_0|].
        rewrite S_INR. replace (K c * INR p * (INR q + 1))%R with (K c * INR p * INR q + K c * INR p)%R by ring.
        rewrite cis_add, IHq. change p with (P c). rewrite ks_period by lia. ring. }
      rewrite E1. ring. }
    rewrite E. ring. }
  apply G. lia.
Qed.

Lemma fixes_gadd g h : fixes h = true -> fixes (gadd nt pers g h) = fixes g /\ (fixes g = true -> chi (gadd nt pers g h) = (chi g * chi h)%C) .
Proof.
  intros Hh. unfold fixes in *. apply N.eqb_eq in Hh. unfold chi.
  assert (E : W nt (gadd nt pers g h) x0 = (fst (W nt g x0), (snd (W nt h x0) * snd (W nt g x0))%Z)).
  { rewrite (W_gadd D nt pers ms HG) by (lia || assumption). transitivity (W nt g (scale (snd (W nt h x0)) x0)); [f_equal; unfold scale, x0; rewrite (surjective_pairing (W nt h (s,1%Z))); cbn [fst snd]; fold x0; rewrite Hh; f_equal; ring|]. rewrite W_scale. reflexivity. }
  rewrite E. cbn [fst snd]. split; [reflexivity|]. intros _. rewrite theta_gadd, mult_IZR, RtoC_mul. ring.
Qed.

Definition stab : list (list nat) := filter fixes (group pers).

Lemma F_sum : RtoC (Rsum (group pers) F) = RtoC (fst (Csum stab chi)).
Proof.
  unfold stab. rewrite Csum_filter, Csum_fst. f_equal. apply Rsum_ext. intros g _. unfold F, fixes, chi.
  destruct (_ =? s)%N; [|reflexivity]. cbn. ring.
Qed.

Lemma stab_sum : (compatible pers qs ms s /\ Csum stab chi = RtoC (INR (length stab))) \/ (~ compatible pers qs ms s /\ Csum stab chi = C0).
Proof.
  assert (Dec : (forall g, In g stab -> chi g = C1) \/ exists g, In g stab /\ chi g <> C1).
  { generalize stab. intros l. induction l as [|g l [IH|(h & Hh & E)]].
    - left. intros g [].
    - assert (Dc : {chi g = C1} + {chi g <> C1}).
      { destruct (chi g) as [a b]. unfold C1. destruct (Req_EM_T a 1); [destruct (Req_EM_T b 0); [left; congruence|]|]; right; congruence. }
      destruct Dc as [E|E]; [left; intros h [<-|Hh]; auto|right; exists g; split; [left; reflexivity|assumption]].
    - right. exists h. split; [right; assumption|assumption]. }
  assert (Cp : compatible pers qs ms s <-> forall g, In g stab -> chi g = C1).
  { unfold compatible, stab. split.
    - intros H g Hg. apply filter_In in Hg. destruct Hg as [Hg Hf]. apply (group_valid D nt pers ms HG) in Hg.
      unfold fixes in Hf. apply N.eqb_eq in Hf. unfold chi. specialize (H g).
      rewrite (gact_W nt ms g s) in H by apply Hg. apply H; [apply (valid_elem D nt pers ms HG); assumption|assumption].
    - intros H g Hg Hf. apply (valid_elem D nt pers ms HG) in Hg. rewrite (gact_W nt ms g s) in * by apply Hg.
      apply H. apply filter_In. split; [apply (group_valid D nt pers ms HG); assumption|]. apply N.eqb_eq. exact Hf. }
  destruct Dec as [Dec|(h & Hh & E)].
  - left. split; [apply Cp; assumption|]. rewrite <- Csum_const. apply Csum_ext. assumption.
  - right. split; [rewrite Cp; intros H; apply E, H, Hh|].
    apply filter_In in Hh. destruct Hh as [Hh Hf]. apply (group_valid D nt pers ms HG) in Hh.
    assert (Tr : (chi h * Csum stab chi)%C = Csum stab chi).
    { rewrite <- Csum_mul_l. unfold stab. rewrite !Csum_filter.
      rewrite <- (Csum_perm _ _ (fun x => if fixes x then chi x else C0) (group_translate D nt pers ms HG h Hh)).
      rewrite Csum_map. apply Csum_ext. intros g Hg. rewrite (gadd_comm nt pers h g).
      destruct (fixes_gadd g h Hf) as [F1 F2]. rewrite F1. destruct (fixes g); [|reflexivity]. rewrite F2 by reflexivity. ring. }
    assert (Z : ((chi h - C1) * Csum stab chi)%C = C0).
    { transitivity (chi h * Csum stab chi - Csum stab chi)%C; [ring|]. rewrite Tr. ring. }
    apply Cmul_integral in Z. destruct Z as [Z|Z]; [|assumption]. exfalso. apply E.
    transitivity ((chi h - C1) + C1)%C; [ring|]. rewrite Z. ring.
Qed.

(* the number of group elements fixing s *)
Lemma stab_count : length stab = length (filter (fun g => (fst (gact ms g s) =? s)%N) (group pers)).
Proof.
  unfold stab. f_equal. apply filter_ext_in. intros g Hg. apply (group_valid D nt pers ms HG) in Hg.
  rewrite (gact_W nt ms g s) by apply Hg. reflexivity.
Qed.
End N.

Lemma norm_spec D nt pers ms qs s fuel : good_maps D nt pers ms -> D s -> 0 < nt <= max_nt -> prodp pers nt <= fuel ->
  (check_state fuel pers qs ms nt s = Some NaN /\ exists t, reach nt ms s t /\ (s < t)%N) \/
  ((forall t, reach nt ms s t -> (t <= s)%N) /\
   ((compatible pers qs ms s /\
     check_state fuel pers qs ms nt s = Some (Norm (INR (length (filter (fun g => (fst (gact ms g s) =? s)%N) (group pers)))))) \/
    (~ compatible pers qs ms s /\ check_state fuel pers qs ms nt s = Some (Norm 0)))).
Proof.
  intros HG Hs Hnt Hf. pose proof (check_state_sum D nt pers ms qs HG s Hs fuel Hnt Hf) as H.
  destruct (check_state fuel pers qs ms nt s) as [[|x]|]; [| |destruct H].
  - left. split; [reflexivity|]. destruct H as (g & Vg & Lt). exists (fst (W ms nt g (s, 1%Z))). split; [|assumption].
    apply (reach_elem D nt pers ms HG); [assumption|]. exists g. split; [assumption|reflexivity].
  - right. destruct H as [Hle Hx]. split.
    + intros t Ht. apply (reach_elem D nt pers ms HG) in Ht; [|assumption]. destruct Ht as (g & Vg & <-). apply Hle; assumption.
    + pose proof (F_sum nt pers ms qs s) as E. apply RtoC_inj in E.
      destruct (stab_sum D nt pers ms qs HG s Hs) as [[C E2]|[C E2]]; [left|right]; (split; [assumption|]); do 2 f_equal.
      * rewrite Hx, E, E2. cbn [fst RtoC]. rewrite (stab_count D nt pers ms HG). reflexivity.
      * rewrite Hx, E, E2. reflexivity.
Qed.
