(* The blocks of a one-dimensional basis as instances of the group of translations and heads. *)
From Verif Require Import AuxN SpecC SpecOps SpecMaps SpecFermi SpecChain M_bits1d SpecChain1d SpecCheck1d SpecBlock1d M_check1d
  P_maps P_square P_bits1d P_bits1d4 P_bits1d5 P_check1d P_check1d2 P_check1d3 P_check1d4 P_check1d5 P_block1d P_block1d2 P_block1d3 P_block1d4.
Local Open Scope nat_scope.

Definition two_of (b : block) : bool := match b with BA _ | BB _ | BA_B _ _ | BT_A _ | BT_B _ | BT_A_B _ _ => true | _ => false end.
Definition heads (b : block) : list head :=
  match b with
  | BFull | BNo | BT => [h0]
  | BP _ | BT_P _ | BA _ | BT_A _ => [h0; (true, false)]
  | BZ _ | BT_Z _ | BB _ | BT_B _ => [h0; (false, true)]
  | BPZ _ | BT_PZ _ => [h0; (true, true)]
  | BP_Z _ _ | BT_P_Z _ _ | BA_B _ _ | BT_A_B _ _ => [h0; (true, false); (false, true); (true, true)]
  end.
Definition q12 (b : block) : Z * Z :=
  match b with
  | BFull | BNo | BT => (1, 1)
  | BP p | BT_P p | BA p | BT_A p => (p, 1)
  | BZ z | BT_Z z | BB z | BT_B z => (1, z)
  | BPZ q | BT_PZ q => (q, 1)
  | BP_Z p z | BT_P_Z p z | BA_B p z | BT_A_B p z => (p, z)
  end%Z.
Definition chiZ (b : block) (h : head) : Z := ((if fst h then fst (q12 b) else 1) * (if snd h then snd (q12 b) else 1))%Z.
Definition chi (b : block) (h : head) : R := IZR (chiZ b h).
Lemma symm_heads b : symmetries b = map (fun h => (chiZ b h, hw (two_of b) h)) (heads b).
Proof. destruct b; cbn [symmetries heads map]; unfold chiZ; cbn [two_of q12 fst snd h0 hw app]; rewrite ?Z.mul_1_r, ?Z.mul_1_l; reflexivity. Qed.

Section S.
Variables (w : btype) (k : kind) (L T kb : nat) (b : block).
Hypothesis OK : block_ok w k L T b.
Lemma SFb : states_fit w k L. Proof. exact (proj1 OK). Qed.
Notation is_st s := (s < levels k ^ N.of_nat (sites k L))%N.
Notation M := (Mst k L).
Definition T_of : nat := if translates b then T else 1.
Definition n_of : nat := if translates b then L / T else 1.
Definition th_of : R := if translates b then momentum L T kb else 0%R.
Notation two := (two_of b).
Notation tf := (translates b).
Notation n := n_of.
Notation Hs := (heads b).
Notation X := (X w k L T_of two n).
Notation G := (G w k L T_of two n).
Notation eps := (eps two tf).
Lemma M_st s : (s < N.of_nat M)%N <-> is_st s. Proof. unfold Mst. rewrite N2Nat.id. tauto. Qed.
Lemma L_pos : 1 <= L. Proof. exact (HL1 w k L SFb). Qed.
Lemma cells_n : tf = true -> L = T * n /\ 1 <= n /\ 1 <= T /\ shift_fits w k L (- Z.of_nat T).
Proof.
  intros E. destruct (Logic.conj OK I) as [(_ & HC & _) _]. destruct (HC E) as (F & T1 & m & Em). pose proof L_pos as LP. unfold n_of. rewrite E, Em, Nat.mul_comm, Nat.div_mul by lia. rewrite Nat.mul_comm, <- Em. split; [reflexivity|]. split; [destruct m; lia|]. auto.
Qed.
Lemma pm_q : plus_minus (fst (q12 b)) /\ plus_minus (snd (q12 b)).
Proof. destruct (Logic.conj OK I) as [(_ & _ & H) _]. unfold pm in H. assert (P1 : plus_minus 1) by (left; reflexivity). destruct b; cbn [q12 fst snd]; tauto. Qed.
Lemma chi2 h : (chi b h * chi b h = 1)%R.
Proof. unfold chi, chiZ. rewrite <- mult_IZR. f_equal. destruct pm_q as [[-> | ->] [-> | ->]], h as [[|] [|]]; reflexivity. Qed.
Lemma chi_hx g h : (chi b (hx g h) = chi b g * chi b h)%R.
Proof. unfold chi, chiZ, hx. rewrite <- mult_IZR. f_equal. destruct pm_q as [[-> | ->] [-> | ->]], g as [[|] [|]], h as [[|] [|]]; reflexivity. Qed.
Lemma heads_nd : NoDup Hs. Proof. destruct b; cbn [heads]; unfold h0; repeat (apply NoDup_cons; [cbn [In]; intuition discriminate|]); apply NoDup_nil. Qed.
Lemma heads_0 : In h0 Hs. Proof. destruct b; left; reflexivity. Qed.
Lemma heads_cl g h : In g Hs -> In h Hs -> In (hx g h) Hs.
Proof. destruct b; cbn [heads In]; intros Hg Hh; repeat destruct Hg as [<-|Hg]; try contradiction; repeat destruct Hh as [<-|Hh]; try contradiction; unfold h0, hx; cbn; auto. Qed.
Lemma hw_okf h : In h Hs -> Forall (okf w k L T_of two) (hw two h).
Proof.
  destruct (Logic.conj OK I) as [(_ & _ & H) _]. destruct b; cbn [heads In two_of] in *; intros Hh; repeat destruct Hh as [<-|Hh]; try contradiction; unfold hw, h0; cbn [fst snd app];
    repeat (apply Forall_cons; [unfold okf; cbn [lok fam1 fam2]; tauto|]); apply Forall_nil.
Qed.
Lemma tf_ok : if tf then L = T_of * n /\ 1 <= n /\ okf w k L T_of two LT else n = 1.
Proof.
  unfold T_of. destruct tf eqn:E; [|unfold n_of; rewrite E; reflexivity]. destruct (cells_n E) as (E1 & E2 & E3 & E4). split; [exact E1|]. split; [exact E2|].
  split; [cbn [lok]; split; [nia|exact E4]|]. destruct (Logic.conj OK I) as [(_ & _ & H) _]. destruct b; cbn [two_of fam1 fam2 translates] in *; try discriminate; tauto.
Qed.
Lemma block_grp : grp n M Hs eps (chi b) X G.
Proof. apply chain_grp; [exact SFb|exact heads_nd|exact heads_0|exact heads_cl|intros g h _ _; apply chi_hx|intros g _; apply chi2|exact hw_okf|exact tf_ok]. Qed.
Lemma head_word h i s : In h Hs -> is_st s -> (tf = true \/ i = 0) ->
  sto w k L T_of (hw two h ++ repeat LT i) s = X (sg (eps h) (Z.of_nat i)) h s /\ sgo w k L T_of (hw two h ++ repeat LT i) s = G (sg (eps h) (Z.of_nat i)) h s.
Proof. apply (head_first w k L T_of SFb two tf n Hs (chi b) heads_cl (fun g h _ _ => chi_hx g h) (fun g _ => chi2 g) hw_okf tf_ok). Qed.
Lemma Hth : cis (th_of * INR n) = C1.
Proof.
  unfold th_of. destruct tf eqn:E; [|rewrite Rmult_0_l; apply cis_0]. destruct (cells_n E) as (E1 & E2 & E3 & _). pose proof L_pos as LP.
  assert (En : (momentum L T kb * INR n = 2 * PI * INR kb)%R).
  { unfold momentum. assert (ELr : INR L = (INR T * INR n)%R) by (rewrite <- mult_INR; f_equal; exact E1). rewrite ELr. field. split; apply not_0_INR; lia. }
  rewrite En, INR_IZR_INZ. apply cis_2PI.
Qed.
Definition cf (sigma : Z) : Z -> C := if semi b then (if (0 <? sigma)%Z then cp th_of else cm th_of) else cab th_of.
Lemma cf_per sigma : periodic n (cf sigma).
Proof. unfold cf. destruct (semi b); [destruct (0 <? sigma)%Z|]; [apply cp_per|apply cm_per|apply cab_per]; exact Hth. Qed.
Lemma semi_tf : semi b = true -> tf = true. Proof. destruct b; cbn; congruence. Qed.
Lemma amp_T h s t r : r < n -> In h Hs -> is_st s -> amp w k L T (repeat LT r ++ hw two h) s t = U X G (Z.of_nat r) h s t.
Proof.
  intros Hr Hh Hst. unfold U, Gc, P_block1d4.X, P_block1d4.G. assert (Ec : cnt n (Z.of_nat r) = r) by (unfold cnt; rewrite Z.mod_small by lia; apply Nat2Z.id). rewrite Ec.
  assert (Ea : map (act w k L T) (repeat LT r ++ hw two h) = map (act w k L T_of) (repeat LT r ++ hw two h)).
  { unfold T_of. unfold n_of in Hr. destruct tf; [reflexivity|]. replace r with 0 by lia. cbn [repeat app]. unfold hw. destruct two, h as [[|] [|]]; reflexivity. }
  assert (Ok : Forall (lok w k L T_of) (repeat LT r ++ hw two h)).
  { apply Forall_app. split; [|apply (okf_lok w k L T_of two), hw_okf, Hh]. apply Forall_forall. intros l Hl. pose proof (repeat_spec _ _ _ Hl) as ->. pose proof tf_ok as TO.
    unfold n_of in Hr. destruct tf; [apply TO|]. replace r with 0 in Hl by lia. destruct Hl. }
  unfold amp. rewrite Ea, (run_sto w k L T_of SFb _ s 1%Z Ok Hst), Z.mul_1_l. reflexivity.
Qed.
Lemma block_V sigma s t : is_st s -> block_vector w k L T b kb sigma s t = V n Hs (chi b) X G (cf sigma) s t.
Proof.
  intros Hst. unfold block_vector, V. fold n_of. unfold zs. rewrite Csum_map. apply Csum_ext. intros r Hr. apply in_seq in Hr. rewrite symm_heads, Csum_map. apply Csum_ext. intros h Hh. cbn [fst snd].
  rewrite amp_T by (assumption || lia). f_equal. unfold ch, chi. f_equal. unfold wave, cf, th_of.
  destruct (semi b) eqn:Es; [rewrite (semi_tf Es); destruct (0 <? sigma)%Z; unfold cp, cm; rewrite <- INR_IZR_INZ; reflexivity|]. unfold cab. rewrite <- INR_IZR_INZ. destruct tf eqn:E; [reflexivity|]. unfold n_of in Hr. rewrite E in Hr. replace r with 0 by lia. cbn [INR]. f_equal. ring.
Qed.

(* words of the group are products of the generators *)
Lemma prod_app gens u v : product_of gens u -> product_of gens v -> product_of gens (u ++ v).
Proof. intros (g1 & F1 & ->) (g2 & F2 & ->). exists (g1 ++ g2). split; [apply Forall_app; auto|]. symmetry. apply concat_app. Qed.
Lemma prod_one gens g : In g gens -> product_of gens g.
Proof. intros H. exists [g]. split; [constructor; [exact H|constructor]|]. cbn [concat]. symmetry. apply app_nil_r. Qed.
Lemma prod_hw h : In h Hs -> product_of (generators b) (hw two h).
Proof.
  intros Hh. assert (N0 : product_of (generators b) []) by (exists []; split; [constructor|reflexivity]).
  assert (I2 : forall x y, In [x] (generators b) -> In [y] (generators b) -> product_of (generators b) [x; y]) by (intros x y H1 H2; apply (prod_app _ [x] [y]); apply prod_one; assumption).
  unfold generators in *. destruct b; cbn [heads In two_of translates app] in *; repeat destruct Hh as [<-|Hh]; try contradiction; unfold hw, h0; cbn [fst snd app];
    solve [exact N0 | apply prod_one; cbn [In]; auto | apply I2; cbn [In]; auto].
Qed.
Lemma prod_rep i : (tf = true \/ i = 0) -> product_of (generators b) (repeat LT i).
Proof.
  intros H. exists (repeat [LT] i). split.
  - apply Forall_forall. intros g Hg. pose proof (repeat_spec _ _ _ Hg) as ->. destruct H as [E| ->]; [|destruct Hg]. unfold generators. rewrite E. left. reflexivity.
  - clear. induction i as [|i IH]; [reflexivity|]. cbn [repeat concat app]. rewrite <- IH. reflexivity.
Qed.
Lemma cnt_tf r : tf = true \/ cnt n r = 0.
Proof. destruct tf eqn:E; [left; reflexivity|right]. unfold cnt, n_of. rewrite E. rewrite Z.mod_1_r. reflexivity. Qed.
Lemma prod_X r h : In h Hs -> product_of (generators b) (repeat LT (cnt n r) ++ hw two h).
Proof. intros Hh. apply prod_app; [apply prod_rep, cnt_tf|apply prod_hw, Hh]. Qed.
Lemma rep_lok r : Forall (lok w k L T_of) (repeat LT (cnt n r)).
Proof.
  apply Forall_forall. intros l Hl. pose proof (repeat_spec _ _ _ Hl) as ->. pose proof tf_ok as TO. destruct (cnt_tf r) as [E|E]; [rewrite E in TO; apply TO|rewrite E in Hl; destruct Hl].
Qed.
Lemma X_lok r h : In h Hs -> Forall (lok w k L T_of) (repeat LT (cnt n r) ++ hw two h).
Proof. intros Hh. apply Forall_app. split; [apply rep_lok|apply (okf_lok w k L T_of two), hw_okf, Hh]. Qed.
Lemma reach_X r h s : In h Hs -> is_st s -> reaches w k L T_of (repeat LT (cnt n r) ++ hw two h) s (X r h s) (G r h s).
Proof. intros Hh Hst. apply (reaches_iff w k L T_of SFb); [apply X_lok, Hh|exact Hst|]. split; reflexivity. Qed.
Lemma extremal_X s : is_st s -> extremal w k L T_of (generators b) s -> forall r h, In h Hs -> (X r h s <= s)%N.
Proof. intros Hst HE r h Hh. apply (HE _ _ _ (prod_X r h Hh) (reach_X r h s Hh Hst)). Qed.

(* commuting with the generators is commuting with the group *)
Definition inv_word (A : cmat) (word : list letter) : Prop :=
  Forall (lok w k L T_of) word /\
  forall s t, is_st s -> is_st t -> (RtoC (IZR (sgo w k L T_of word t)) * RtoC (IZR (sgo w k L T_of word s)) * A (sto w k L T_of word t) (sto w k L T_of word s))%C = A t s.
Lemma inv_app A u v : inv_word A u -> inv_word A v -> inv_word A (u ++ v).
Proof.
  intros [U1 U2] [V1 V2]. split; [apply Forall_app; auto|]. intros s t Hst Ht. destruct (sto_app w k L T_of SFb u v s U1 V1 Hst) as [-> ->]. destruct (sto_app w k L T_of SFb u v t U1 V1 Ht) as [-> ->].
  rewrite <- (U2 s t Hst Ht), <- (V2 (sto w k L T_of u s) (sto w k L T_of u t)) by (apply sto_lt; try assumption; exact SFb). rewrite !mult_IZR, !RtoC_mul. ring.
Qed.
Lemma inv_nil A : inv_word A [].
Proof. split; [constructor|]. intros s t _ _. unfold sto, sgo. cbn. apply C_eq; cbn; ring. Qed.
Lemma inv_gen A g : In g (generators b) -> Forall (lok w k L T_of) g -> (forall s t, is_st s -> is_st t -> sto w k L T_of g s = sto w k L T_of g t -> s = t) ->
  commutes_with w k L T b A -> inv_word A g.
Proof.
  intros Hg Hok Inj HA. split; [exact Hok|]. intros s t Hst Ht.
  assert (Eamp : forall x y, is_st x -> amp w k L T g x y = if (sto w k L T_of g x =? y)%N then RtoC (IZR (sgo w k L T_of g x)) else C0).
  { intros x y Hx. unfold amp. replace (map (act w k L T) g) with (map (act w k L T_of) g); [rewrite (run_sto w k L T_of SFb g x 1%Z Hok Hx), Z.mul_1_l; reflexivity|].
    unfold T_of. clear - Hg. unfold generators in Hg. destruct b; cbn [translates app In] in Hg |- *; repeat destruct Hg as [<-|Hg]; try contradiction; reflexivity. }
  pose proof (sto_lt w k L T_of SFb g t Hok Ht) as Lt. pose proof (sto_lt w k L T_of SFb g s Hok Hst) as Ls.
  pose proof (HA g Hg (sto w k L T_of g t) s (proj2 (M_st _) Lt) (proj2 (M_st _) Hst)) as E. unfold mmul, word_matrix in E.
  assert (Nd : NoDup (all_states M)) by (unfold all_states; apply map_nodup; [intros x y _ _ Exy; lia|apply seq_NoDup]).
  assert (In_st : forall x, In x (all_states M) <-> is_st x).
  { intros x. rewrite <- M_st. unfold all_states. rewrite in_map_iff. split; [intros (y & <- & H); apply in_seq in H; lia|]. intros H. exists (N.to_nat x). split; [lia|]. apply in_seq. lia. }
  rewrite (Csum_single _ _ t Nd) in E; [|apply In_st, Ht|intros x Hx Hn; apply In_st in Hx; rewrite Eamp by exact Hx; destruct (N.eqb_spec (sto w k L T_of g x) (sto w k L T_of g t)) as [E'|]; [destruct (Hn (Inj x t Hx Ht E'))|ring]].
  rewrite (Csum_single _ _ (sto w k L T_of g s) Nd) in E; [|apply In_st, Ls|intros x Hx Hn; rewrite Eamp by exact Hst; destruct (N.eqb_spec (sto w k L T_of g s) x) as [E'|]; [destruct (Hn (eq_sym E'))|ring]].
  rewrite !Eamp, !N.eqb_refl in E by assumption.
  assert (U2 : forall x, is_st x -> (RtoC (IZR (sgo w k L T_of g x)) * RtoC (IZR (sgo w k L T_of g x)))%C = C1).
  { intros x Hx. destruct (sgo_unit w k L T_of SFb g x Hok Hx) as [-> | ->]; apply C_eq; cbn; ring. }
  transitivity (RtoC (IZR (sgo w k L T_of g t)) * (A (sto w k L T_of g t) (sto w k L T_of g s) * RtoC (IZR (sgo w k L T_of g s))))%C; [ring|]. rewrite <- E.
  transitivity ((RtoC (IZR (sgo w k L T_of g t)) * RtoC (IZR (sgo w k L T_of g t))) * A t s)%C; [ring|]. rewrite (U2 t Ht). ring.
Qed.
Lemma inj_head h s t : In h Hs -> is_st s -> is_st t -> sto w k L T_of (hw two h) s = sto w k L T_of (hw two h) t -> s = t.
Proof.
  intros Hh Hst Ht E. destruct (head_word h 0 s Hh Hst (or_intror eq_refl)) as [E1 _]. destruct (head_word h 0 t Hh Ht (or_intror eq_refl)) as [E2 _]. cbn [repeat] in E1, E2. rewrite app_nil_r in E1, E2.
  rewrite E1, E2 in E. apply (X_inj _ _ _ _ _ _ _ block_grp (sg (eps h) (Z.of_nat 0)) h s t Hh); [apply M_st; exact Hst|apply M_st; exact Ht|exact E].
Qed.
Lemma inj_T s t : tf = true -> is_st s -> is_st t -> sto w k L T_of [LT] s = sto w k L T_of [LT] t -> s = t.
Proof.
  intros Et Hst Ht E. destruct (head_word h0 1 s heads_0 Hst (or_introl Et)) as [E1 _]. destruct (head_word h0 1 t heads_0 Ht (or_introl Et)) as [E2 _].
  replace (hw two h0 ++ repeat LT 1) with [LT] in E1, E2 by (unfold hw, h0; destruct two; reflexivity).
  rewrite E1, E2 in E. apply (X_inj _ _ _ _ _ _ _ block_grp (sg (eps h0) (Z.of_nat 1)) h0 s t heads_0); [apply M_st; exact Hst|apply M_st; exact Ht|exact E].
Qed.
Lemma inv_head A h : In h Hs -> In (hw two h) (generators b) -> commutes_with w k L T b A -> inv_word A (hw two h).
Proof. intros Hh Hg HA. apply inv_gen; [exact Hg|apply (okf_lok w k L T_of two), hw_okf, Hh|intros s t; apply inj_head, Hh|exact HA]. Qed.
Lemma inv_hw A h : In h Hs -> commutes_with w k L T b A -> inv_word A (hw two h).
Proof.
  intros Hh HA. assert (IH : forall g, In g Hs -> In (hw two g) (generators b) -> inv_word A (hw two g)) by (intros g H1 H2; apply inv_head; assumption).
  pose proof (inv_nil A) as N0.
  assert (I2 : In (true, false) Hs -> In (false, true) Hs -> In (hw two (true, false)) (generators b) -> In (hw two (false, true)) (generators b) -> inv_word A (hw two (true, true))).
  { intros H1 H2 H3 H4. pose proof (inv_app A _ _ (IH _ H1 H3) (IH _ H2 H4)) as E. revert E. unfold hw. destruct two; exact (fun x => x). }
  clear HA. unfold generators in *. destruct b; cbn [heads In two_of translates app] in *; repeat destruct Hh as [<-|Hh]; try contradiction;
    solve [exact N0 | apply IH; [auto|unfold hw; cbn; auto] | apply I2; try (unfold hw; cbn; auto)].
Qed.
Lemma commutes_block A : commutes_with w k L T b A -> commutes M Hs X G A.
Proof.
  intros HA r h s t Hh Ds Dt. apply M_st in Ds. apply M_st in Dt. unfold Gc, P_block1d4.X, P_block1d4.G.
  assert (E : inv_word A (repeat LT (cnt n r) ++ hw two h)); [|apply E; assumption].
  apply inv_app; [|apply inv_hw; assumption]. destruct (cnt_tf r) as [E|E]; [|rewrite E; apply inv_nil].
  assert (E1 : inv_word A [LT]).
  { apply inv_gen; [unfold generators; rewrite E; left; reflexivity| |intros x y; apply inj_T, E|exact HA]. constructor; [|constructor]. pose proof tf_ok as TO. rewrite E in TO. apply TO. }
  induction (cnt n r) as [|m IH]; [apply inv_nil|]. apply (inv_app A [LT] (repeat LT m) E1 IH).
Qed.
(* compatibility with the momentum *)
Lemma compat_cis s q : is_st s -> q_k q = kb -> tf = true -> compatible w k L T q [[LT]] s -> forall x, X x h0 s = s -> (Gc G x h0 s * cis (th_of * IZR x))%C = C1.
Proof.
  intros Hst Eq Et HCo x Ex. pose proof L_pos as LP. destruct (cells_n Et) as (E1 & E2 & E3 & _).
  assert (Ew : product_of [[LT]] (repeat LT (cnt n x) ++ hw two h0)).
  { exists (repeat [LT] (cnt n x)). split; [apply Forall_forall; intros g Hg; rewrite (repeat_spec _ _ _ Hg); left; reflexivity|]. unfold hw, h0. cbn [fst snd]. replace (if two then [] ++ [] else [] ++ []) with (@nil letter) by (destruct two; reflexivity). rewrite app_nil_r.
    induction (cnt n x) as [|m IH]; [reflexivity|]. cbn [repeat concat app]. rewrite <- IH. reflexivity. }
  pose proof (reach_X x h0 s heads_0 Hst) as Hr. rewrite Ex in Hr. assert (ETo : T_of = T) by (unfold T_of; rewrite Et; reflexivity).
  assert (Hr' : reaches w k L T (repeat LT (cnt n x) ++ hw two h0) s s (G x h0 s)) by (rewrite <- ETo at 1; exact Hr). clear Hr. rename Hr' into Hr.
  pose proof (HCo _ _ Ew Hr) as Hph.
  assert (Ep : phase_of L T q (repeat LT (cnt n x) ++ hw two h0) = (Z.of_nat (cnt n x) * (2 * Z.of_nat kb * Z.of_nat T))%Z).
  { unfold hw, h0. cbn [fst snd]. replace (if two then [] ++ [] else [] ++ []) with (@nil letter) by (destruct two; reflexivity). rewrite app_nil_r. rewrite <- Eq. unfold phase_of.
    clear Hph Hr Ew. induction (cnt n x) as [|m IH]; [reflexivity|]. cbn [repeat fold_right phase]. rewrite IH. lia. }
  rewrite Ep in Hph. set (c := cnt n x) in *. apply Z.mod_divide in Hph; [|lia]. destruct Hph as [z Hz].
  assert (Ecis : cis (th_of * IZR x) = cis (th_of * IZR (Z.of_nat c))).
  { pose proof (per_mod n ltac:(lia) (fun r => cis (th_of * IZR r)) (fun r => cis_n n th_of Hth r) x) as E. cbv beta in E. rewrite <- E. do 3 f_equal. unfold c, cnt. rewrite Z2Nat.id; [reflexivity|]. apply Z.mod_pos_bound. lia. }
  rewrite Ecis. unfold th_of, Gc. rewrite Et.
  assert (Ang : (momentum L T kb * IZR (Z.of_nat c) = 2 * PI * IZR z - PI * (IZR (half_turn L (G x h0 s)) / INR L))%R).
  { unfold momentum. apply (f_equal IZR) in Hz. rewrite plus_IZR, !mult_IZR, <- !INR_IZR_INZ in Hz. rewrite <- INR_IZR_INZ.
    assert (INR L <> 0)%R by (apply not_0_INR; lia). apply (Rmult_eq_reg_r (INR L)); [|assumption]. transitivity (PI * (INR c * (2 * INR kb * INR T)))%R; [field; assumption|].
    replace (INR c * (2 * INR kb * INR T))%R with (IZR z * (2 * INR L) - IZR (half_turn L (G x h0 s)))%R by (rewrite <- Hz; ring). field. assumption. }
  rewrite Ang. destruct (g_Gu _ _ _ _ _ _ _ block_grp x h0 s heads_0 (proj2 (M_st s) Hst)).
  assert (Hu : G x h0 s = 1%Z \/ G x h0 s = (-1)%Z) by (apply (sgo_unit w k L T_of SFb); [apply X_lok, heads_0|exact Hst]).
  unfold Rminus. rewrite cis_add, cis_2PI. assert (NL : INR L <> 0%R) by (apply not_0_INR; lia).
  destruct Hu as [-> | ->]; unfold half_turn; cbn [Z.ltb Z.compare].
  - replace (- (PI * (0 / INR L)))%R with 0%R by (field; exact NL). rewrite cis_0. apply C_eq; cbn; ring.
  - rewrite <- INR_IZR_INZ. replace (- (PI * (INR L / INR L)))%R with (- PI)%R by (field; exact NL). unfold cis. rewrite cos_neg, sin_neg, cos_PI, sin_PI. apply C_eq; cbn; ring.
Qed.
End S.
