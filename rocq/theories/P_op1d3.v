(* Reference states and returns of the one-dimensional blocks in terms of the group. *)
From Verif Require Import AuxN SpecC SpecOps SpecMaps SpecFermi SpecChain M_bits1d SpecChain1d SpecCheck1d SpecBlock1d M_check1d
  P_maps P_square P_bits1d P_bits1d4 P_bits1d5 P_check1d P_check1d2 P_check1d3 P_check1d4 P_check1d5 P_block1d P_block1d2 P_block1d3 P_block1d4
  M_op1d P_op1d P_op1d2 C39_checks C39_reference C39_translations.
Local Open Scope nat_scope.

(* the head named by the counts *)
Definition hd_of (b : block) (Rc : list nat) : head :=
  let c i := Nat.eqb (nth i Rc 0) 1 in
  match b with
  | BFull | BNo | BT => h0
  | BP _ | BT_P _ | BA _ | BT_A _ => (c 0, false)
  | BZ _ | BT_Z _ | BB _ | BT_B _ => (false, c 0)
  | BPZ _ | BT_PZ _ => (c 0, c 0)
  | BP_Z _ _ | BT_P_Z _ _ | BA_B _ _ | BT_A_B _ _ => (c 0, c 1)
  end.
Definition words_of (b : block) : list (list letter) :=
  match b with
  | BFull | BNo | BT => []
  | BP _ | BT_P _ => [[LP]] | BA _ | BT_A _ => [[LA]] | BZ _ | BT_Z _ => [[LZ]] | BB _ | BT_B _ => [[LB]] | BPZ _ | BT_PZ _ => [[LP; LZ]]
  | BP_Z _ _ | BT_P_Z _ _ => [[LP]; [LZ]] | BA_B _ _ | BT_A_B _ _ => [[LA]; [LB]]
  end.
Lemma hd_word b Rc : length Rc = length (words_of b) -> Forall (fun c => c <= 1) Rc -> In (hd_of b Rc) (heads b) /\ times (words_of b) Rc = hw (two_of b) (hd_of b Rc).
Proof.
  intros Hl Hf. destruct Rc as [|c [|c2 [|]]]; destruct b; cbn [words_of length] in Hl; try discriminate Hl;
    repeat match goal with F : Forall _ (_ :: _) |- _ => inversion_clear F end;
    repeat match goal with F : ?c <= 1 |- _ => destruct c as [|[|?]]; [clear F|clear F|lia] end; split; cbn; auto.
Qed.
Definition counts (b : block) (Rc : list nat) : list nat := if translates b then tl Rc else Rc.
Definition shifts (b : block) (Rc : list nat) : nat := if translates b then nth 0 Rc 0 else 0.
Definition pz_ok (k : kind) (b : block) : Prop := match b with BPZ _ => fermionic k = false | _ => True end.

Section S.
Variables (w : btype) (k : kind) (L T kb : nat) (b : block).
Hypothesis OK : block_ok w k L T b.
Notation M := (Mst k L).
Notation two := (two_of b).
Notation tf := (translates b).
Notation n := (n_of L T b).
Notation Hs := (heads b).
Notation To := (T_of T b).
Notation X := (X w k L To two n).
Notation G := (G w k L To two n).
Notation eps := (eps two tf).
Notation th := (th_of L T kb b).
Lemma To_t : tf = true -> To = T. Proof. intros E. unfold T_of. rewrite E. reflexivity. Qed.
Lemma To_f : tf = false -> To = 1. Proof. intros E. unfold T_of. rewrite E. reflexivity. Qed.
Definition refers_b (s : N) (x : option (N * Z * list nat)) : Prop := exists r sign Rc, x = Some (r, sign, Rc) /\
  length (counts b Rc) = length (words_of b) /\ Forall (fun c => c <= 1) (counts b Rc) /\
  (forall word t g, product_of (generators b) word -> reaches w k L To word s t g -> (t <= r)%N) /\
  reaches w k L To (times (words_of b) (counts b Rc) ++ repeat LT (shifts b Rc)) s r sign.
Lemma rb_T s x : tf = true -> refersT w k L T (generators b) (words_of b) s x -> refers_b s x.
Proof.
  intros E (r & sg & l & Rc & Ex & (H1 & H2) & _ & H3 & H4). exists r, sg, (l :: Rc). unfold counts, shifts. rewrite E, (To_t E). cbn [tl nth]. auto.
Qed.
Lemma rb_0 s x : tf = false -> refers w k L 1 (generators b) (words_of b) s x -> refers_b s x.
Proof.
  intros E (r & sg & Rc & Ex & (H1 & H2) & H3 & H4). exists r, sg, Rc. unfold counts, shifts. rewrite E, (To_f E). cbn [repeat]. rewrite app_nil_r. auto.
Qed.
Lemma rb_id s : is_state k L s -> tf = false -> generators b = [] -> words_of b = [] -> refers_b s (Some (s, 1%Z, [])).
Proof.
  intros Hst E E1 E2. apply rb_0; [exact E|]. rewrite E1, E2. exists s, 1%Z, []. split; [reflexivity|]. split; [split; [reflexivity|constructor]|].
  split; [|reflexivity]. intros word t g (gs & F & ->) Re. destruct gs as [|x gs]; [|inversion F; contradiction]. cbn in Re. inversion Re. lia.
Qed.
Lemma ref_words s : is_state k L s -> pz_ok k b -> refers_b s (ref_of w k L T b s).
Proof.
  intros Hst Hpz. pose proof (SFb w k L T b OK) as SF. pose proof (C39_reference w k L s SF Hst) as (RP & RI & RS). pose proof (fun HC => C39_reference_translations w k L T s SF HC Hst) as RT. pose proof (C39_reference w k L s SF Hst) as RR. clear RR.
  destruct (Logic.conj OK I) as [(_ & HC & H) _].
  pose proof (rb_T s (ref_of w k L T b s)) as QT. pose proof (rb_0 s (ref_of w k L T b s)) as Q0. pose proof (rb_id s Hst) as QI.
  unfold generators in *. destruct b; cbn [ref_of translates words_of app] in *;
   solve [ apply QI; reflexivity
         | apply Q0; [reflexivity|]; first [exact RP | apply RI; tauto | apply RS; tauto]
         | apply Q0; [reflexivity|]; apply RI; [tauto|exact Hpz]
         | apply QT; [reflexivity|]; specialize (RT (HC eq_refl)); destruct RT as (R1 & R2 & R3 & R4); first [exact R1 | exact R2 | apply R3; tauto | apply R4; tauto] ].
Qed.
Lemma word_X h i s : In h Hs -> is_state k L s -> (tf = true \/ i = 0) -> forall t g, reaches w k L To (hw two h ++ repeat LT i) s t g <-> t = X (sg (eps h) (Z.of_nat i)) h s /\ g = G (sg (eps h) (Z.of_nat i)) h s.
Proof.
  intros Hh Hst Hi t g. destruct (head_word w k L T b OK h i s Hh Hst Hi) as [<- <-]. apply reaches_iff; [exact (SFb w k L T b OK)| |exact Hst].
  apply Forall_app. split; [apply (okf_lok w k L To two), (hw_okf w k L T b OK), Hh|]. apply Forall_forall. intros l Hl. rewrite (repeat_spec _ _ _ Hl). pose proof (tf_ok w k L T b OK) as TO. destruct Hi as [E| ->]; [rewrite E in TO; apply TO|destruct Hl].
Qed.
Lemma ref_block s : is_state k L s -> pz_ok k b -> exists r sign Rc, ref_of w k L T b s = Some (r, sign, Rc) /\ Forall (fun c => c <= 1) (counts b Rc) /\ length (counts b Rc) = length (words_of b) /\
  (let h := hd_of b (counts b Rc) in let l := Z.of_nat (shifts b Rc) in back M Hs eps X l h s r /\ Gc G (sg (eps h) l) h s = RtoC (IZR sign)) /\
  (sign = 1 \/ sign = -1)%Z /\ forall x g, In g Hs -> (X x g s <= r)%N.
Proof.
  intros Hst Hpz. destruct (ref_words s Hst Hpz) as (r & sign & Rc & E & Hl & Hf & Mx & Re). exists r, sign, Rc. split; [exact E|]. split; [exact Hf|]. split; [exact Hl|].
  destruct (hd_word b _ Hl Hf) as [Hh Ew]. rewrite Ew in Re. cbv zeta.
  assert (Hi : tf = true \/ shifts b Rc = 0) by (unfold shifts; destruct tf; auto). apply (word_X _ _ s Hh Hst Hi) in Re. destruct Re as [E1 E2].
  pose proof (block_grp w k L T b OK) as GR.
  assert (Dr : (r < N.of_nat M)%N) by (rewrite E1; apply (g_XD _ _ _ _ _ _ _ GR); [exact Hh|apply M_st; exact Hst]).
  split; [split|].
  - split; [apply M_st; exact Hst|]. split; [exact Dr|]. split; [exact Hh|exact E1].
  - unfold Gc. rewrite <- E2. reflexivity.
  - split; [pose proof (g_Gu _ _ _ _ _ _ _ GR (sg (eps (hd_of b (counts b Rc))) (Z.of_nat (shifts b Rc))) _ s Hh (proj2 (M_st k L s) Hst)) as U; rewrite <- E2 in U; nia|].
    intros x g Hg. refine (Mx _ _ _ _ (reach_X w k L T b OK x g s Hg Hst)). apply (prod_X w k L T b OK). exact Hg.
Qed.
(* returns *)
Lemma ret_first h s m sign : In h Hs -> is_state k L s -> tf = true -> first_return w k L T (hw two h) s m sign ->
  (exists i, m = Z.of_nat i /\ i < n /\ X (sg (eps h) (Z.of_nat i)) h s = s /\ G (sg (eps h) (Z.of_nat i)) h s = sign /\ (sign = 1 \/ sign = -1)%Z) \/
  (m = -1 /\ sign = 1 /\ forall x, X x h s <> s)%Z.
Proof.
  intros Hh Hst Et. pose proof (block_grp w k L T b OK) as GR. pose proof (proj2 (M_st k L s) Hst) as Ds.
  assert (Hi : forall i, tf = true \/ i = 0) by auto. 
  assert (WX : forall i t g, reaches w k L T (hw two h ++ repeat LT i) s t g <-> t = X (sg (eps h) (Z.of_nat i)) h s /\ g = G (sg (eps h) (Z.of_nat i)) h s) by (intros i t g; pose proof (word_X h i s Hh Hst (Hi i) t g) as Q; rewrite (To_t Et) in Q at 1; exact Q).
  assert (Rt : forall i, returns_to w k L T s (hw two h ++ repeat LT i) = (X (sg (eps h) (Z.of_nat i)) h s =? s)%N).
  { intros i. unfold returns_to. pose proof (proj2 (WX i _ _) (Logic.conj eq_refl eq_refl)) as Re. unfold reaches in Re. rewrite Re. reflexivity. }
  assert (Mod : forall x, X x h s = X (sg (eps h) ((sg (eps h) x) mod Z.of_nat n)) h s).
  { intros x. assert (Hn : 1 <= n) by exact (g_Hn _ _ _ _ _ _ _ GR). pose proof (per_mod n Hn (fun r => RtoC (INR (N.to_nat (X r h s))))) as Pm. clear Pm.
    assert (Per : forall z r, X (r + z * Z.of_nat n) h s = X r h s).
    { assert (Pn : forall j r, X (r + Z.of_nat j * Z.of_nat n) h s = X r h s) by (induction j as [|j IH]; intros r; [f_equal; lia|rewrite <- (IH r), <- (g_Xn _ _ _ _ _ _ _ GR (r + Z.of_nat j * Z.of_nat n)%Z h s Hh Ds); f_equal; lia]).
      intros z r. destruct (Z.le_gt_cases 0 z) as [Hz|Hz]; [rewrite <- (Pn (Z.to_nat z) r); f_equal; lia|]. rewrite <- (Pn (Z.to_nat (- z)) (r + z * Z.of_nat n)%Z). f_equal. lia. }
    destruct (eps h); cbn [sg].
    - rewrite <- (Per (- (- x / Z.of_nat n))%Z (- (- x mod Z.of_nat n))%Z). f_equal. pose proof (Z.div_mod (- x) (Z.of_nat n) ltac:(lia)). lia.
    - rewrite <- (Per (x / Z.of_nat n)%Z (x mod Z.of_nat n)%Z). f_equal. pose proof (Z.div_mod x (Z.of_nat n) ltac:(lia)). lia. }
  intros [(i & -> & Re & Mn)|(-> & -> & Nr)].
  - left. exists i. apply WX in Re. destruct Re as [E1 E2]. split; [reflexivity|]. split.
    + destruct (Nat.lt_ge_cases i n) as [|Hge]; [assumption|]. exfalso. assert (Hn : 1 <= n) by exact (g_Hn _ _ _ _ _ _ _ GR).
      assert (Hlt : i mod n < i) by (pose proof (Nat.mod_upper_bound i n ltac:(lia)); lia). pose proof (Mn _ Hlt) as F. rewrite Rt in F. apply N.eqb_neq in F. apply F.
      transitivity (X (sg (eps h) (Z.of_nat i)) h s); [|symmetry; exact E1]. rewrite (Mod (sg (eps h) (Z.of_nat i))). f_equal. f_equal. rewrite Nat2Z.inj_mod. f_equal. destruct (eps h); cbn [sg]; lia.
    + split; [symmetry; exact E1|]. split; [symmetry; exact E2|]. pose proof (g_Gu _ _ _ _ _ _ _ GR (sg (eps h) (Z.of_nat i)) h s Hh Ds) as U. rewrite <- E2 in U. nia.
  - right. split; [reflexivity|]. split; [reflexivity|]. intros x Ex. assert (Hn : 1 <= n) by exact (g_Hn _ _ _ _ _ _ _ GR).
    specialize (Nr (Z.to_nat ((sg (eps h) x) mod Z.of_nat n))). rewrite Rt in Nr. apply N.eqb_neq in Nr. apply Nr. rewrite Z2Nat.id by (apply Z.mod_pos_bound; lia). rewrite <- Mod. exact Ex.
Qed.
Definition Tcond (s : N) : Prop := forall x, X x h0 s = s -> (Gc G x h0 s * cis (th * IZR x))%C = C1.
Lemma Tc_none s : is_state k L s -> tf = false -> Tcond s.
Proof.
  intros Hst E x _. unfold th_of. rewrite E, Rmult_0_l, cis_0. pose proof (block_grp w k L T b OK) as GR.
  assert (EG : G x h0 s = 1%Z); [|unfold Gc; rewrite EG; apply C_eq; cbn; ring].
  transitivity (G 0%Z h0 s); [|apply (G0 _ _ _ _ _ _ _ GR), M_st, Hst]. unfold P_block1d4.G. assert (Ec : forall r, cnt n r = 0) by (intros r; destruct (cnt_tf L T b r) as [E'|E']; [congruence|exact E']). rewrite !Ec. reflexivity.
Qed.
(* returns after an element that commutes with translations happen at flat phases *)
Lemma ret_flat s g x : is_state k L s -> Tcond s -> In g Hs -> eps g = false -> X x g s = s -> sin (th * IZR x) = 0%R.
Proof.
  intros Hst Tc Hg Eg Ex. pose proof (block_grp w k L T b OK) as GR. pose proof (proj2 (M_st k L s) Hst) as Ds.
  pose proof (g_Xm _ _ _ _ _ _ _ GR x g x g s Hg Hg Ds) as E1. pose proof (g_Gm _ _ _ _ _ _ _ GR x g x g s Hg Hg Ds) as E2. rewrite Ex, Eg in E1, E2. cbn [sg] in E1, E2.
  rewrite Ex in E1. assert (Ehx : hx g g = h0) by (destruct g as [[|] [|]]; reflexivity). rewrite Ehx in *. symmetry in E1. pose proof (Tc _ E1) as C. unfold Gc in C. rewrite <- E2 in C.
  rewrite (g_Gu _ _ _ _ _ _ _ GR x g s Hg Ds) in C. rewrite plus_IZR in C.
  assert (C' : cis (th * (IZR x + IZR x)) = C1) by (rewrite <- C; apply C_eq; cbn; ring). apply (f_equal fst) in C'. cbn [fst cis] in C'. unfold cis in C'. cbn [fst] in C'.
  replace (th * (IZR x + IZR x))%R with (2 * (th * IZR x))%R in C' by ring. rewrite cos_2a_sin in C'. assert (E : (sin (th * IZR x) * sin (th * IZR x) = 0)%R) by (cbn in C'; lra). destruct (Rmult_integral _ _ E); assumption.
Qed.
(* the period *)
Lemma period_Ac s R0 : is_state k L s -> Tcond s -> tf = true -> least_period w k L T s R0 -> (0 < R0)%Z /\ (Ac n X s * RtoC (IZR R0))%C = RtoC (INR n).
Proof.
  intros Hst Tc Et (i & H1 & -> & H2 & H3). pose proof (block_grp w k L T b OK) as GR. split; [lia|].
  assert (E0 : forall j, returns_to w k L T s (repeat LT j) = (X (Z.of_nat j) h0 s =? s)%N).
  { intros j. unfold returns_to. pose proof (proj2 (word_X h0 j s (heads_0 w k L T b OK) Hst (or_introl Et) _ _) (Logic.conj eq_refl eq_refl)) as Re. rewrite (To_t Et) in Re at 1. unfold reaches in Re.
    replace (hw two h0) with (@nil letter) in Re by (unfold hw, h0; destruct two; reflexivity). cbn [app] in Re. rewrite Re, (e0' _ _ _ _ _ _ _ GR). reflexivity. }
  rewrite <- INR_IZR_INZ. apply (Ac_period n M th Hs eps (chi b) X G GR s (proj2 (M_st k L s) Hst) Tc i H1).
  - rewrite E0 in H2. apply N.eqb_eq, H2.
  - intros j Hj. specialize (H3 j Hj). rewrite E0 in H3. apply N.eqb_neq, H3.
Qed.
End S.
