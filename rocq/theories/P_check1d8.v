(* The states that the loops keep; no state of an even-level chain returns under two different sublattice inversions. *)
From Verif Require Import AuxN P_boson SpecMaps SpecFermi SpecChain M_bits1d SpecChain1d SpecCheck1d M_check1d P_maps P_square P_bits1d P_bits1d4 P_bits1d5 P_check1d P_check1d2 P_check1d3 P_check1d4 P_check1d5 P_check1d6 P_check1d7.
Local Open Scope nat_scope.

Lemma balance i : forall j, exists a b, i * a = j * b /\ (Nat.odd a = true \/ Nat.odd b = true).
Proof.
  induction i as [i IH] using lt_wf_ind. intros j. destruct (Nat.eq_dec i 0) as [->|Hi]; [exists 1, 0; split; [lia|left; reflexivity]|].
  destruct (Nat.odd i) eqn:Oi; [exists j, i; split; [lia|right; exact Oi]|]. destruct (Nat.odd j) eqn:Oj; [exists j, i; split; [lia|left; exact Oj]|].
  assert (Ei : Nat.even i = true) by (rewrite <- Nat.negb_odd, Oi; reflexivity). assert (Ej : Nat.even j = true) by (rewrite <- Nat.negb_odd, Oj; reflexivity).
  apply Nat.even_spec in Ei. apply Nat.even_spec in Ej. destruct Ei as [x ->], Ej as [y ->]. destruct (IH x ltac:(lia) y) as (a & b & E & O). exists a, b. split; [lia|exact O].
Qed.
Section A.
Variables (w : btype) (k : kind) (L T : nat).
Notation st s := (s < levels k ^ N.of_nat (sites k L))%N.
Notation sto := (sto w k L T).
Notation sgo := (sgo w k L T).
Notation lok := (lok w k L T).
Notation rep := (repeat LT).
Notation tr := (tr w k L T).
Notation sr := (sr w k L T).
Notation A := (act w k L T).

(* ---- one more symmetry ---- *)
Section K1.
Variables (two : bool) (g p : list letter).
Hypothesis F : family w k L T two true [[LT]; g] [[]; p].
Variable q : quanta.
Hypothesis Gen : forall x, In x [[LT]; g] -> Forall (gentle L two true q) x.
Hypothesis Inv : fold_left (mh T two) p (fst (el T two p)) = (false, false).
Hypothesis Nz : fst (el T two p) <> (false, false).
Variable qp : Z.
Hypothesis Uq : unit_ qp.
Hypothesis Ph : phase_of L T q p = half_turn L qp.
Lemma keep_one R0 R1 sg s : st s -> ((0 < R0)%Z <-> extremal w k L T [[LT]; g] s /\ compatible w k L T q [[LT]] s) -> ((0 < R0)%Z -> least_period w k L T s R0 /\ first_return w k L T p s R1 sg) ->
  let o := if (0 <? R0)%Z then if (negb (R1 =? -1) && minus_one L (sg * qp) (q_k q) T R1)%bool%Z then None else Some R0 else None in
  (o <> None <-> extremal w k L T [[LT]; g] s /\ compatible w k L T q [[LT]; g] s) /\ forall r, o = Some r -> least_period w k L T s r.
Proof.
  intros Hs Q1 Q2 o. pose proof (HL1 w k L (f_fit F)) as HL.
  assert (Ct : compatible w k L T q [[LT]; g] s -> compatible w k L T q [[LT]] s). { intros C word sign (gs & Hg & ->) Hr. apply (C (concat gs) sign); [|exact Hr]. exists gs. split; [|reflexivity]. revert Hg. apply Forall_impl. intros x [<-|[]]. left. reflexivity. }
  destruct (Z.ltb_spec 0 R0) as [P|P].
  2:{ unfold o. split; [|discriminate]. split; [congruence|]. intros [E C]. exfalso. apply Ct in C. assert (0 < R0)%Z by (apply Q1; auto). lia. }
  destruct (Q2 P) as [LP FR]. destruct (proj1 Q1 P) as [E Tc]. split.
  2:{ intros r Hr. unfold o in Hr. destruct (_ && _)%bool; inversion Hr. subst r. exact LP. }
  destruct LP as (R & H1 & -> & H2 & H3). pose proof (HT _ _ _ _ _ _ _ _ F eq_refl) as HT0.
  assert (Ot : forall j, Forall lok (rep j)) by (intros j; apply rep_ok, HT0). rewrite (ret_p _ _ _ _ _ _ _ _ F s _ Hs (Ot R)) in H2. apply N.eqb_eq in H2.
  pose proof (proj1 (ex_iff _ _ _ _ _ _ _ _ F s Hs) E) as E'. assert (H3' : forall j, 0 < j < R -> (tr s [] j < s)%N).
  { intros j Hj. specialize (H3 j ltac:(lia)). rewrite (ret_p _ _ _ _ _ _ _ _ F s _ Hs (Ot j)) in H3. apply N.eqb_neq in H3. specialize (E' [] j ltac:(cbn; auto) ltac:(left; reflexivity)). change (tr s [] j) with (sto (rep j) s) in *. lia. }
  assert (Uni : forall p', In p' [[]; p] -> fst (el T two p') = (false, false) -> p' = []) by (intros p' [<-|[<-|[]]] X; [reflexivity|destruct (Nz X)]).
  pose proof (gp_all w k L T two _ _ F q Gen p ltac:(cbn; auto) Inv Uni s R R1 sg Hs H1 H2 H3' Tc FR) as Gp.
  assert (Full : compatible w k L T q [[LT]; g] s <-> (forall i, tr s p i = s -> ((phase_of L T q (p ++ rep i) + half_turn L (sr s p i)) mod (2 * Z.of_nat L) = 0)%Z)).
  { rewrite (co_iff _ _ _ _ _ _ _ _ F q s Gen Hs). split; [intros C i Ei; apply (C p i ltac:(cbn; auto) ltac:(left; reflexivity) Ei)|]. intros C p' i [<-|[<-|[]]] _ Ei; [|apply C, Ei].
    destruct (T_compat _ _ _ _ _ _ _ _ q s R F eq_refl Hs H1 H2 H3') as [Tc' Tq]. unfold good_phase. cbn [app]. rewrite pho_rep. apply Tq; [apply Tc', Tc|exact Ei]. }
  assert (Main : o <> None <-> (R1 = -1 \/ exists i, R1 = Z.of_nat i /\ ~ (phase_of L T q p + 2 * Z.of_nat (q_k q) * Z.of_nat T * Z.of_nat i + half_turn L sg + Z.of_nat L) mod (2 * Z.of_nat L) = 0)%Z).
  { unfold o. destruct (Z.eqb_spec R1 (-1)) as [->|N1]; cbn [negb andb]; [split; [auto|congruence]|].
    destruct FR as [(i & -> & Rc & _)|(X & _)]; [|congruence]. assert (Us : unit_ sg). { apply reaches_iff in Rc; [|exact (f_fit F)|apply pre_ok; [exact HT0|apply (p_ok _ _ _ _ _ _ _ _ F); cbn; auto]|exact Hs]. destruct Rc as [_ ->]. apply (sr_unit _ _ _ _ _ _ _ _ F eq_refl s p i Hs). cbn; auto. }
    destruct (turn_mul L sg qp HL Us Uq) as [z Ez]. pose proof (minus_one_iff L (sg * qp) (q_k q) T i HL ltac:(apply unit_mul; assumption)) as Mi. rewrite Ez in Mi. rewrite Ph.
    assert (EqX : ((2 * Z.of_nat (q_k q) * Z.of_nat T * Z.of_nat i + (half_turn L sg + half_turn L qp + z * (2 * Z.of_nat L)) + Z.of_nat L) mod (2 * Z.of_nat L) = (half_turn L qp + 2 * Z.of_nat (q_k q) * Z.of_nat T * Z.of_nat i + half_turn L sg + Z.of_nat L) mod (2 * Z.of_nat L))%Z).
    { replace (2 * Z.of_nat (q_k q) * Z.of_nat T * Z.of_nat i + (half_turn L sg + half_turn L qp + z * (2 * Z.of_nat L)) + Z.of_nat L)%Z with (half_turn L qp + 2 * Z.of_nat (q_k q) * Z.of_nat T * Z.of_nat i + half_turn L sg + Z.of_nat L + z * (2 * Z.of_nat L))%Z by lia. apply Z.mod_add. clear - HL. lia. }
    rewrite EqX in Mi. destruct (minus_one _ _ _ _ _).
    - split; [congruence|]. intros [X|(i' & Ei & N)]; [lia|]. apply Nat2Z.inj in Ei. subst i'. destruct (N (proj1 Mi eq_refl)).
    - split; [|congruence]. intros _. right. exists i. split; [reflexivity|]. intros X. apply Mi in X. discriminate. }
  rewrite Main, <- Gp, <- Full. tauto.
Qed.
End K1.

(* ---- no double return ---- *)
Section Even.
Hypothesis SF : states_fit w k L.
Hypothesis HS : has_sublattices k.
Hypothesis Ev : N.even (levels k) = true.
Lemma no_fix l s j : lok l -> j < sites k L -> st s -> target (nth j (lmap k L T l) 0%Z) = j -> flips (nth j (lmap k L T l) 0%Z) = true -> sto [l] s <> s.
Proof.
  intros Hl Hj Hs Ht Hf E. destruct (lgood w k L T SF l Hl) as (Ac & _ & _). destruct (Ac s 1%Z Hs) as (t & M & Et). assert (X : sto [l] s = t) by (unfold P_check1d.sto; cbn [map]; rewrite run_cons, Et; reflexivity).
  destruct M as [_ M]. specialize (M j Hj). rewrite Ht, Hf, <- X, E in M. apply N.even_spec in Ev. destruct Ev as [h Eh]. pose proof (HB2 w k L SF) as HB.
  assert (D : (site_val (levels k) (sites k L) s j < levels k)%N) by (unfold site_val; apply digit_lt, HB). lia.
Qed.
Hypothesis Ex : Nat.even L = true /\ Nat.even T = true.
Hypothesis HTL : 1 <= T /\ exists n, L = T * n.
Hypothesis HT0 : lok LT.
Definition add3 (x y : e1) : e1 := (xorb (fst (fst x)) (fst (fst y)), xorb (snd (fst x)) (snd (fst y)), (snd x + snd y)%Z).
Lemma fold_add u : forall e, fold_left (mf T true) u e = add3 e (el T true u).
Proof.
  induction u as [|l u IH]; intros [[a b] y]; [unfold add3; cbn; rewrite !xorb_false_r, Z.add_0_r; reflexivity|]. unfold el. cbn [fold_left]. rewrite IH, (IH (mf T true e0 l)).
  destruct (el T true u) as [[a' b'] y']. unfold e0. destruct l; cbn [mf m2]; unfold add3; cbn [fst snd]; f_equal; try lia; f_equal; destruct a, a', b, b'; reflexivity.
Qed.
Lemma el_app u v : el T true (u ++ v) = add3 (el T true u) (el T true v). Proof. unfold el at 1. rewrite fold_left_app. apply fold_add. Qed.
Lemma el_rept i : el T true (rep i) = (false, false, - (Z.of_nat T * Z.of_nat i))%Z.
Proof. unfold el. rewrite fold_rep. reflexivity. Qed.
Definition pw (u : list letter) (a : nat) : list letter := concat (repeat u a).
Definition ifo (a : nat) (b : bool) : bool := if Nat.odd a then b else false.
Lemma el_pw u a : el T true (pw u a) = (ifo a (fst (fst (el T true u))), ifo a (snd (fst (el T true u))), (Z.of_nat a * snd (el T true u))%Z).
Proof.
  induction a as [|a IH]; [unfold pw; cbn; reflexivity|]. unfold pw in *. cbn [repeat concat]. rewrite el_app, IH. destruct (el T true u) as [[x y] z]. unfold add3, ifo. cbn [fst snd]. rewrite Nat.odd_succ, <- Nat.negb_odd. f_equal; [|lia]. f_equal; destruct (Nat.odd a), x, y; reflexivity.
Qed.
Lemma pw_ok (P : letter -> Prop) u a : Forall P u -> Forall P (pw u a).
Proof. intros H. unfold pw. induction a as [|a IH]; [constructor|]. cbn [repeat concat]. apply Forall_app. split; assumption. Qed.
Lemma pw_fix u a s : Forall lok u -> st s -> sto u s = s -> sto (pw u a) s = s.
Proof. intros Ho Hs E. induction a as [|a IH]; [reflexivity|]. change (pw u (S a)) with (u ++ pw u a). rewrite (proj1 (sto_app w k L T SF u (pw u a) s Ho (pw_ok _ u a Ho) Hs)), E. exact IH. Qed.
Notation ok2 := (okf w k L T true).
Lemma okLT : ok2 LT. Proof. split; [exact HT0|]. split; [exact HS|exact Ex]. Qed.
Lemma okrep i : Forall ok2 (rep i). Proof. apply Forall_forall. intros l Hl. apply repeat_spec in Hl. rewrite Hl. apply okLT. Qed.
Lemma same_st u v s : Forall ok2 u -> Forall ok2 v -> st s -> eq1 L (el T true u) (el T true v) -> sto u s = sto v s.
Proof. intros Hu Hv Hs E. exact (proj1 (same_el w k L T SF true u v Hu Hv E s Hs)). Qed.
Lemma T_inj m x y : st x -> st y -> sto (rep m) x = sto (rep m) y -> x = y.
Proof.
  intros Hx Hy E. pose proof (HL1 w k L SF) as HL. destruct HTL as [H1 [n Hn]]. assert (N0 : 1 <= n) by (destruct n; lia).
  assert (K : forall z, st z -> sto (rep m ++ rep (m * (n - 1))) z = z).
  { intros z Hz. rewrite (same_st (rep m ++ rep (m * (n - 1))) [] z ltac:(apply Forall_app; split; apply okrep) ltac:(constructor) Hz); [reflexivity|].
    unfold el. rewrite fold_left_app, !fold_rep. cbn [fold_left]. split; [reflexivity|]. cbn [snd fst e0]. replace (0 - Z.of_nat T * Z.of_nat m - Z.of_nat T * Z.of_nat (m * (n - 1)))%Z with (0 + (- Z.of_nat m) * Z.of_nat L)%Z; [apply Z.mod_add; lia|]. rewrite Hn, !Nat2Z.inj_mul, Nat2Z.inj_sub by lia. ring. }
  assert (O : forall i, Forall lok (rep i)) by (intros i; apply rep_ok, HT0).
  rewrite <- (K x Hx), <- (K y Hy). rewrite (proj1 (sto_app w k L T SF _ _ x (O _) (O _) Hx)), (proj1 (sto_app w k L T SF _ _ y (O _) (O _) Hy)), E. reflexivity.
Qed.
Lemma no_head u s : Forall ok2 u -> st s -> snd (el T true u) = 0%Z -> fst (el T true u) <> (false, false) -> sto u s <> s.
Proof.
  intros Ho Hs Ez Eh E. pose proof (HL1 w k L SF) as HL. destruct (sub_sites w k L SF HS) as [Es _]. assert (L2 : 2 <= L) by (destruct Ex as [X _]; destruct L as [|[|]]; [lia|discriminate|lia]).
  assert (HI : has_inversion k) by (destruct k as [[|]|?|]; cbn in *; auto).
  assert (Z1 : forall l, lok l -> ok2 l -> el T true [l] = el T true u -> sto [l] s = s).
  { intros l Hl Hk El. rewrite (proj1 (same_el w k L T SF true [l] u ltac:(repeat constructor; apply Hk) Ho ltac:(rewrite El; split; reflexivity) s Hs)). exact E. }
  destruct (el T true u) as [[a b] y] eqn:Eu. cbn [fst snd] in Ez, Eh. subst y. destruct a, b.
  - assert (Hl : lok LZ) by exact HI. refine (no_fix LZ s 0 Hl ltac:(lia) Hs _ _ (Z1 LZ Hl _ eq_refl)); [| |split; [exact Hl|split; [exact HS|exact I]]]; cbn [lmap]; destruct k as [[|]|?|]; try destruct HS; cbn [inv_map]; rewrite ?inv_target, ?inv_flips by lia; reflexivity.
  - assert (Hl : lok LA) by exact HS. refine (no_fix LA s (L - 1) Hl ltac:(lia) Hs _ _ (Z1 LA Hl _ eq_refl)); [| |split; [exact Hl|split; [exact HS|exact I]]]; cbn [lmap]; rewrite ?inv_target, ?inv_flips by lia; [reflexivity|]. unfold from_right. rewrite Nat.sub_diag. reflexivity.
  - assert (Hl : lok LB) by exact HS. refine (no_fix LB s (L - 2) Hl ltac:(lia) Hs _ _ (Z1 LB Hl _ eq_refl)); [| |split; [exact Hl|split; [exact HS|exact I]]]; cbn [lmap]; rewrite ?inv_target, ?inv_flips by lia; [reflexivity|]. unfold from_right. replace (L - 1 - (L - 2)) with 1 by lia. reflexivity.
  - destruct (Eh eq_refl).
Qed.
Lemma no_double pa pb s i j : Forall ok2 pa -> Forall ok2 pb -> snd (el T true pa) = 0%Z -> snd (el T true pb) = 0%Z -> fst (el T true pa) <> (false, false) -> fst (el T true pb) <> (false, false) -> fst (el T true pa) <> fst (el T true pb) ->
  st s -> sto (pa ++ rep i) s = s -> sto (pb ++ rep j) s = s -> False.
Proof.
  intros Oa Ob Za Zb Na Nb Nab Hs Ea Eb. destruct (balance i j) as (a & b & E & O).
  assert (W : forall p i a, Forall ok2 p -> snd (el T true p) = 0%Z -> sto (p ++ rep i) s = s -> sto (rep (i * a)) (sto (pw p a) s) = s /\ st (sto (pw p a) s)).
  { intros p i0 a0 Op Zp Ep. assert (Opr : Forall ok2 (p ++ rep i0)) by (apply Forall_app; split; [exact Op|apply okrep]). pose proof (pw_fix (p ++ rep i0) a0 s (okf_lok _ _ _ _ _ _ Opr) Hs Ep) as Fx. pose proof (okf_lok _ _ _ _ _ _ (pw_ok _ p a0 Op)) as Lp.
    rewrite (same_st (pw (p ++ rep i0) a0) (pw p a0 ++ rep (i0 * a0)) s (pw_ok _ _ _ Opr) ltac:(apply Forall_app; split; [apply pw_ok, Op|apply okrep]) Hs) in Fx.
    - rewrite (proj1 (sto_app w k L T SF _ _ s Lp ltac:(apply rep_ok, HT0) Hs)) in Fx. split; [exact Fx|apply sto_lt; assumption].
    - rewrite el_pw, !el_app, el_pw, !el_rept. unfold add3. cbn [fst snd]. rewrite Zp, !xorb_false_r. split; [reflexivity|]. cbn [snd]. f_equal. lia. }
  destruct (W pa i a Oa Za Ea) as [A1 A2], (W pb j b Ob Zb Eb) as [B1 B2]. rewrite <- E in B1. pose proof (T_inj (i * a) _ _ A2 B2 ltac:(congruence)) as X.
  pose proof (okf_lok _ _ _ _ _ _ (pw_ok _ pa a Oa)) as La. pose proof (okf_lok _ _ _ _ _ _ (pw_ok _ pb b Ob)) as Lb.
  assert (Y : sto (pw pb b ++ pw pa a) s = s).
  { rewrite (proj1 (sto_app w k L T SF _ _ s Lb La Hs)), <- X, <- (proj1 (sto_app w k L T SF _ _ s La La Hs)).
    rewrite (same_st (pw pa a ++ pw pa a) [] s ltac:(apply Forall_app; split; apply pw_ok, Oa) ltac:(constructor) Hs); [reflexivity|]. rewrite el_app, el_pw, Za. unfold add3. cbn [fst snd]. rewrite !xorb_nilpotent, Z.mul_0_r. split; reflexivity. }
  revert Y. apply no_head; [apply Forall_app; split; apply pw_ok; assumption|exact Hs|rewrite el_app, !el_pw, Za, Zb; unfold add3; cbn [snd]; lia|].
  rewrite el_app, !el_pw. unfold add3. cbn [fst snd]. destruct (el T true pa) as [[xa ya] za], (el T true pb) as [[xb yb] zb]. cbn [fst snd] in *. unfold ifo. intros H. inversion H as [[H1 H2]]. destruct (Nat.odd a), (Nat.odd b), xa, ya, xb, yb; cbn in *; try congruence; destruct O; discriminate.
Qed.
End Even.
End A.
