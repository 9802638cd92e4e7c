(* The labels that the one-dimensional bases store with their states, and the norms computed from them. *)
From Verif Require Import AuxN SpecC SpecOps SpecMaps SpecFermi SpecChain M_bits1d SpecChain1d SpecCheck1d SpecBlock1d M_check1d
  P_bits1d P_check1d P_check1d3 P_block1d P_block1d2 P_block1d3 P_block1d4 M_ops M_op1d P_op1d P_op1d2 P_op1d3 P_op1d4 P_op1d5 P_op1d6 P_op1d7 P_semi1d P_semi1d2 P_semi1d3 P_semi1d4
  M_proj1d C39_checks C39_reference C39_translations.
Local Open Scope nat_scope.

Section S.
Variables (w : btype) (k : kind) (L T kb : nat) (b : block).
Hypothesis OK : block_ok w k L T b.
Notation LZ1 := (Z.of_nat L + 1)%Z.
(* the labels *)
Definition lab (e : entry) : Prop :=
  match b with
  | BT => (0 < e_N e)%Z
  | BT_Z _ => (0 < e_N e)%Z /\ exists m h, e_m e = (m + h * LZ1)%Z /\ (0 <= m <= Z.of_nat L)%Z /\ (h = 0 \/ h = 1)%Z
  | BT_P _ | BT_PZ _ => (e_N e <> 0)%Z /\ exists m h, e_m e = (m + h * LZ1)%Z /\ (0 <= m <= Z.of_nat L)%Z /\ (h = 0 \/ h = 1)%Z
  | BT_A _ | BT_B _ => (0 < e_N e)%Z /\ (0 <= e_m e <= Z.of_nat L)%Z
  | BT_A_B _ _ => (0 < e_N e)%Z /\ exists m c, e_m e = (m + c * LZ1)%Z /\ (0 <= m < Z.of_nat L)%Z /\ (1 <= c <= 4)%Z
  | BT_P_Z _ _ => (e_N e <> 0)%Z /\ exists m n c, e_m e = (m + n * LZ1 + c * (LZ1 * LZ1))%Z /\ (0 <= m < Z.of_nat L)%Z /\ (0 <= n < Z.of_nat L)%Z /\ (0 <= c <= 10)%Z
  | _ => (0 < e_N e)%Z
  end.
Lemma half_sign x : (x = 1 \/ x = -1)%Z -> ((x + 1) / 2 = 0 \/ (x + 1) / 2 = 1)%Z.
Proof. intros [-> | ->]; [right|left]; reflexivity. Qed.
Lemma sig_in sg r : (0 < r)%Z -> In sg (sigmas L T kb) -> (sg * r <> 0)%Z.
Proof. unfold sigmas. destruct (flat L T kb); cbn [In]; intros Hr H; destruct H as [<-|H]; try lia; destruct H as [<-|H]; try lia; destruct H. Qed.
Lemma keep1_lab v s l e : keep1 v s = Some l -> In e l -> (0 < e_N e)%Z.
Proof. unfold keep1. destruct v as [r|]; [|discriminate]. intros E He. injection E as <-. destruct (Z.ltb_spec 0 r); [|destruct He]. destruct He as [<-|[]]. assumption. Qed.
Lemma Some_in {A} (x y : A) : Some x = Some y -> x = y. Proof. congruence. Qed.
Lemma keep_lab s l e : is_state k L s -> keep w k L T kb b s = Some l -> In e l -> lab e.
Proof.
  intros Hst Ek He. pose proof (SFb w k L T b OK) as SF. pose proof (L_pos w k L T b OK) as HL.
  pose proof (fun HC => C39_one_symmetry w k L T s (q_of kb b) SF HC Hst) as OC.
  pose proof (fun HC => C39_sublattice w k L T s (q_of kb b) SF HC Hst) as SC. pose proof (fun HC => C39_two_symmetries w k L T s (q_of kb b) SF HC Hst) as TC.
  pose proof (fun h m sg => first_bound w k L T kb b OK h s m sg) as FB.
  destruct (Logic.conj OK I) as [(_ & HC & H) _]. unfold lab, q_of in *.
  destruct b; cbn [keep q12 fst snd q_k q_p q_z q_a q_b translates two_of heads] in *; try exact (keep1_lab _ _ _ _ Ek He).
  - apply Some_in in Ek; subst l. destruct He as [<-|[]]. cbn. lia.
  - apply Some_in in Ek; subst l. destruct He as [<-|[]]. cbn. lia.
  - (* T Z *)
    unfold keep_TZ in Ek. destruct (OC (HC eq_refl)) as (_ & OI). destruct (OI (proj1 H)) as ((r & Ec & R0 & m & sg & -> & D1 & D2) & _). rewrite Ec in Ek.
    destruct (Z.eqb_spec m (-1)) as [Em|Em].
    + apply Some_in in Ek; subst l. destruct (Z.ltb_spec 0 R0); [|destruct He]. destruct He as [<-|[]]. cbn [e_N e_m]. split; [assumption|]. exists 0%Z, 0%Z. subst m. cbn. lia.
    + destruct (Rzero _); apply Some_in in Ek; subst l; [destruct He|]. destruct (Z.ltb_spec 0 R0) as [Hr|]; [|destruct He]. destruct He as [<-|[]]. destruct (D2 Hr) as [_ F]. destruct (FB (false, true) m sg ltac:(cbn; auto) Hst eq_refl F) as [B1 B2].
      cbn [e_N e_m]. split; [assumption|]. exists (m + 1)%Z, ((sg + 1) / 2)%Z. split; [ring|]. split; [lia|apply half_sign, B2].
  - (* T A *)
    destruct H as (HS & EL & ET & Hq). destruct (SC (HC eq_refl) HS EL ET) as [(R0 & m & Ec & Rp) _]. unfold keep_Tsub in Ek. rewrite Ec in Ek. apply Some_in in Ek; subst l. destruct Rp as (R0' & m' & sg & Er & D1 & D2). injection Er as <- <- <-.
    destruct (Z.ltb_spec 0 R0) as [Hr|]; [|destruct He]. destruct (D2 Hr) as [_ F]. destruct (FB (true, false) m 1%Z ltac:(cbn; auto) Hst eq_refl F) as [B1 _]. destruct (negb (m =? -1)%Z && _)%bool; [destruct He|]. destruct (Z.ltb_spec 0 R0); [|destruct He]. destruct He as [<-|[]]. cbn [e_N e_m]. lia.
  - (* T B *)
    destruct H as (HS & EL & ET & Hq). destruct (SC (HC eq_refl) HS EL ET) as [_ (R0 & m & Ec & Rp)]. unfold keep_Tsub in Ek. rewrite Ec in Ek. apply Some_in in Ek; subst l. destruct Rp as (R0' & m' & sg & Er & D1 & D2). injection Er as <- <- <-.
    destruct (Z.ltb_spec 0 R0) as [Hr|]; [|destruct He]. destruct (D2 Hr) as [_ F]. destruct (FB (false, true) m 1%Z ltac:(cbn; auto) Hst eq_refl F) as [B1 _]. destruct (negb (m =? -1)%Z && _)%bool; [destruct He|]. destruct (Z.ltb_spec 0 R0); [|destruct He]. destruct He as [<-|[]]. cbn [e_N e_m]. lia.
  - (* T A B *)
    destruct H as (HS & EL & ET & Hq). destruct (proj2 (TC (HC eq_refl)) HS EL ET) as (r & Ec & R0 & mA & mB & mZ & s1 & s2 & s3 & -> & D1 & D2). unfold keep_TAB in Ek. rewrite Ec in Ek. cbv zeta in Ek. apply Some_in in Ek; subst l.
    destruct (Z.ltb_spec 0 R0) as [Hr|]; [|destruct He]. destruct (D2 Hr) as (_ & F1 & F2 & F3).
    destruct (FB (true, false) mA s1 ltac:(cbn; auto) Hst eq_refl F1) as [B1 _]. destruct (FB (false, true) mB s2 ltac:(cbn; auto) Hst eq_refl F2) as [B2 _]. destruct (FB (true, true) mZ s3 ltac:(cbn; auto) Hst eq_refl F3) as [B3 _].
    destruct (Z.eqb_spec mA (-1)), (Z.eqb_spec mB (-1)), (Z.eqb_spec mZ (-1)); cbn [negb andb app] in He; try (destruct He; fail); repeat match type of He with context [Rzero ?x] => destruct (Rzero x); cbn [app] in He end; try (destruct He; fail);
    destruct He as [<-|[]]; cbn [e_N e_m]; (split; [exact Hr|]); [exists 0%Z, 1%Z|exists mZ, 4%Z|exists mB, 3%Z|exists mA, 2%Z]; lia.
  - (* T P *)
    destruct (proj1 (OC (HC eq_refl))) as (r & Ec & R0 & m & sg & -> & D1 & D2). unfold keep_TP in Ek. rewrite Ec in Ek. apply Some_in in Ek; subst l.
    destruct (Z.ltb_spec 0 R0) as [Hr|]; [|destruct He]. destruct (D2 Hr) as [_ F]. destruct (FB (true, false) m sg ltac:(cbn; auto) Hst eq_refl F) as [B1 B2].
    destruct (Z.eqb_spec m (-1)); cbn [negb] in He; apply in_map_iff in He; destruct He as (sig & <- & Hs'); cbn [e_N e_m]; (split; [apply (sig_in _ _ Hr); try apply filter_In in Hs'; tauto|]).
    + exists 0%Z, 0%Z. lia.
    + exists (m + 1)%Z, ((sg + 1) / 2)%Z. split; [ring|]. split; [lia|apply half_sign, B2].
  - (* T PZ *)
    destruct (proj2 (proj2 (OC (HC eq_refl)) (proj1 H))) as (r & Ec & R0 & m & sg & -> & D1 & D2). unfold keep_TP in Ek. rewrite Ec in Ek. apply Some_in in Ek; subst l.
    destruct (Z.ltb_spec 0 R0) as [Hr|]; [|destruct He]. destruct (D2 Hr) as [_ F]. destruct (FB (true, true) m sg ltac:(cbn; auto) Hst eq_refl F) as [B1 B2].
    destruct (Z.eqb_spec m (-1)); cbn [negb] in He; apply in_map_iff in He; destruct He as (sig & <- & Hs'); cbn [e_N e_m]; (split; [apply (sig_in _ _ Hr); try apply filter_In in Hs'; tauto|]).
    + exists 0%Z, 0%Z. lia.
    + exists (m + 1)%Z, ((sg + 1) / 2)%Z. split; [ring|]. split; [lia|apply half_sign, B2].
  - (* T P Z *)
    destruct (proj1 (TC (HC eq_refl)) (proj1 H)) as (r & Ec & R0 & mp & mz & mq & s1 & s2 & s3 & -> & D1 & D2). unfold keep_TPZ in Ek. rewrite Ec in Ek. cbv zeta in Ek. apply Some_in in Ek; subst l.
    destruct (Z.ltb_spec 0 R0) as [Hr|]; [|destruct He]. destruct (D2 Hr) as (_ & F1 & F2 & F3).
    destruct (FB (true, false) mp s1 ltac:(cbn; auto) Hst eq_refl F1) as [B1 C1']. destruct (FB (false, true) mz s2 ltac:(cbn; auto) Hst eq_refl F2) as [B2 C2']. destruct (FB (true, true) mq s3 ltac:(cbn; auto) Hst eq_refl F3) as [B3 C3'].
    pose proof (half_sign _ C1') as P1. pose proof (half_sign _ C2') as P2. pose proof (half_sign _ C3') as P3.
    set (x1 := ((s1 + 1) / 2)%Z) in *. set (x2 := ((s2 + 1) / 2)%Z) in *. set (x3 := ((s3 + 1) / 2)%Z) in *.
    destruct (Z.eqb_spec mp (-1)), (Z.eqb_spec mz (-1)), (Z.eqb_spec mq (-1)); cbn [negb andb app] in He; rewrite ?app_nil_r in He; try (destruct He; fail); apply in_map_iff in He; destruct He as (sig & <- & Hs'); cbn [e_N e_m]; (split; [apply (sig_in _ _ Hr); try apply filter_In in Hs'; tauto|]).
    + exists 0%Z, 0%Z, 0%Z. lia.
    + exists mq, 0%Z, (5 + x3)%Z. lia.
    + exists 0%Z, mz, (3 + x2)%Z. lia.
    + exists mp, 0%Z, (1 + x1)%Z. lia.
    + exists mp, mz, (7 + x1 + 2 * x2)%Z. split; [ring|]. lia.
    + exists mp, mz, (7 + x1 + 2 * x2)%Z. split; [ring|]. lia.
Qed.
End S.
