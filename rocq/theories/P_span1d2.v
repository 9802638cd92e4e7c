(* Blocks without semi-momentum: a state that is not kept has no component in the block. *)
From Verif Require Import AuxN SpecC SpecOps SpecMaps SpecFermi SpecChain M_bits1d SpecChain1d SpecCheck1d SpecBlock1d M_check1d
  P_maps P_square P_bits1d P_bits1d4 P_bits1d5 P_check1d P_check1d2 P_check1d3 P_check1d4 P_check1d5 P_block1d P_block1d2 P_block1d3 P_block1d4
  M_ops M_symop P_symop P_photon M_op1d P_op1d P_op1d2 P_op1d3 P_op1d4 P_op1d5 P_op1d6 P_span1d C39_checks C39_reference C39_translations.
From Coq Require Import Permutation.
Local Open Scope nat_scope.

Lemma cos_one_cis y : cos y = 1%R -> cis y = C1.
Proof. intros E. unfold cis. pose proof (sin2_cos2 y) as Q. unfold Rsqr in Q. rewrite E in Q. assert (S0 : (sin y * sin y = 0)%R) by lra. assert (sin y = 0)%R by (destruct (Rmult_integral _ _ S0); assumption). apply C_eq; cbn; lra. Qed.
Lemma cosm_ang L T kb m : cosm L T kb m = fst (ang L (2 * (Z.of_nat kb * Z.of_nat T * m))).
Proof. unfold cosm, kval, ang, cis. cbn [fst]. rewrite !mult_IZR, <- !INR_IZR_INZ. f_equal. unfold Rdiv. ring. Qed.
Lemma Rzero_minus L T kb m q : 1 <= L -> plus_minus q -> Rzero (1 + IZR q * cosm L T kb m) = true -> minus_one L q kb T m = true.
Proof.
  intros HL Pq E. apply Rzero_t in E. rewrite cosm_ang in E. set (nn := (Z.of_nat kb * Z.of_nat T * m)%Z) in *. unfold minus_one. fold nn. destruct Pq as [-> | ->]; cbn [Z.ltb Z.compare]; apply Z.eqb_eq.
  - apply ang_one; [exact HL|]. assert (NL : INR L <> 0%R) by (apply not_0_INR; lia). unfold ang. apply cos_one_cis. rewrite minus_IZR, <- INR_IZR_INZ. replace (PI * (IZR (2 * nn) - INR L) / INR L)%R with (PI * IZR (2 * nn) / INR L - PI)%R by (field; exact NL).
    rewrite cos_minus, cos_PI, sin_PI. unfold ang, cis in E. cbn [fst] in E. lra.
  - assert (Q : ((2 * nn) mod (2 * Z.of_nat L) = 0)%Z) by (apply ang_one; [exact HL|]; unfold ang in *; apply cos_one_cis; unfold cis in E; cbn [fst] in E; lra).
    apply Z.mod_divide in Q; [|lia]. destruct Q as [z Hz]. assert (nn = z * Z.of_nat L)%Z by lia. subst nn. rewrite H. apply Z.mod_mul. lia.
Qed.
Section S.
Variables (w : btype) (k : kind) (L T kb : nat) (b : block).
Hypothesis OK : block_ok w k L T b.
Hypothesis Sm : semi b = false.
Hypothesis Ev : match b with BT_A_B _ _ => N.even (levels k) = true | _ => True end.
Notation M := (Mst k L).
Notation two := (two_of b).
Notation n := (n_of L T b).
Notation Hs := (heads b).
Notation To := (T_of T b).
Notation X := (X w k L To two n).
Notation G := (G w k L To two n).
Notation th := (th_of L T kb b).
Notation V := (V n Hs (chi b) X G).
Notation cab := (cab th).
Notation q := (q_of kb b).
Lemma kept_compat s : is_state k L s -> extremal w k L To (generators b) s -> compatible w k L To q (generators b) s -> keep w k L T kb b s <> Some [].
Proof.
  intros Hst Ex Co. pose proof (SFb w k L T b OK) as SF. pose proof (L_pos w k L T b OK) as HL1. pose proof (q_signs w k L T kb b OK) as SQ.
  destruct (C39_single_checks w k L s q SF Hst SQ) as (S1 & S2 & S3).
  assert (Triv : Some [mk s 1 0] <> Some []) by discriminate.
  assert (K1 : forall v c ws, decides w k L To q (generators b) s v c ws -> keep1 (Some v) s <> Some []).
  { intros v c ws [D _]. pose proof (proj2 D (Logic.conj Ex Co)) as P. cbn [keep1]. apply Z.ltb_lt in P. rewrite P. discriminate. }
  pose proof (fun HC => C39_momentum_check w k L T s q SF HC Hst) as MC. pose proof (fun HC => C39_kept_inversion w k L T s q SF HC Hst SQ) as KI. pose proof (fun HC => C39_kept_sublattice w k L T s q SF HC Hst SQ) as KS. pose proof (fun HC => C39_kept_both_sublattices w k L T s q SF HC Hst SQ) as KB.
  destruct (pm_q w k L T b OK) as [P1 P2].
  destruct (Logic.conj OK I) as [(_ & HC & H) _]. unfold q_of in *. destruct b; try discriminate Sm; cbn [keep q12 fst snd q_k q_p q_z q_a q_b translates two_of T_of] in *; unfold generators in *; cbn [translates app] in *; try exact Triv.
  - destruct S1 as (v & -> & Dv). exact (K1 _ _ _ Dv).
  - destruct (S2 (proj1 H)) as ((v & -> & Dv) & _). exact (K1 _ _ _ Dv).
  - destruct (S2 (proj1 H)) as (_ & (v & E & Dv) & _). rewrite Z.mul_1_r in E. rewrite E. exact (K1 _ _ _ Dv).
  - destruct (S3 (proj1 H)) as ((v & -> & Dv) & _). exact (K1 _ _ _ Dv).
  - destruct (S3 (proj1 H)) as (_ & (v & -> & Dv) & _). exact (K1 _ _ _ Dv).
  - destruct (S2 (proj1 H)) as (_ & _ & (v & -> & Dv)). exact (K1 _ _ _ Dv).
  - destruct (S3 (proj1 H)) as (_ & _ & (v & -> & Dv)). exact (K1 _ _ _ Dv).
  - destruct (MC (HC eq_refl)) as (v & -> & D1 & D2). pose proof (proj2 D1 (Logic.conj Ex Co)) as P. cbn [keep1]. apply Z.ltb_lt in P. rewrite P. discriminate.
  - (* T Z *)
    destruct (KI (HC eq_refl) (proj1 H)) as (o & E & K & _). pose proof (proj2 K (Logic.conj Ex Co)) as No. unfold keep_T_Z, keep_TZ in *. destruct (check_T_Z w k L kb T s) as [[|R0 [|R1 [|sgn [|]]]]|] eqn:Ec; try discriminate.
    destruct (proj2 (C39_one_symmetry w k L T s {| q_k := kb; q_p := 1%Z; q_z := z; q_a := 1%Z; q_b := z |} SF (HC eq_refl) Hst) (proj1 H)) as [(r & Ec' & R0' & R1' & sg' & Er & D1 & D2) _]. cbn [q_k] in Ec'. rewrite Ec in Ec'. injection Ec' as <-. injection Er as <- <- <-.
    assert (Hp : (0 < R0)%Z) by (apply D1; split; [exact Ex|eapply compat_sub; [|exact Co]; intros x [<-|[]]; left; reflexivity]). destruct (D2 Hp) as [_ F1].
    destruct (first_bound w k L T kb (BT_Z z) OK (false, true) s R1 sgn ltac:(cbn; auto) Hst eq_refl F1) as [_ B2].
    destruct (Z.eqb_spec R1 (-1)) as [N1|N1]; cbn [negb andb] in E; [apply Z.ltb_lt in Hp; rewrite Hp; discriminate|]. destruct (Rzero _) eqn:Ez; [|apply Z.ltb_lt in Hp; rewrite Hp; discriminate].
    exfalso. rewrite <- mult_IZR in Ez. apply Rzero_minus in Ez; [|exact HL1|destruct B2 as [-> | ->], P2 as [-> | ->]; unfold plus_minus; lia]. rewrite Ez in E. cbn in E. injection E as <-. apply No. reflexivity.
  - (* T A *)
    destruct H as (HS & EL & ET & Pz). destruct (KS (HC eq_refl) HS EL ET) as ((o & E & K & _) & _). pose proof (proj2 K (Logic.conj Ex Co)) as No. unfold keep_T_sub, keep_Tsub in *. destruct (check_T_ZA w k L kb T s) as [[|R0 [|R1 [|]]]|] eqn:Ec; try discriminate.
    destruct (Z.ltb_spec 0 R0) as [Hp|Hp]; cbn [andb] in E; [|destruct (Z.ltb_spec 0 R0); [lia|]; injection E as <-; destruct No; reflexivity].
    destruct (Z.eqb_spec R1 (-1)) as [N1|N1]; cbn [negb andb] in E |- *; [destruct (Z.ltb_spec 0 R0); [discriminate|lia]|]. destruct (Rzero _) eqn:Ez; [|destruct (Z.ltb_spec 0 R0); [discriminate|lia]].
    exfalso. apply Rzero_minus in Ez; [|exact HL1|exact P1]. rewrite Ez in E. cbn in E. injection E as <-. apply No. reflexivity.
  - destruct H as (HS & EL & ET & Pz). destruct (KS (HC eq_refl) HS EL ET) as (_ & (o & E & K & _)). pose proof (proj2 K (Logic.conj Ex Co)) as No. unfold keep_T_sub, keep_Tsub in *. destruct (check_T_ZB w k L kb T s) as [[|R0 [|R1 [|]]]|] eqn:Ec; try discriminate.
    destruct (Z.ltb_spec 0 R0) as [Hp|Hp]; cbn [andb] in E; [|destruct (Z.ltb_spec 0 R0); [lia|]; injection E as <-; destruct No; reflexivity].
    destruct (Z.eqb_spec R1 (-1)) as [N1|N1]; cbn [negb andb] in E |- *; [destruct (Z.ltb_spec 0 R0); [discriminate|lia]|]. destruct (Rzero _) eqn:Ez; [|destruct (Z.ltb_spec 0 R0); [discriminate|lia]].
    exfalso. apply Rzero_minus in Ez; [|exact HL1|exact P2]. rewrite Ez in E. cbn in E. injection E as <-. apply No. reflexivity.
  - (* T A B *)
    destruct H as (HS & EL & ET & Pa & Pb). destruct (KB (HC eq_refl) HS EL ET Ev) as (o & E & K & _). pose proof (proj2 K (Logic.conj Ex Co)) as No. unfold keep_T_ZA_ZB, keep_TAB in *. destruct (check_T_ZA_ZB w k L kb T s) as [[|R0 [|R1 [|R2 [|R3 ?]]]]|] eqn:Ec; try discriminate.
    destruct (Z.ltb_spec 0 R0) as [Hp|Hp]; [|injection E as <-; destruct No; reflexivity].
    destruct (Z.eqb_spec R1 (-1)) as [N1|N1], (Z.eqb_spec R2 (-1)) as [N2|N2], (Z.eqb_spec R3 (-1)) as [N3|N3]; cbn [negb andb app] in E |- *; rewrite ?app_nil_r; try discriminate; try (injection E as <-; destruct No; reflexivity).
    + rewrite <- mult_IZR. destruct (Rzero _) eqn:Ez; [|discriminate]. exfalso. apply Rzero_minus in Ez; [|exact HL1|destruct Pa as [-> | ->], Pb as [-> | ->]; unfold plus_minus; lia]. rewrite Ez in E. injection E as <-. apply No. reflexivity.
    + destruct (Rzero _) eqn:Ez; [|discriminate]. exfalso. apply Rzero_minus in Ez; [|exact HL1|exact Pb]. rewrite Ez in E. injection E as <-. apply No. reflexivity.
    + destruct (Rzero _) eqn:Ez; [|discriminate]. exfalso. apply Rzero_minus in Ez; [|exact HL1|exact Pa]. rewrite Ez in E. injection E as <-. apply No. reflexivity.
Qed.
Lemma drop_ab s : is_state k L s -> (forall x h, In h Hs -> (X x h s <= s)%N) -> keep w k L T kb b s = Some [] -> forall t, V cab s t = C0.
Proof.
  intros Hst Hx E t. destruct (C_dec (V cab s t) C0) as [Z|N]; [exact Z|]. exfalso. refine (kept_compat s Hst _ _ E); [apply (X_extremal w k L T kb b OK s Hst Hx)|apply (nonzero_compat w k L T kb b OK s t Sm Hst N)].
Qed.
End S.
