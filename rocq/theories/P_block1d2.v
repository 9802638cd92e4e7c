(* Momentum and semi-momentum coefficients: kernels, returns, norms. *)
From Verif Require Import AuxN SpecC SpecOps P_block1d.
Local Open Scope nat_scope.

Lemma close_by (l r z k : R) : z = 1%R -> l = (r + k * (z - 1))%R -> l = r.
Proof. intros -> ->. ring. Qed.
Section T.
Variables (n : nat) (th : R).
Hypothesis Hn : 1 <= n.
Hypothesis Hth : cis (th * INR n) = C1.
Notation nz := (Z.of_nat n).
Notation zs := (zs n).
Definition cab (r : Z) : C := cis (- (th * IZR r)).
Definition cp (r : Z) : C := RtoC (cos (th * IZR r)).
Definition cm (r : Z) : C := RtoC (sin (th * IZR r)).
Lemma cis_n r : cis (th * IZR (r + nz)) = cis (th * IZR r).
Proof. rewrite plus_IZR, <- INR_IZR_INZ, Rmult_plus_distr_l, cis_add, Hth. ring. Qed.
Lemma cos_n r : cos (th * IZR (r + nz)) = cos (th * IZR r). Proof. exact (f_equal fst (cis_n r)). Qed.
Lemma sin_n r : sin (th * IZR (r + nz)) = sin (th * IZR r). Proof. exact (f_equal snd (cis_n r)). Qed.
Lemma cab_per : periodic n cab. Proof. intros r. unfold cab. rewrite <- !cis_conj, cis_n. reflexivity. Qed.
Lemma cp_per : periodic n cp. Proof. intros r. unfold cp. rewrite cos_n. reflexivity. Qed.
Lemma cm_per : periodic n cm. Proof. intros r. unfold cm. rewrite sin_n. reflexivity. Qed.
Lemma Csum_c (c : C) : Csum zs (fun _ => c) = (RtoC (INR n) * c)%C.
Proof. transitivity (Csum zs (fun _ => C1 * c)%C); [apply Csum_ext; intros; ring|]. rewrite Csum_mul_r, Csum_const, zs_len. reflexivity. Qed.
Lemma K_ab x : K n cab cab false x = (RtoC (INR n) * cab x)%C.
Proof.
  unfold K. rewrite <- Csum_c. apply Csum_ext. intros r _. unfold cab. cbn [sg]. rewrite cis_conj, <- cis_add. f_equal. rewrite plus_IZR. ring.
Qed.
(* sums of waves with twice the momentum *)
Definition generic : Prop := cis (2 * th) <> C1.
Lemma wave0 phi : generic -> Csum zs (fun r => cis (2 * th * IZR r + phi)) = C0.
Proof.
  intros Hg. set (W := Csum zs (fun r => cis (2 * th * IZR r + phi))).
  assert (E : (cis (2 * th) * W)%C = W).
  { unfold W. rewrite <- Csum_mul_l. rewrite <- (reindex_sg n Hn false 1 (fun r => cis (2 * th * IZR r + phi))).
    - apply Csum_ext. intros r _. cbn [sg]. rewrite <- cis_add. f_equal. rewrite plus_IZR. ring.
    - intros r. rewrite plus_IZR, <- INR_IZR_INZ. replace (2 * th * (IZR r + INR n) + phi)%R with (2 * th * IZR r + phi + (th * INR n + th * INR n))%R by ring.
      rewrite cis_add, (cis_add (th * INR n)), Hth. ring. }
  destruct (Cmul_integral (cis (2 * th) - C1)%C W) as [H|H]; [transitivity (cis (2 * th) * W - W)%C; [ring|rewrite E; ring]| |exact H].
  exfalso. apply Hg. transitivity ((cis (2 * th) - C1) + C1)%C; [ring|rewrite H; ring].
Qed.
Lemma wave_cos phi : generic -> Csum zs (fun r => RtoC (cos (2 * th * IZR r + phi))) = C0.
Proof.
  intros Hg. pose proof (wave0 phi Hg) as E1. pose proof (f_equal Cconj E1) as E2. rewrite Csum_conj in E2.
  transitivity (RtoC (/ 2) * (Csum zs (fun r => cis (2 * th * IZR r + phi)) + Csum zs (fun r => Cconj (cis (2 * th * IZR r + phi)))))%C.
  - rewrite <- Csum_add, <- Csum_mul_l. apply Csum_ext. intros r _. apply C_eq; cbn; field.
  - rewrite E1, E2. apply C_eq; cbn; ring.
Qed.
Lemma wave_sin phi : generic -> Csum zs (fun r => RtoC (sin (2 * th * IZR r + phi))) = C0.
Proof. intros Hg. rewrite (Csum_ext zs _ (fun r => RtoC (cos (2 * th * IZR r + (phi - PI / 2))))); [apply wave_cos, Hg|]. intros r _. f_equal. rewrite <- cos_shift, <- cos_neg. f_equal. ring. Qed.
Definition nu : R := if Req_EM_T (cos (2 * th)) 1 then 1%R else (/ 2)%R.
Lemma gen_cos : generic <-> cos (2 * th) <> 1%R.
Proof.
  unfold generic. split; intros H E; apply H; [|exact (f_equal fst E)]. apply C_eq; cbn; [exact E|].
  pose proof (sin2_cos2 (2 * th)) as S2. rewrite E in S2. unfold Rsqr in S2. assert (sin (2 * th) * sin (2 * th) = 0)%R by lra. destruct (Rmult_integral _ _ H0); assumption.
Qed.
Lemma nu_gen : generic -> nu = (/ 2)%R. Proof. intros H. apply gen_cos in H. unfold nu. destruct (Req_EM_T _ _); [contradiction|reflexivity]. Qed.
Lemma nu_pos : (0 < nu)%R. Proof. unfold nu. destruct (Req_EM_T _ _); lra. Qed.
Lemma flat_sin r : ~ generic -> sin (th * IZR r) = 0%R.
Proof.
  intros Hg. assert (E : cos (2 * th) = 1%R) by (destruct (Req_dec (cos (2 * th)) 1); [assumption|exfalso; apply Hg; apply gen_cos; assumption]).
  rewrite cos_2a_sin in E. assert (S0 : sin th = 0%R) by (assert (sin th * sin th = 0)%R by lra; destruct (Rmult_integral _ _ H); assumption).
  assert (P : forall m, sin (th * INR m) = 0%R).
  { induction m as [|m IH]; [cbn; rewrite Rmult_0_r; apply sin_0|]. rewrite S_INR, Rmult_plus_distr_l, Rmult_1_r, sin_plus, IH, S0. ring. }
  destruct (Z.le_gt_cases 0 r) as [H|H].
  - rewrite <- (Z2Nat.id r H), <- INR_IZR_INZ. apply P.
  - replace r with (- Z.of_nat (Z.to_nat (- r)))%Z by lia. rewrite opp_IZR, <- INR_IZR_INZ, Ropp_mult_distr_r_reverse, sin_neg, P. ring.
Qed.
Lemma K_pp e x : K n cp cp e x = RtoC (INR n * nu * cos (th * IZR x)).
Proof.
  unfold K, nu. destruct (Req_EM_T (cos (2 * th)) 1) as [E|E].
  - assert (Hg : ~ generic) by (rewrite gen_cos; tauto). transitivity (Csum zs (fun _ => RtoC (cos (th * IZR x)))); [|rewrite Csum_c; apply C_eq; cbn; ring].
    apply Csum_ext. intros r _. unfold cp. rewrite Cconj_RtoC, <- RtoC_mul. f_equal.
    assert (E1 : cos (th * IZR (x + sg e r)) = (cos (th * IZR x) * cos (th * IZR r))%R).
    { destruct e; cbn [sg]; rewrite plus_IZR, ?opp_IZR, Rmult_plus_distr_l, ?Ropp_mult_distr_r_reverse, cos_plus, ?cos_neg, ?sin_neg, (flat_sin r Hg); ring. }
    rewrite E1. pose proof (sin2_cos2 (th * IZR r)) as S2. rewrite (flat_sin r Hg) in S2. unfold Rsqr in S2.
    transitivity (cos (th * IZR x) * (0 * 0 + cos (th * IZR r) * cos (th * IZR r)))%R; [ring|rewrite S2; ring].
  - assert (Hg : generic) by (apply gen_cos; exact E).
    transitivity (Csum zs (fun _ => RtoC (/ 2 * cos (th * IZR x))) + RtoC (/ 2) * Csum zs (fun r => RtoC (cos (2 * th * IZR r + (if e then - (th * IZR x) else th * IZR x)))))%C.
    + rewrite <- Csum_mul_l, <- Csum_add. apply Csum_ext. intros r _. unfold cp. rewrite Cconj_RtoC, <- !RtoC_mul, <- RtoC_add. f_equal.
      replace (2 * th * IZR r)%R with (th * IZR r + th * IZR r)%R by ring.
      destruct e; cbn [sg]; rewrite plus_IZR, ?opp_IZR, Rmult_plus_distr_l, ?Ropp_mult_distr_r_reverse, !cos_plus, ?sin_plus, ?cos_neg, ?sin_neg;
        apply (close_by _ _ _ (/ 2 * cos (th * IZR x)) (sin2_cos2 (th * IZR r))); unfold Rsqr; field.
    + rewrite wave_cos by exact Hg. rewrite Csum_c. apply C_eq; cbn; field.
Qed.
Lemma K_mm e x : generic -> K n cm cm e x = RtoC (INR n * / 2 * (if e then - 1 else 1) * cos (th * IZR x)).
Proof.
  intros Hg. unfold K.
  transitivity (Csum zs (fun _ => RtoC (/ 2 * (if e then - 1 else 1) * cos (th * IZR x))) + RtoC (if e then / 2 else - / 2) * Csum zs (fun r => RtoC (cos (2 * th * IZR r + (if e then - (th * IZR x) else th * IZR x)))))%C.
  - rewrite <- Csum_mul_l, <- Csum_add. apply Csum_ext. intros r _. unfold cm. rewrite Cconj_RtoC, <- !RtoC_mul, <- RtoC_add. f_equal.
    replace (2 * th * IZR r)%R with (th * IZR r + th * IZR r)%R by ring.
    destruct e; cbn [sg]; rewrite plus_IZR, ?opp_IZR, Rmult_plus_distr_l, ?Ropp_mult_distr_r_reverse, !cos_plus, !sin_plus, ?cos_neg, ?sin_neg;
      [apply (close_by _ _ _ (- (/ 2 * cos (th * IZR x))) (sin2_cos2 (th * IZR r))) | apply (close_by _ _ _ (/ 2 * cos (th * IZR x)) (sin2_cos2 (th * IZR r)))]; unfold Rsqr; field.
  - rewrite wave_cos by exact Hg. rewrite Csum_c. apply C_eq; cbn; field.
Qed.
Lemma K_pm e x : generic -> K n cp cm e x = RtoC (INR n * / 2 * sin (th * IZR x)).
Proof.
  intros Hg. unfold K.
  transitivity (Csum zs (fun _ => RtoC (/ 2 * sin (th * IZR x))) + RtoC (if e then - / 2 else / 2) * Csum zs (fun r => RtoC (sin (2 * th * IZR r + (if e then - (th * IZR x) else th * IZR x)))))%C.
  - rewrite <- Csum_mul_l, <- Csum_add. apply Csum_ext. intros r _. unfold cp, cm. rewrite Cconj_RtoC, <- !RtoC_mul, <- RtoC_add. f_equal.
    replace (2 * th * IZR r)%R with (th * IZR r + th * IZR r)%R by ring.
    destruct e; cbn [sg]; rewrite plus_IZR, ?opp_IZR, Rmult_plus_distr_l, ?Ropp_mult_distr_r_reverse, !sin_plus, ?cos_plus, ?cos_neg, ?sin_neg;
      apply (close_by _ _ _ (/ 2 * sin (th * IZR x)) (sin2_cos2 (th * IZR r))); unfold Rsqr; field.
  - rewrite wave_sin by exact Hg. rewrite Csum_c. apply C_eq; cbn; field.
Qed.
End T.
