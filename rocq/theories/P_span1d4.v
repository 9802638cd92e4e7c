(* The subspace of a block: vectors with given eigenvalues of the symmetries, and the projection on it. *)
From Verif Require Import AuxN SpecC SpecOps P_block1d P_block1d2 P_block1d3 P_op1d P_span1d.
Local Open Scope nat_scope.

Section Abs.
Variables (n M : nat) (Hs : list head) (eps : head -> bool) (chi : head -> R) (X : Z -> head -> N -> N) (G : Z -> head -> N -> Z).
Hypothesis GR : grp n M Hs eps chi X G.
Variable th : R.
Hypothesis Hth : cis (th * INR n) = C1.
Notation zs := (zs n).
Notation D := (fun s : N => (s < N.of_nat M)%N).
Notation U := (U X G).
Notation V := (V n Hs chi X G).
Notation ch := (ch chi).
Notation cab := (cab th).
Notation cp := (cp th).
Notation cm := (cm th).
Notation all := (all_states M).
(* the action of a group element on vectors *)
Definition Av (r : Z) (h : head) (v : N -> C) (t : N) : C := Csum all (fun s => U r h s t * v s)%C.
Lemma Av_ext r h u v t : (forall s, D s -> u s = v s) -> Av r h u t = Av r h v t.
Proof. intros E. unfold Av. apply Csum_ext. intros s Hs'. apply al_in in Hs'. rewrite (E s Hs'). reflexivity. Qed.
Lemma Av_lin r h (a c : C) u v t : Av r h (fun s => a * u s + c * v s)%C t = (a * Av r h u t + c * Av r h v t)%C.
Proof. unfold Av. rewrite <- !Csum_mul_l, <- Csum_add. apply Csum_ext. intros s _. ring. Qed.
Lemma Av_scal r h (a : C) v t : Av r h (fun s => a * v s)%C t = (a * Av r h v t)%C.
Proof. unfold Av. rewrite <- !Csum_mul_l. apply Csum_ext. intros s _. ring. Qed.
Lemma Av_sum {Y} (l : list Y) r h (f : Y -> N -> C) t : Av r h (fun s => Csum l (fun y => f y s)) t = Csum l (fun y => Av r h (f y) t).
Proof.
  unfold Av. rewrite Csum_swap. apply Csum_ext. intros s _. rewrite Csum_mul_l. reflexivity.
Qed.
Lemma U_comp r h r' h' s t : In h Hs -> In h' Hs -> D s -> Csum all (fun u => U r' h' u t * U r h s u)%C = U (r + sg (eps h) r') (hx h h') s t.
Proof.
  intros Hh Hh' Ds. pose proof (g_XD _ _ _ _ _ _ _ GR r h s Hh Ds) as Dx. rewrite (Csum_single all _ (X r h s) (al_nodup M)).
  - unfold P_block1d.U at 2. rewrite N.eqb_refl. unfold P_block1d.U. rewrite (g_Xm _ _ _ _ _ _ _ GR) by assumption. destruct (N.eqb _ t); [|ring].
    unfold Gc. rewrite <- (g_Gm _ _ _ _ _ _ _ GR r h r' h' s) by assumption. rewrite mult_IZR, RtoC_mul. ring.
  - apply al_in. exact Dx.
  - intros u _ Ne. unfold P_block1d.U at 2. destruct (N.eqb_spec (X r h s) u) as [E|E]; [congruence|ring].
Qed.
Lemma Av_comp r h r' h' v t : In h Hs -> In h' Hs -> Av r' h' (Av r h v) t = Av (r + sg (eps h) r') (hx h h') v t.
Proof.
  intros Hh Hh'. unfold Av. transitivity (Csum all (fun u => Csum all (fun s => U r' h' u t * U r h s u * v s)))%C.
  - apply Csum_ext. intros u _. rewrite <- Csum_mul_l. apply Csum_ext. intros s _. ring.
  - rewrite Csum_swap. apply Csum_ext. intros s Hs'. apply al_in in Hs'. rewrite <- (U_comp r h r' h' s t Hh Hh' Hs'). rewrite Csum_mul_r. reflexivity.
Qed.
Lemma Av_0 v t : D t -> Av 0 h0 v t = v t.
Proof.
  intros Dt. unfold Av. rewrite (Csum_single all _ t (al_nodup M)).
  - unfold P_block1d.U. rewrite (g_X0 _ _ _ _ _ _ _ GR t Dt), N.eqb_refl. unfold Gc. rewrite (G0 _ _ _ _ _ _ _ GR t Dt). change (RtoC (IZR 1)) with C1. ring.
  - apply al_in. exact Dt.
  - intros u Hu Ne. apply al_in in Hu. unfold P_block1d.U. rewrite (g_X0 _ _ _ _ _ _ _ GR u Hu). destruct (N.eqb_spec u t); [contradiction|ring].
Qed.
Let H0 := g_H0 _ _ _ _ _ _ _ GR.
Let Hn := g_Hn _ _ _ _ _ _ _ GR.
Lemma Av_n r h v t : In h Hs -> Av (r + Z.of_nat n) h v t = Av r h v t.
Proof. intros Hh. unfold Av. apply Csum_ext. intros s Hs'. apply al_in in Hs'. f_equal. exact (U_per n M Hs eps chi X G GR h s t Hh Hs' r). Qed.
Lemma Av_h0 r r' v t : Av r' h0 (Av r h0 v) t = Av (r + r') h0 v t.
Proof. rewrite Av_comp by exact H0. rewrite (e0 _ _ _ _ _ _ _ GR). rewrite hx_0. reflexivity. Qed.
Lemma Av_split r h v t : In h Hs -> Av 0 h (Av r h0 v) t = Av r h v t.
Proof. intros Hh. rewrite Av_comp by assumption. rewrite (e0 _ _ _ _ _ _ _ GR), hx_0. cbn [sg]. rewrite Z.add_0_r. reflexivity. Qed.
(* a sum of block vectors is a combination of group elements *)
Lemma V_sum c v t : Csum all (fun s => v s * V c s t)%C = Csum zs (fun r => Csum Hs (fun h => c r * ch h * Av r h v t)%C).
Proof.
  unfold P_block1d.V. transitivity (Csum all (fun s => Csum zs (fun r => Csum Hs (fun h => c r * ch h * (U r h s t * v s)))))%C.
  - apply Csum_ext. intros s _. rewrite <- Csum_mul_l. apply Csum_ext. intros r _. rewrite <- Csum_mul_l. apply Csum_ext. intros h _. ring.
  - rewrite Csum_swap. apply Csum_ext. intros r _. rewrite Csum_swap. apply Csum_ext. intros h _. rewrite Csum_mul_l. reflexivity.
Qed.
Lemma LH_pos : (0 < INR (length Hs))%R.
Proof. apply lt_0_INR. pose proof H0 as H. destruct Hs; [destruct H|cbn; lia]. Qed.
Section Proj.
Variable v : N -> C.
Hypothesis Hsym : forall h, In h Hs -> forall t, D t -> Av 0 h v t = (ch h * v t)%C.
(* momentum states *)
Lemma proj_ab : (forall t, D t -> Av 1 h0 v t = (cis th * v t)%C) -> forall t, D t -> Csum all (fun s => v s * V cab s t)%C = (RtoC (INR n * INR (length Hs)) * v t)%C.
Proof.
  intros HT t Dt. assert (Hr : forall m u, D u -> Av (Z.of_nat m) h0 v u = (cis (th * INR m) * v u)%C).
  { induction m as [|m IH]; intros u Du; [cbn [INR]; rewrite Rmult_0_r, cis_0; cbn [Z.of_nat]; rewrite (Av_0 v u Du); ring|].
    replace (Z.of_nat (S m)) with (Z.of_nat m + 1)%Z by lia. rewrite <- Av_h0. rewrite (Av_ext 1 h0 _ (fun s => cis (th * INR m) * v s)%C u) by exact IH. rewrite Av_scal, (HT u Du), S_INR, Rmult_plus_distr_l, Rmult_1_r, cis_add. ring. }
  rewrite V_sum. transitivity (Csum zs (fun _ => RtoC (INR (length Hs)) * v t)%C).
  - apply Csum_ext. intros r Hr'. apply (zs_in n Hn) in Hr'. rewrite <- (Csum_const Hs) . rewrite <- Csum_mul_r. apply Csum_ext. intros h Hh. rewrite <- (Av_split r h v t Hh).
    replace r with (Z.of_nat (Z.to_nat r)) by lia. set (m := Z.to_nat r). rewrite (Av_ext 0 h _ (fun s => cis (th * INR m) * v s)%C t) by (intros s Ds; apply Hr, Ds). rewrite Av_scal, (Hsym h Hh t Dt).
    unfold P_block1d2.cab. rewrite <- INR_IZR_INZ. transitivity (cis (- (th * INR m)) * cis (th * INR m) * (ch h * ch h) * v t)%C; [ring|]. rewrite (ch2 n M Hs eps chi X G GR h Hh), <- cis_add. replace (- (th * INR m) + th * INR m)%R with 0%R by ring. rewrite cis_0. ring.
  - rewrite (Csum_c n). rewrite RtoC_mul. ring.
Qed.
(* semi-momentum states *)
Lemma proj_p : (forall t, D t -> (Av 1 h0 (Av 1 h0 v) t + v t)%C = (RtoC (2 * cos th) * Av 1 h0 v t)%C) -> forall t, D t -> Csum all (fun s => v s * V cp s t)%C = (RtoC (INR n * nu th * INR (length Hs)) * v t)%C.
Proof.
  intros HT t Dt. set (a m u := Av (Z.of_nat m) h0 v u).
  assert (Hrec : forall m u, D u -> a (S (S m)) u = (RtoC (2 * cos th) * a (S m) u - a m u)%C).
  { intros m u Du. unfold a. assert (E : Av (Z.of_nat m) h0 (fun s => C1 * Av 1 h0 (Av 1 h0 v) s + C1 * v s)%C u = Av (Z.of_nat m) h0 (fun s => RtoC (2 * cos th) * Av 1 h0 v s)%C u).
    { apply Av_ext. intros s Ds. rewrite <- (HT s Ds). ring. }
    rewrite Av_lin, Av_scal in E. rewrite (Av_ext (Z.of_nat m) h0 (Av 1 h0 (Av 1 h0 v)) (Av (1 + 1) h0 v) u) in E by (intros s _; apply Av_h0). rewrite !Av_h0 in E.
    replace (Z.of_nat (S (S m))) with (1 + 1 + Z.of_nat m)%Z by lia. replace (Z.of_nat (S m)) with (1 + Z.of_nat m)%Z by lia.
    rewrite <- E. ring. }
  assert (H00 : forall u, D u -> a 0 u = v u) by (intros u Du; apply Av_0, Du).
  assert (Hper : forall u, a n u = a 0 u).
  { intros u. unfold a. replace (Z.of_nat n) with (Z.of_nat 0 + Z.of_nat n)%Z by lia. apply Av_n, H0. }
  assert (Hsol : forall u, D u -> forall m, (RtoC (sin th) * a m u)%C = (RtoC (sin (th * INR m)) * a 1 u - RtoC (sin (th * INR m - th)) * a 0 u)%C).
  { intros u Du. assert (Two : forall m, (RtoC (sin th) * a m u = RtoC (sin (th * INR m)) * a 1%nat u - RtoC (sin (th * INR m - th)) * a 0%nat u)%C /\ (RtoC (sin th) * a (S m) u = RtoC (sin (th * INR (S m))) * a 1%nat u - RtoC (sin (th * INR (S m) - th)) * a 0%nat u)%C).
    { induction m as [|m [I1 I2]].
      - cbn [INR]. rewrite Rmult_0_r, Rmult_1_r, Rminus_0_l, sin_0, sin_neg, (Rminus_diag_eq th th eq_refl), sin_0, RtoC_opp. change (RtoC 0) with C0. split; ring.
      - split; [exact I2|]. rewrite (Hrec m u Du). transitivity (RtoC (2 * cos th) * (RtoC (sin th) * a (S m) u) - RtoC (sin th) * a m u)%C; [ring|]. rewrite I1, I2.
        assert (S1 : sin (th * INR (S (S m))) = (2 * cos th * sin (th * INR (S m)) - sin (th * INR m))%R).
        { rewrite !S_INR. replace (th * (INR m + 1 + 1))%R with ((th * INR m + th) + th)%R by ring. replace (th * (INR m + 1))%R with (th * INR m + th)%R by ring. assert (Q : sin (th * INR m) = sin ((th * INR m + th) - th)) by (f_equal; ring). rewrite Q, (sin_plus (th * INR m + th) th), (sin_minus (th * INR m + th) th). ring. }
        assert (S2 : sin (th * INR (S (S m)) - th) = (2 * cos th * sin (th * INR (S m) - th) - sin (th * INR m - th))%R).
        { rewrite !S_INR. replace (th * (INR m + 1 + 1) - th)%R with (th * INR m + th)%R by ring. replace (th * (INR m + 1) - th)%R with (th * INR m)%R by ring. rewrite sin_plus, sin_minus. ring. }
        rewrite S1, S2. apply C_eq; cbn; ring. }
    intros m. apply Two. }
  assert (Key : forall u, D u -> Csum zs (fun r => cp r * Av r h0 v u)%C = (RtoC (INR n * nu th) * v u)%C).
  { intros u Du. destruct (Req_EM_T (sin th) 0) as [S0|NS].
    - (* flat *) assert (Cc : (cos th = 1 \/ cos th = -1)%R).
      { pose proof (sin2_cos2 th) as Q. unfold Rsqr in Q. rewrite S0 in Q. assert (Q' : ((cos th - 1) * (cos th + 1) = 0)%R) by lra. destruct (Rmult_integral _ _ Q'); [left|right]; lra. }
      assert (Ng : ~ generic th) by (rewrite gen_cos; rewrite cos_2a_sin, S0; intros N; apply N; ring).
      assert (Sm : forall m, sin (th * INR m) = 0%R) by (intros m; rewrite INR_IZR_INZ; apply (flat_sin n th Hn); exact Ng).
      assert (Sm1 : forall m, cos (th * INR (S m)) = (cos th * cos (th * INR m))%R) by (intros m; rewrite S_INR, Rmult_plus_distr_l, Rmult_1_r, cos_plus, S0; ring).
      assert (Lin : forall m, (RtoC (cos (th * INR m)) * a m u = a 0%nat u + RtoC (INR m) * (RtoC (cos th) * a 1%nat u - a 0%nat u))%C /\ (RtoC (cos (th * INR (S m))) * a (S m) u = a 0%nat u + RtoC (INR (S m)) * (RtoC (cos th) * a 1%nat u - a 0%nat u))%C).
      { assert (Csq : (cos th * cos th = 1)%R) by (destruct Cc as [-> | ->]; ring). induction m as [|m [I1 I2]].
        - cbn [INR]. rewrite Rmult_0_r, Rmult_1_r, cos_0. change (RtoC 0) with C0. change (RtoC 1) with C1. split; ring.
        - split; [exact I2|]. rewrite (Hrec m u Du). rewrite (Sm1 (S m)). 
          transitivity (RtoC (2 * (cos th * cos th)) * (RtoC (cos (th * INR (S m))) * a (S m) u) - RtoC (cos th * cos th) * (RtoC (cos (th * INR m)) * a m u))%C; [rewrite (Sm1 m); apply C_eq; cbn; ring|].
          rewrite I1, I2, Csq, !S_INR. apply C_eq; cbn; ring. }
      assert (D1 : (RtoC (cos th) * a 1%nat u - a 0%nat u)%C = C0).
      { destruct (Lin n) as [E _]. rewrite (Hper u) in E. assert (Cn : cos (th * INR n) = 1%R) by exact (f_equal fst Hth). rewrite Cn in E. change (RtoC 1) with C1 in E.
        set (d := (RtoC (cos th) * a 1%nat u - a 0%nat u)%C) in *. assert (E' : (RtoC (INR n) * d)%C = C0) by (transitivity ((a 0%nat u + RtoC (INR n) * d) - a 0%nat u)%C; [ring|rewrite <- E; ring]).
        apply (C_integral _ _ E'). intros E1. apply (f_equal fst) in E1. cbn in E1. assert (INR n <> 0)%R by (apply not_0_INR; lia). contradiction. }
      transitivity (Csum zs (fun _ => v u)).
      + apply Csum_ext. intros r Hr. apply (zs_in n Hn) in Hr. replace r with (Z.of_nat (Z.to_nat r)) by lia. set (m := Z.to_nat r). unfold P_block1d2.cp. rewrite <- INR_IZR_INZ. fold (a m u). rewrite (proj1 (Lin m)), D1, (H00 u Du). ring.
      + rewrite (Csum_c n). unfold nu. destruct (Req_EM_T _ _) as [|N]; [rewrite Rmult_1_r; reflexivity|]. destruct N. rewrite cos_2a_sin, S0. ring.
    - assert (Gn : generic th) by (apply gen_cos; rewrite cos_2a_sin; intros E; apply NS; assert (Q : (sin th * sin th = 0)%R) by lra; destruct (Rmult_integral _ _ Q); assumption).
      assert (E : (RtoC (sin th) * Csum zs (fun r => cp r * Av r h0 v u))%C = (RtoC (sin th) * (RtoC (INR n * nu th) * v u))%C).
      { rewrite <- Csum_mul_l. transitivity (Csum zs (fun r => Cconj (cp r) * cm (0 + sg false r) * a 1%nat u + (- (Cconj (cp r) * cm (-1 + sg false r))) * v u)%C).
        - apply Csum_ext. intros r Hr. apply (zs_in n Hn) in Hr. replace r with (Z.of_nat (Z.to_nat r)) by lia. set (m := Z.to_nat r). fold (a m u).
          transitivity (cp (Z.of_nat m) * (RtoC (sin th) * a m u))%C; [ring|]. rewrite (Hsol u Du m), (H00 u Du). unfold P_block1d2.cp, P_block1d2.cm. rewrite Cconj_RtoC. cbn [sg]. rewrite !plus_IZR, <- INR_IZR_INZ. replace (th * (0 + INR m))%R with (th * INR m)%R by ring. replace (th * (-1 + INR m))%R with (th * INR m - th)%R by ring. ring.
        - rewrite Csum_add, !Csum_mul_r. pose proof (K_pm n th Hn Hth false 0 Gn) as K0. pose proof (K_pm n th Hn Hth false (-1) Gn) as K1. unfold K in K0, K1.
          rewrite K0. transitivity (RtoC (INR n * / 2 * sin (th * 0)) * a 1%nat u + - (Csum zs (fun r => Cconj (cp r) * cm (-1 + sg false r))%C) * v u)%C.
          + f_equal. f_equal. transitivity (Csum zs (fun r => (- C1) * (Cconj (cp r) * cm (-1 + sg false r)))%C); [apply Csum_ext; intros; ring|]. rewrite Csum_mul_l. ring.
          + rewrite K1, Rmult_0_r, sin_0, (nu_gen th Gn). replace (th * -1)%R with (- th)%R by ring. rewrite sin_neg. apply C_eq; cbn; ring. }
      assert (Nz : RtoC (sin th) <> C0) by (intros Q; apply NS; exact (f_equal fst Q)).
      set (x := Csum zs (fun r => cp r * Av r h0 v u)%C) in *. set (y := (RtoC (INR n * nu th) * v u)%C) in *.
      assert (Q : (x - y)%C = C0) by (apply (C_integral (RtoC (sin th)) (x - y)%C); [transitivity (RtoC (sin th) * x - RtoC (sin th) * y)%C; [ring|rewrite E; ring]|exact Nz]). transitivity (x - y + y)%C; [ring|rewrite Q; ring]. }
  rewrite V_sum. rewrite Csum_swap. transitivity (Csum Hs (fun h => ch h * Av 0 h (fun u => Csum zs (fun r => cp r * Av r h0 v u)%C) t)%C).
  - apply Csum_ext. intros h Hh. rewrite Av_sum, <- Csum_mul_l. apply Csum_ext. intros r _. rewrite Av_scal, (Av_split r h v t Hh). ring.
  - transitivity (Csum Hs (fun h => C1 * (RtoC (INR n * nu th) * v t))%C).
    + apply Csum_ext. intros h Hh. rewrite (Av_ext 0 h _ (fun u => RtoC (INR n * nu th) * v u)%C t) by exact Key. rewrite Av_scal, (Hsym h Hh t Dt). transitivity (ch h * ch h * (RtoC (INR n * nu th) * v t))%C; [ring|]. rewrite (ch2 n M Hs eps chi X G GR h Hh). reflexivity.
    + rewrite Csum_mul_r, Csum_const, !RtoC_mul. ring.
Qed.
End Proj.
(* block vectors have the eigenvalues *)
Lemma Av_V r' h' c s t : In h' Hs -> D s -> Av r' h' (V c s) t = Csum zs (fun r => Csum Hs (fun h => c r * ch h * U (r + sg (eps h) r') (hx h h') s t)%C).
Proof.
  intros Hh' Ds. unfold P_block1d.V. rewrite Av_sum. apply Csum_ext. intros r _. rewrite Av_sum. apply Csum_ext. intros h Hh. rewrite Av_scal. f_equal. apply U_comp; assumption.
Qed.
Lemma V_sym c s h' t : In h' Hs -> D s -> Av 0 h' (V c s) t = (ch h' * V c s t)%C.
Proof.
  intros Hh' Ds. rewrite (Av_V 0 h' c s t Hh' Ds). unfold P_block1d.V. rewrite <- Csum_mul_l. apply Csum_ext. intros r _. rewrite <- Csum_mul_l. rewrite <- (reindex_h n M Hs eps chi X G GR h' (fun h => ch h' * (c r * ch h * U r h s t))%C Hh').
  apply Csum_ext. intros h Hh. replace (r + sg (eps h) 0)%Z with r by (destruct (eps h); cbn [sg]; lia). rewrite (hx_comm h h'). unfold P_block1d.ch. rewrite (g_Ch _ _ _ _ _ _ _ GR h' h Hh' Hh), RtoC_mul.
  transitivity ((RtoC (chi h') * RtoC (chi h')) * (c r * RtoC (chi h) * U r (hx h' h) s t))%C; [|ring]. rewrite <- RtoC_mul, (g_C2 _ _ _ _ _ _ _ GR h' Hh'). change (RtoC 1) with C1. ring.
Qed.
Lemma shift_sum c e x s t h : periodic n c -> In h Hs -> D s -> Csum zs (fun r => c r * U (r + sg e x) h s t)%C = Csum zs (fun r => c (r - sg e x)%Z * U r h s t)%C.
Proof.
  intros Pc Hh Ds. rewrite <- (reindex_sg n Hn false (sg e x) (fun r => c (r - sg e x)%Z * U r h s t)%C).
  - apply Csum_ext. intros r _. cbn [sg]. f_equal; [f_equal; lia|f_equal; lia].
  - intros r. rewrite (U_per n M Hs eps chi X G GR h s t Hh Ds r). f_equal. replace (r + Z.of_nat n - sg e x)%Z with (r - sg e x + Z.of_nat n)%Z by lia. apply Pc.
Qed.
Lemma V_T_ab s t : (forall h, In h Hs -> eps h = false) -> D s -> Av 1 h0 (V cab s) t = (cis th * V cab s t)%C.
Proof.
  intros He Ds. rewrite (Av_V 1 h0 cab s t H0 Ds). unfold P_block1d.V. rewrite Csum_swap, (Csum_swap zs Hs), <- Csum_mul_l. apply Csum_ext. intros h Hh. rewrite hx_0r, (He h Hh).
  transitivity (ch h * Csum zs (fun r => cab r * U (r + sg false 1) h s t)%C)%C; [rewrite <- Csum_mul_l; apply Csum_ext; intros; cbn [sg]; ring|].
  rewrite (shift_sum cab false 1 s t h (cab_per n th Hth) Hh Ds). rewrite <- !Csum_mul_l. apply Csum_ext. intros r _. cbn [sg]. unfold P_block1d2.cab. rewrite minus_IZR. replace (- (th * (IZR r - 1)))%R with (th + - (th * IZR r))%R by ring. rewrite cis_add. ring.
Qed.
Lemma V_T_semi c s t : periodic n c -> (forall r, (c (r - 1)%Z + c (r + 1)%Z)%C = (RtoC (2 * cos th) * c r)%C) -> D s -> (Av 1 h0 (Av 1 h0 (V c s)) t + V c s t)%C = (RtoC (2 * cos th) * Av 1 h0 (V c s) t)%C.
Proof.
  intros Pc Hc Ds. rewrite Av_h0. rewrite !(Av_V _ h0 c s t H0 Ds). unfold P_block1d.V. rewrite (Csum_swap zs Hs), (Csum_swap zs Hs (fun r h => c r * ch h * U r h s t)%C), (Csum_swap zs Hs (fun r h => c r * ch h * U (r + sg (eps h) 1) (hx h h0) s t)%C).
  rewrite <- Csum_add, <- Csum_mul_l. apply Csum_ext. intros h Hh. rewrite hx_0r. set (e := eps h).
  assert (E1 : Csum zs (fun r => c r * ch h * U (r + sg e (1 + 1)) h s t)%C = (ch h * Csum zs (fun r => c (r - sg e 1)%Z * U (r + sg e 1) h s t))%C).
  { rewrite <- (reindex_sg n Hn false (sg e 1) (fun r => c (r - sg e 1)%Z * U (r + sg e 1) h s t)%C).
    - rewrite <- Csum_mul_l. apply Csum_ext. intros r _. cbn [sg]. replace (sg e 1 + r - sg e 1)%Z with r by lia. replace (sg e 1 + r + sg e 1)%Z with (r + sg e (1 + 1))%Z by (destruct e; cbn [sg]; lia). ring.
    - intros r. replace (r + Z.of_nat n + sg e 1)%Z with (r + sg e 1 + Z.of_nat n)%Z by lia. rewrite (U_per n M Hs eps chi X G GR h s t Hh Ds (r + sg e 1)%Z). f_equal. replace (r + Z.of_nat n - sg e 1)%Z with (r - sg e 1 + Z.of_nat n)%Z by lia. apply Pc. }
  assert (E2 : Csum zs (fun r => c r * ch h * U r h s t)%C = (ch h * Csum zs (fun r => c (r + sg e 1)%Z * U (r + sg e 1) h s t))%C).
  { rewrite <- (reindex_sg n Hn false (sg e 1) (fun r => c r * ch h * U r h s t)%C).
    - rewrite <- Csum_mul_l. apply Csum_ext. intros r _. cbn [sg]. rewrite (Z.add_comm (sg e 1) r). ring.
    - intros r. rewrite (U_per n M Hs eps chi X G GR h s t Hh Ds r). rewrite Pc. reflexivity. }
  rewrite E1, E2, <- !Csum_mul_l, <- Csum_add. apply Csum_ext. intros r _. transitivity (ch h * ((c (r - sg e 1)%Z + c (r + sg e 1)%Z) * U (r + sg e 1) h s t))%C; [ring|].
  assert (E3 : (c (r - sg e 1)%Z + c (r + sg e 1)%Z)%C = (RtoC (2 * cos th) * c r)%C).
  { rewrite <- Hc. destruct e; [|reflexivity]. change (sg true 1) with (-1)%Z. replace (r - -1)%Z with (r + 1)%Z by lia. replace (r + -1)%Z with (r - 1)%Z by lia. set (a := c (r + 1)%Z). set (b := c (r - 1)%Z). apply C_eq; cbn; ring. }
  rewrite E3. ring.
Qed.
Lemma cp_rec r : (cp (r - 1)%Z + cp (r + 1)%Z)%C = (RtoC (2 * cos th) * cp r)%C.
Proof. unfold P_block1d2.cp. rewrite minus_IZR, plus_IZR, Rmult_minus_distr_l, Rmult_plus_distr_l, Rmult_1_r, cos_minus, cos_plus. apply C_eq; cbn; ring. Qed.
Lemma cm_rec r : (cm (r - 1)%Z + cm (r + 1)%Z)%C = (RtoC (2 * cos th) * cm r)%C.
Proof. unfold P_block1d2.cm. rewrite minus_IZR, plus_IZR, Rmult_minus_distr_l, Rmult_plus_distr_l, Rmult_1_r, sin_minus, sin_plus. apply C_eq; cbn; ring. Qed.
End Abs.
