(* Block vectors with momentum coefficients: images under the group, overlaps. *)
From Verif Require Import AuxN SpecC SpecOps P_block1d P_block1d2.
Local Open Scope nat_scope.

Lemma Cmul_assoc (a b c : C) : (a * (b * c))%C = (a * b * c)%C. Proof. ring. Qed.
Section B.
Variables (n M : nat) (th : R).
Hypothesis Hth : cis (th * INR n) = C1.
Notation nz := (Z.of_nat n).
Notation zs := (zs n).
Notation D := (fun s : N => (s < N.of_nat M)%N).
Variables (Hs : list head) (eps : head -> bool) (chi : head -> R).
Variables (X : Z -> head -> N -> N) (G : Z -> head -> N -> Z).
Hypothesis GR : grp n M Hs eps chi X G.
Let Hn := g_Hn _ _ _ _ _ _ _ GR.
Let Hnd := g_Hnd _ _ _ _ _ _ _ GR.
Let H0 := g_H0 _ _ _ _ _ _ _ GR.
Let Hcl := g_Hcl _ _ _ _ _ _ _ GR.
Let Eh := g_Eh _ _ _ _ _ _ _ GR.
Let Ch := g_Ch _ _ _ _ _ _ _ GR.
Let C2 := g_C2 _ _ _ _ _ _ _ GR.
Let XD := g_XD _ _ _ _ _ _ _ GR.
Let Xn := g_Xn _ _ _ _ _ _ _ GR.
Let Gn := g_Gn _ _ _ _ _ _ _ GR.
Let X0 := g_X0 _ _ _ _ _ _ _ GR.
Let Xm := g_Xm _ _ _ _ _ _ _ GR.
Let Gm := g_Gm _ _ _ _ _ _ _ GR.
Let Gu := g_Gu _ _ _ _ _ _ _ GR.
Notation V := (V n Hs chi X G).
Notation U := (U X G).
Notation Gc := (Gc G).
Notation ch := (ch chi).
Notation cab := (cab th).
Notation cp := (cp th).
Notation cm := (cm th).
Notation dotv := (dotv M).
Lemma e0' : eps h0 = false. Proof. exact (e0 _ _ _ _ _ _ _ GR). Qed.
Lemma Gc2' r h s : In h Hs -> D s -> (Gc r h s * Gc r h s)%C = C1. Proof. apply (Gc2 _ _ _ _ _ _ _ GR). Qed.
Lemma V_ext c c' s t : (forall r, c r = c' r) -> V c s t = V c' s t.
Proof. intros E. unfold P_block1d.V. apply Csum_ext. intros r _. apply Csum_ext. intros h _. rewrite E. reflexivity. Qed.
Lemma V_lin a b c c' s t : V (fun r => a * c r + b * c' r)%C s t = (a * V c s t + b * V c' s t)%C.
Proof.
  unfold P_block1d.V. rewrite <- !Csum_mul_l, <- Csum_add. apply Csum_ext. intros r _. rewrite <- !Csum_mul_l, <- Csum_add. apply Csum_ext. intros h _. ring.
Qed.
Lemma V_scal a c s t : V (fun r => a * c r)%C s t = (a * V c s t)%C.
Proof. rewrite (V_ext _ (fun r => a * c r + C0 * c r)%C) by (intros; ring). rewrite V_lin. ring. Qed.
(* the state from which l translations after h lead to b *)
Definition back (l : Z) (h : head) (s b : N) : Prop := D s /\ D b /\ In h Hs /\ b = X (sg (eps h) l) h s.
Lemma back_eq l h s b : back l h s b -> s = X (- l)%Z h b /\ Gc (- l)%Z h b = Gc (sg (eps h) l) h s.
Proof.
  intros (Ds & Db & Hh & ->). split.
  - rewrite Xm by assumption. rewrite hx_self. replace (sg (eps h) l + sg (eps h) (- l))%Z with 0%Z by (destruct (eps h); cbn [sg]; lia). symmetry. apply X0, Ds.
  - pose proof (Gm (sg (eps h) l) h (- l) h s Hh Hh Ds) as E. rewrite hx_self in E. replace (sg (eps h) l + sg (eps h) (- l))%Z with 0%Z in E by (destruct (eps h); cbn [sg]; lia).
    rewrite (G0 _ _ _ _ _ _ _ GR s Ds) in E. unfold P_block1d.Gc. pose proof (Gu (sg (eps h) l) h s Hh Ds) as U1. do 2 f_equal.
    transitivity (G (sg (eps h) l) h s * G (sg (eps h) l) h s * G (- l) h (X (sg (eps h) l) h s))%Z; [rewrite U1; ring|]. rewrite <- Z.mul_assoc, E. ring.
Qed.
Lemma V_back c l h s b t : periodic n c -> back l h s b -> V c s t = (Gc (sg (eps h) l) h s * ch h * V (fun r => c (sg (eps h) (r + l))) b t)%C.
Proof.
  intros P B. destruct (back_eq _ _ _ _ B) as [E1 E2]. destruct B as (Ds & Db & Hh & Eb). rewrite <- E2. rewrite E1 at 1.
  rewrite (V_move _ _ _ _ _ _ _ GR c (- l)%Z h b t P Hh Db). f_equal. apply V_ext. intros r. do 2 f_equal. lia.
Qed.
Lemma V_back_ab l h s b t : eps h = false -> back l h s b -> V cab s t = (Gc (sg (eps h) l) h s * ch h * cab l * V cab b t)%C.
Proof.
  intros E B. rewrite (V_back cab l h s b t (cab_per n th Hth) B). rewrite (V_ext _ (fun r => cab l * cab r)%C b t); [rewrite V_scal; ring|].
  intros r. rewrite E. cbn [sg]. unfold P_block1d2.cab. rewrite <- cis_add. f_equal. rewrite plus_IZR. ring.
Qed.
Lemma V_back_p l h s b t : back l h s b -> V cp s t = (Gc (sg (eps h) l) h s * ch h * (cp l * V cp b t - cm l * V cm b t))%C.
Proof.
  intros B. rewrite (V_back cp l h s b t (cp_per n th Hth) B). f_equal. transitivity (V (fun r => cp l * cp r + (- cm l) * cm r)%C b t); [|rewrite V_lin; ring].
  apply V_ext. intros r. unfold P_block1d2.cp, P_block1d2.cm. rewrite <- RtoC_opp, <- !RtoC_mul, <- RtoC_add. f_equal.
  destruct (eps h); cbn [sg]; rewrite ?opp_IZR, plus_IZR, ?Ropp_mult_distr_r_reverse, ?cos_neg, Rmult_plus_distr_l, cos_plus; ring.
Qed.
Lemma V_back_m l h s b t : back l h s b -> V cm s t = (Gc (sg (eps h) l) h s * ch h * RtoC (if eps h then -1 else 1) * (cp l * V cm b t + cm l * V cp b t))%C.
Proof.
  intros B. rewrite (V_back cm l h s b t (cm_per n th Hth) B). rewrite <- (Cmul_assoc _ (RtoC _)). f_equal. transitivity (V (fun r => RtoC (if eps h then -1 else 1) * cp l * cm r + RtoC (if eps h then -1 else 1) * cm l * cp r)%C b t); [|rewrite V_lin; ring].
  apply V_ext. intros r. unfold P_block1d2.cp, P_block1d2.cm. rewrite <- !RtoC_mul, <- RtoC_add. f_equal.
  destruct (eps h); cbn [sg]; rewrite ?opp_IZR, plus_IZR, ?Ropp_mult_distr_r_reverse, ?sin_neg, Rmult_plus_distr_l, sin_plus; ring.
Qed.

(* returns to a state whose translations are compatible with the momentum *)
Variable s : N.
Hypothesis Ds : D s.
Hypothesis Tc : forall x, X x h0 s = s -> (Gc x h0 s * cis (th * IZR x))%C = C1.
Definition Ac : C := Csum zs (fun x => if (X x h0 s =? s)%N then C1 else C0).
Lemma Tc_cis x : X x h0 s = s -> cis (th * IZR x) = Gc x h0 s.
Proof. intros E. transitivity (Gc x h0 s * Gc x h0 s * cis (th * IZR x))%C; [rewrite Gc2' by assumption; ring|]. rewrite <- Cmul_assoc, (Tc x E). ring. Qed.
Lemma Tc_cos x : X x h0 s = s -> RtoC (cos (th * IZR x)) = Gc x h0 s.
Proof. intros E. apply Tc_cis in E. unfold P_block1d.Gc in *. apply (f_equal fst) in E. cbn in E. rewrite E. reflexivity. Qed.
Lemma Tc_sin x : X x h0 s = s -> sin (th * IZR x) = 0%R.
Proof. intros E. apply Tc_cis in E. unfold P_block1d.Gc in *. apply (f_equal snd) in E. cbn in E. exact E. Qed.
Lemma ret_sum g x0 phi : In g Hs -> X x0 g s = s -> periodic n phi -> Csum zs (fun x => U x g s s * phi x)%C = (Gc x0 g s * Csum zs (fun x => U x h0 s s * phi (x + x0)%Z))%C.
Proof.
  intros Hg E P. rewrite <- (reindex_sg n Hn false x0 (fun x => U x g s s * phi x)%C).
  2:{ intros x. cbv beta. rewrite (P x), (U_per _ _ _ _ _ _ _ GR g s s Hg Ds x). reflexivity. }
  rewrite <- Csum_mul_l. apply Csum_ext. intros x _. cbn [sg]. rewrite (Z.add_comm x0 x).
  unfold P_block1d.U. pose proof (Xm x h0 x0 g s H0 Hg Ds) as Ex. rewrite e0', hx_0 in Ex. cbn [sg] in Ex. rewrite <- Ex.
  unfold P_block1d.Gc at 1. pose proof (Gm x h0 x0 g s H0 Hg Ds) as Eg. rewrite e0', hx_0 in Eg. cbn [sg] in Eg. rewrite <- Eg. rewrite mult_IZR, RtoC_mul.
  destruct (N.eqb_spec (X x h0 s) s) as [Es|Ns].
  - rewrite Es, E, N.eqb_refl. unfold P_block1d.Gc. ring.
  - destruct (N.eqb_spec (X x0 g (X x h0 s)) s) as [E2|]; [|ring]. exfalso. apply Ns. apply (X_inj _ _ _ _ _ _ _ GR x0 g); try assumption; [apply XD; assumption|congruence].
Qed.
Lemma ret_ab g x0 : In g Hs -> X x0 g s = s -> Csum zs (fun x => U x g s s * cab x)%C = (Gc x0 g s * cab x0 * Ac)%C.
Proof.
  intros Hg E. rewrite (ret_sum g x0 cab Hg E (cab_per n th Hth)). rewrite <- Cmul_assoc. f_equal. unfold Ac. rewrite <- Csum_mul_l. apply Csum_ext. intros x _.
  unfold P_block1d.U. destruct (N.eqb_spec (X x h0 s) s) as [Es|]; [|ring]. unfold P_block1d2.cab. rewrite plus_IZR, Rmult_plus_distr_l, Ropp_plus_distr, cis_add, <- (cis_conj (th * IZR x)), (Tc_cis x Es).
  unfold P_block1d.Gc. rewrite Cconj_RtoC. fold (Gc x h0 s). rewrite Cmul_assoc, Gc2' by assumption. ring.
Qed.
Lemma ret_p g x0 : In g Hs -> X x0 g s = s -> Csum zs (fun x => U x g s s * cp x)%C = (Gc x0 g s * cp x0 * Ac)%C.
Proof.
  intros Hg E. rewrite (ret_sum g x0 cp Hg E (cp_per n th Hth)). rewrite <- Cmul_assoc. f_equal. unfold Ac. rewrite <- Csum_mul_l. apply Csum_ext. intros x _.
  unfold P_block1d.U. destruct (N.eqb_spec (X x h0 s) s) as [Es|]; [|ring]. unfold P_block1d2.cp. rewrite plus_IZR, Rmult_plus_distr_l, cos_plus, (Tc_sin x Es), Rmult_0_l, Rminus_0_r, RtoC_mul, (Tc_cos x Es).
  rewrite Cmul_assoc, Gc2' by assumption. ring.
Qed.
Lemma ret_m g x0 : In g Hs -> X x0 g s = s -> Csum zs (fun x => U x g s s * cm x)%C = (Gc x0 g s * cm x0 * Ac)%C.
Proof.
  intros Hg E. rewrite (ret_sum g x0 cm Hg E (cm_per n th Hth)). rewrite <- Cmul_assoc. f_equal. unfold Ac. rewrite <- Csum_mul_l. apply Csum_ext. intros x _.
  unfold P_block1d.U. destruct (N.eqb_spec (X x h0 s) s) as [Es|]; [|ring]. unfold P_block1d2.cm. rewrite plus_IZR, Rmult_plus_distr_l, sin_plus, (Tc_sin x Es), Rmult_0_l, Rplus_0_l, RtoC_mul, (Tc_cos x Es).
  rewrite Cmul_assoc, Gc2' by assumption. ring.
Qed.
Lemma no_ret g phi : (forall x, X x g s <> s) -> Csum zs (fun x => U x g s s * phi x)%C = C0.
Proof. intros E. apply Csum_zero. intros x _. unfold P_block1d.U. destruct (N.eqb_spec (X x g s) s) as [Es|]; [destruct (E x Es)|ring]. Qed.
(* the contribution of one element, for a coefficient function c *)
Definition rho (c : Z -> C) (g : head) (v : C) : Prop := (exists x0, X x0 g s = s /\ v = (Gc x0 g s * c x0)%C) \/ ((forall x, X x g s <> s) /\ v = C0).
Lemma rho_ab g v : In g Hs -> rho cab g v -> Csum zs (fun x => U x g s s * cab x)%C = (v * Ac)%C.
Proof. intros Hg [(x0 & E & ->)|[E ->]]; [apply ret_ab; assumption|rewrite no_ret by exact E; ring]. Qed.
Lemma rho_p g v : In g Hs -> rho cp g v -> Csum zs (fun x => U x g s s * cp x)%C = (v * Ac)%C.
Proof. intros Hg [(x0 & E & ->)|[E ->]]; [apply ret_p; assumption|rewrite no_ret by exact E; ring]. Qed.
Lemma rho_m g v : In g Hs -> rho cm g v -> Csum zs (fun x => U x g s s * cm x)%C = (v * Ac)%C.
Proof. intros Hg [(x0 & E & ->)|[E ->]]; [apply ret_m; assumption|rewrite no_ret by exact E; ring]. Qed.
Definition LH : C := RtoC (INR (length Hs)).
Lemma dot_ab v : (forall g, In g Hs -> eps g = false) -> (forall g, In g Hs -> rho cab g (v g)) -> dotv (V cab s) (V cab s) = (LH * RtoC (INR n) * Ac * Csum Hs (fun g => ch g * v g))%C.
Proof.
  intros He Hv. rewrite (dot_VV _ _ _ _ _ _ _ GR cab cab s s (cab_per n th Hth) Ds Ds). unfold LH. rewrite <- !Cmul_assoc. f_equal.
  rewrite Cmul_assoc, <- Csum_mul_l. apply Csum_ext. intros g Hg. rewrite (He g Hg).
  transitivity (RtoC (INR n) * ch g * Csum zs (fun x => U x g s s * cab x))%C; [|rewrite (rho_ab g (v g) Hg (Hv g Hg)); ring].
  rewrite <- Csum_mul_l. apply Csum_ext. intros x _. rewrite (K_ab n th). ring.
Qed.
Lemma dot_pp v : (forall g, In g Hs -> rho cp g (v g)) -> dotv (V cp s) (V cp s) = (LH * RtoC (INR n * nu th) * Ac * Csum Hs (fun g => ch g * v g))%C.
Proof.
  intros Hv. rewrite (dot_VV _ _ _ _ _ _ _ GR cp cp s s (cp_per n th Hth) Ds Ds). unfold LH. rewrite <- !Cmul_assoc. f_equal.
  rewrite Cmul_assoc, <- Csum_mul_l. apply Csum_ext. intros g Hg.
  transitivity (RtoC (INR n * nu th) * ch g * Csum zs (fun x => U x g s s * cp x))%C; [|rewrite (rho_p g (v g) Hg (Hv g Hg)); ring].
  rewrite <- Csum_mul_l. apply Csum_ext. intros x _. rewrite (K_pp n th Hn Hth), (RtoC_mul (INR n * nu th)). unfold P_block1d2.cp. ring.
Qed.
Lemma dot_mm v : generic th -> (forall g, In g Hs -> rho cp g (v g)) -> dotv (V cm s) (V cm s) = (LH * RtoC (INR n * nu th) * Ac * Csum Hs (fun g => ch g * RtoC (if eps g then -1 else 1) * v g))%C.
Proof.
  intros Hg0 Hv. rewrite (nu_gen th Hg0). rewrite (dot_VV _ _ _ _ _ _ _ GR cm cm s s (cm_per n th Hth) Ds Ds). unfold LH. rewrite <- !Cmul_assoc. f_equal.
  rewrite Cmul_assoc, <- Csum_mul_l. apply Csum_ext. intros g Hg.
  transitivity (RtoC (INR n * / 2) * RtoC (if eps g then -1 else 1) * ch g * Csum zs (fun x => U x g s s * cp x))%C; [|rewrite (rho_p g (v g) Hg (Hv g Hg)); ring].
  rewrite <- Csum_mul_l. apply Csum_ext. intros x _. rewrite (K_mm n th Hn Hth) by exact Hg0. rewrite (RtoC_mul (INR n * / 2 * _)), (RtoC_mul (INR n * / 2)). unfold P_block1d2.cp. ring.
Qed.
Lemma dot_pm v : generic th -> (forall g, In g Hs -> rho cm g (v g)) -> dotv (V cp s) (V cm s) = (LH * RtoC (INR n * nu th) * Ac * Csum Hs (fun g => ch g * v g))%C.
Proof.
  intros Hg0 Hv. rewrite (nu_gen th Hg0). rewrite (dot_VV _ _ _ _ _ _ _ GR cp cm s s (cm_per n th Hth) Ds Ds). unfold LH. rewrite <- !Cmul_assoc. f_equal.
  rewrite Cmul_assoc, <- Csum_mul_l. apply Csum_ext. intros g Hg.
  transitivity (RtoC (INR n * / 2) * ch g * Csum zs (fun x => U x g s s * cm x))%C; [|rewrite (rho_m g (v g) Hg (Hv g Hg)); ring].
  rewrite <- Csum_mul_l. apply Csum_ext. intros x _. rewrite (K_pm n th Hn Hth) by exact Hg0. rewrite (RtoC_mul (INR n * / 2)). unfold P_block1d2.cm. ring.
Qed.
(* the number of translations that return: n over the period *)
Lemma Ac_period R : 1 <= R -> X (Z.of_nat R) h0 s = s -> (forall j, 1 <= j < R -> X (Z.of_nat j) h0 s <> s) -> (Ac * RtoC (INR R))%C = RtoC (INR n).
Proof.
  intros HR Er Mn.
  assert (T1 : forall x y, X x h0 s = s -> X (x + y) h0 s = X y h0 s).
  { intros x y E. pose proof (Xm x h0 y h0 s H0 H0 Ds) as Ex. rewrite e0', hx_0, E in Ex. cbn [sg] in Ex. symmetry. exact Ex. }
  assert (T2 : forall q, X (Z.of_nat (q * R)) h0 s = s).
  { induction q as [|q IH]; [apply X0, Ds|]. replace (Z.of_nat (S q * R)) with (Z.of_nat R + Z.of_nat (q * R))%Z by lia. rewrite T1 by exact Er. exact IH. }
  assert (T3 : forall x, X (Z.of_nat x) h0 s = s <-> x mod R = 0).
  { intros x. pose proof (Nat.div_mod x R ltac:(lia)) as E. pose proof (Nat.mod_upper_bound x R ltac:(lia)) as Hb.
    assert (Ex : X (Z.of_nat x) h0 s = X (Z.of_nat (x mod R)) h0 s).
    { transitivity (X (Z.of_nat (x / R * R) + Z.of_nat (x mod R)) h0 s); [f_equal; lia|]. apply T1, T2. }
    rewrite Ex. split; [|intros ->; apply X0, Ds]. intros E0. destruct (Nat.eq_dec (x mod R) 0) as [|Nz]; [assumption|]. exfalso. apply (Mn (x mod R)); [lia|exact E0]. }
  assert (Hdiv : n mod R = 0).
  { apply T3. transitivity (X (0 + nz) h0 s); [reflexivity|]. rewrite Xn by assumption. apply X0, Ds. }
  assert (Cnt : forall q, Csum (seq 0 (q * R)) (fun x => if x mod R =? 0 then C1 else C0) = RtoC (INR q)).
  { induction q as [|q IH]; [reflexivity|]. replace (S q * R) with (q * R + R) by lia. rewrite seq_app, Csum_app, IH, Nat.add_0_l.
    rewrite (Csum_single (seq (q * R) R) _ (q * R) (seq_NoDup _ _)).
    - rewrite Nat.mod_mul by lia. rewrite Nat.eqb_refl, S_INR, RtoC_add. reflexivity.
    - apply in_seq. lia.
    - intros x Hx Nx. apply in_seq in Hx. destruct (Nat.eqb_spec (x mod R) 0) as [E|]; [|reflexivity]. exfalso. apply Nx. pose proof (Nat.div_mod x R ltac:(lia)). assert (x / R = q) by (apply Nat.le_antisymm; [|nia]; assert (x / R < S q) by nia; lia). nia. }
  unfold Ac, P_block1d.zs. rewrite Csum_map. rewrite (Csum_ext _ _ (fun x => if x mod R =? 0 then C1 else C0)).
  - pose proof (Nat.div_mod n R ltac:(lia)) as E. rewrite Hdiv, Nat.add_0_r in E. replace n with (n / R * R) at 1 by lia. rewrite Cnt, <- RtoC_mul, <- mult_INR. do 2 f_equal. lia.
  - intros x _. destruct (N.eqb_spec (X (Z.of_nat x) h0 s) s) as [Ex|Nx]; destruct (Nat.eqb_spec (x mod R) 0) as [Em|Nm]; try reflexivity; exfalso; [apply Nm, T3, Ex|apply Nx, T3, Em].
Qed.
End B.
