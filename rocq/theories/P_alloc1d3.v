(* The entries of a translation block lie in different orbits of the translations. *)
From Verif Require Import AuxN SpecC SpecOps SpecMaps SpecFermi SpecChain M_bits1d SpecChain1d SpecCheck1d SpecBlock1d SpecSpan1d M_check1d
  P_maps P_square P_bits1d P_bits1d4 P_bits1d5 P_check1d P_check1d2 P_check1d3 P_check1d4 P_check1d5 P_block1d P_block1d2 P_block1d3 P_block1d4
  M_ops M_symop P_symop P_photon M_op1d P_op1d P_op1d2 P_op1d3 P_op1d4 P_op1d5 P_op1d6 P_semi1d P_semi1d2 P_semi1d3 P_semi1d4 P_span1d5 P_alloc1d P_alloc1d2 C39_checks C39_reference C39_translations C52_matrix C52_complete.
From Coq Require Import Permutation.
Local Open Scope nat_scope.

Section S.
Variables (w : btype) (k : kind) (L T kb : nat) (b : block).
Hypothesis OK : block_ok w k L T b.
Hypothesis Tr : translates b = true.
Notation M := (Mst k L).
Notation two := (two_of b).
Notation tf := (translates b).
Notation n := (n_of L T b).
Notation Hs := (heads b).
Notation To := (T_of T b).
Notation X := (X w k L To two n).
Notation G := (G w k L To two n).
Notation eps := (eps two tf).
Notation V := (V n Hs (chi b) X G).
Notation cf := (cf L T kb b).
Notation dot := (dotv M).
Let GR := block_grp w k L T b OK.
(* the reflection of the block *)
Definition refl : head := match b with BT_PZ _ => (true, true) | _ => (true, false) end.
Lemma refl_in : semi b = true -> In refl Hs /\ eps refl = true. Proof. unfold refl, P_block1d4.eps. destruct b; cbn; intros E; try discriminate; auto. Qed.
Lemma re_mul (x y : R) (z : C) : (RtoC x * (RtoC y * z))%C = (RtoC (x * y) * z)%C. Proof. apply C_eq; cbn; ring. Qed.

(* both waves of one state are kept only when no reflection returns to it *)
Lemma both_free s e e' : semi b = true -> is_state k L s -> dot (V (cf 1) s) (V (cf 1) s) = RtoC e -> (0 < e)%R -> dot (V (cf (-1)) s) (V (cf (-1)) s) = RtoC e' -> (0 < e')%R ->
  dot (V (cf 1) s) (V (cf (-1)) s) = C0 -> dot (V (cf (-1)) s) (V (cf 1) s) = C0 -> forall x g, In g Hs -> eps g = true -> X x g s <> s.
Proof.
  intros Sm Hs' Epp He Emm He' Epm Emp x g Hg Eg Ex. apply M_st in Hs'.
  assert (Bk : back M Hs eps X (- x) g s s). { split; [exact Hs'|]. split; [exact Hs'|]. split; [exact Hg|]. rewrite Eg. cbn [sg]. rewrite Z.opp_involutive. symmetry. exact Ex. }
  set (kp := (Gc G (sg (eps g) (- x)) g s * ch (chi b) g)%C) in *.
  assert (Kp : exists q : R, kp = RtoC q /\ (q * q = 1)%R).
  { exists (IZR (G (sg (eps g) (- x)) g s) * chi b g)%R. split; [unfold kp, Gc, ch; symmetry; apply RtoC_mul|]. pose proof (g_Gu _ _ _ _ _ _ _ GR (sg (eps g) (- x)) g s Hg Hs') as U. pose proof (g_C2 _ _ _ _ _ _ _ GR g Hg) as C2. assert (U' : (IZR (G (sg (eps g) (- x)) g s) * IZR (G (sg (eps g) (- x)) g s) = 1)%R) by (rewrite <- mult_IZR, U; reflexivity). nra. }
  destruct Kp as (q & Eq & Q2). set (c := cosm L T kb (- x)). set (d := sinm L T kb (- x)).
  assert (Ep : forall t, V (cf 1) s t = (RtoC (q * c) * V (cf 1) s t + RtoC (- (q * d)) * V (cf (-1)) s t)%C).
  { intros t. pose proof (V_back_s w k L T kb b OK Sm 1 (- x) g s s t Bk) as E. rewrite Eg in E. cbn [Z.ltb Z.compare andb negb] in E. unfold Wl in E. cbn [Z.ltb Z.compare] in E. fold c d in E. change (sg true (- x)) with (sg true (- x))%Z in E. unfold kp in Eq. rewrite Eg in Eq. rewrite Eq in E. rewrite E at 1. rewrite (cf_pos L T kb b Sm 1), (cf_neg L T kb b Sm (-1)) by lia. apply C_eq; cbn; ring. }
  assert (Em : forall t, V (cf (-1)) s t = (RtoC (- (q * d)) * V (cf 1) s t + RtoC (- (q * c)) * V (cf (-1)) s t)%C).
  { intros t. pose proof (V_back_s w k L T kb b OK Sm (-1) (- x) g s s t Bk) as E. rewrite Eg in E. cbn [Z.ltb Z.compare andb negb] in E. unfold Wl in E. cbn [Z.ltb Z.compare] in E. fold c d in E. unfold kp in Eq. rewrite Eg in Eq. rewrite Eq in E. rewrite E at 1. rewrite (cf_pos L T kb b Sm 1), (cf_neg L T kb b Sm (-1)) by lia. apply C_eq; cbn; ring. }
  assert (D1 : dot (V (cf (-1)) s) (V (cf 1) s) = (RtoC (q * c) * dot (V (cf (-1)) s) (V (cf 1) s) + RtoC (- (q * d)) * dot (V (cf (-1)) s) (V (cf (-1)) s))%C) by (rewrite <- dot_lin2; apply dot_ext2, Ep).
  assert (D2 : dot (V (cf 1) s) (V (cf 1) s) = (RtoC (q * c) * dot (V (cf 1) s) (V (cf 1) s) + RtoC (- (q * d)) * dot (V (cf 1) s) (V (cf (-1)) s))%C) by (rewrite <- dot_lin2; apply dot_ext2, Ep).
  assert (D3 : dot (V (cf (-1)) s) (V (cf (-1)) s) = (RtoC (- (q * d)) * dot (V (cf (-1)) s) (V (cf 1) s) + RtoC (- (q * c)) * dot (V (cf (-1)) s) (V (cf (-1)) s))%C) by (rewrite <- dot_lin2; apply dot_ext2, Em).
  rewrite Epp, Epm in D2. rewrite Emm, Emp in D3. apply (f_equal fst) in D2. apply (f_equal fst) in D3. cbn in D2, D3. ring_simplify in D2. ring_simplify in D3. assert (q * c = 1)%R by (apply (Rmult_eq_reg_l e); [nra|lra]). assert (q * c = -1)%R by (apply (Rmult_eq_reg_l e'); [nra|lra]). lra.
Qed.

Variables (states : list N) (es : list entry).
Hypothesis Hst : forall s, In s states -> is_state k L s.
Hypothesis Hnd : NoDup states.
Hypothesis Hcol : collect w k L T kb b states = Some es.
Definition hd (e : entry) : head := if (semi b && (sgn (e_N e) <? 0)%Z)%bool then refl else h0.
Definition ue (e : entry) : N := X 0 (hd e) (e_s e).
Lemma hd_in e : In (hd e) Hs. Proof. unfold hd. destruct (semi b) eqn:Sm; cbn [andb]; [destruct (sgn (e_N e) <? 0)%Z; [apply (refl_in Sm)|]|]; exact (g_H0 _ _ _ _ _ _ _ GR). Qed.
Lemma e_st e : In e es -> In (e_s e) states /\ (e_s e < N.of_nat M)%N.
Proof. intros He. destruct (stored_in w k L T kb b states es OK Hst Hcol e He) as (l & I & _). split; [exact I|]. apply M_st, Hst, I. Qed.
Lemma e_max e : In e es -> forall x g, In g Hs -> (X x g (e_s e) <= e_s e)%N.
Proof.
  intros He. destruct (stored_in w k L T kb b states es OK Hst Hcol e He) as (l & I & Ek & Il). destruct (semi b) eqn:Sm.
  - destruct (keep_semi_ok w k L T kb b OK Sm _ (Hst _ I)) as (l' & E & K). rewrite Ek in E. injection E as <-. apply (proj1 (proj2 K) e Il).
  - destruct (keep_ab w k L T kb b OK Sm _ (Hst _ I)) as (l' & E & K). rewrite Ek in E. injection E as <-. apply (K e Il).
Qed.
Lemma key_nd : NoDup (map key es).
Proof.
  apply (collect_key w k L T kb b states es); [|exact Hnd|exact Hcol]. intros s l Is Ek. destruct (semi b) eqn:Sm.
  - destruct (keep_semi_ok w k L T kb b OK Sm s (Hst s Is)) as (l' & E & K). rewrite Ek in E. injection E as <-. split; [apply K|]. intros e He. apply K, He.
  - destruct (keep_ab w k L T kb b OK Sm s (Hst s Is)) as (l' & E & K). rewrite Ek in E. injection E as <-. split; [|intros e He; apply (K e He)]. destruct l as [|e l]; [constructor|]. destruct (K e (or_introl eq_refl)) as [-> _]. repeat constructor. intros [].
Qed.
Lemma same_key e e' : In e es -> In e' es -> key e = key e' -> e = e'.
Proof.
  pose proof key_nd as N. clear - N. induction es as [|a l IH]; [intros []|]. cbn [map] in N. inversion_clear N as [|? ? Ha Hl]. intros [<-|He] [<-|He'] E; auto.
  - destruct Ha. rewrite E. apply in_map, He'.
  - destruct Ha. rewrite <- E. apply in_map, He.
Qed.
(* without reflections one entry per state *)
Lemma one_entry e e' : semi b = false -> In e es -> In e' es -> e_s e = e_s e' -> e = e'.
Proof.
  intros Sm He He' E. destruct (stored_in w k L T kb b states es OK Hst Hcol e He) as (l & I & Ek & Il). destruct (stored_in w k L T kb b states es OK Hst Hcol e' He') as (l' & I' & Ek' & Il'). rewrite <- E in Ek'. assert (l' = l) by congruence. subst l'.
  destruct (keep_ab w k L T kb b OK Sm _ (Hst _ I)) as (l2 & E2 & K). assert (l2 = l) by congruence. subst l2. destruct (K e Il) as [El _]. rewrite El in Il'. destruct Il' as [<-|[]]. reflexivity.
Qed.
Lemma differ e e' : semi b = true -> In e es -> In e' es -> e_s e = e_s e' -> sgn (e_N e) <> sgn (e_N e') -> forall x g, In g Hs -> eps g = true -> X x g (e_s e) <> e_s e.
Proof.
  intros Sm He He' E Ne. destruct (stored_in w k L T kb b states es OK Hst Hcol e He) as (l & I & Ek & Il). destruct (stored_in w k L T kb b states es OK Hst Hcol e' He') as (l' & I' & Ek' & Il'). rewrite <- E in Ek'. assert (l' = l) by congruence. subst l'.
  destruct (keep_semi_ok w k L T kb b OK Sm _ (Hst _ I)) as (l2 & E2 & K1 & K2 & K3). assert (l2 = l) by congruence. subst l2.
  destruct (K2 e Il) as (_ & _ & N1 & _ & D1 & _). destruct (K2 e' Il') as (_ & _ & N2 & _ & D2 & _). pose proof (K3 e e' Il Il' Ne) as O1. pose proof (K3 e' e Il' Il (not_eq_sym Ne)) as O2. pose proof (kap0_pos w k L T kb b OK Sm) as KP.
  assert (P1 := Rmult_lt_0_compat _ _ KP N1). assert (P2 := Rmult_lt_0_compat _ _ KP N2).
  destruct (sgn_pm (e_N e)) as [S1|S1], (sgn_pm (e_N e')) as [S2|S2]; try congruence; rewrite S1, S2 in *.
  - apply (both_free (e_s e) _ _ Sm (Hst _ I) D1 P1 D2 P2 O1 O2).
  - apply (both_free (e_s e) _ _ Sm (Hst _ I) D2 P2 D1 P1 O2 O1).
Qed.
Lemma ue_orbit e e' r : In e es -> In e' es -> X r h0 (ue e) = ue e' -> e = e'.
Proof.
  intros He He' E. destruct (e_st e He) as [_ D], (e_st e' He') as [_ D']. unfold ue in E. pose proof (hd_in e) as H1. pose proof (hd_in e') as H2. pose proof (g_H0 _ _ _ _ _ _ _ GR) as H0. pose proof (g_Hcl _ _ _ _ _ _ _ GR) as Hcl.
  (* e_s e' as an image of e_s e and back *)
  assert (Go : X (- sg (eps (hd e')) 0) (hd e') (X r h0 (X 0 (hd e) (e_s e))) = e_s e') by (rewrite E; apply (inv_l n M Hs eps (chi b) X G GR); assumption).
  rewrite (g_Xm _ _ _ _ _ _ _ GR 0 (hd e) r h0 (e_s e) H1 H0 D), (g_Xm _ _ _ _ _ _ _ GR _ (hx (hd e) h0) _ (hd e') (e_s e) (Hcl _ _ H1 H0) H2 D) in Go.
  set (x := (0 + sg (eps (hd e)) r + sg (eps (hx (hd e) h0)) (- sg (eps (hd e')) 0))%Z) in Go. rewrite hx_0r in Go.
  assert (H12 : In (hx (hd e) (hd e')) Hs) by (apply Hcl; assumption).
  assert (Le1 : (e_s e' <= e_s e)%N) by (rewrite <- Go; apply (e_max e He x _ H12)).
  assert (Le2 : (e_s e <= e_s e')%N) by (rewrite <- (inv_l n M Hs eps (chi b) X G GR x _ (e_s e) H12 D) at 1; rewrite Go; apply (e_max e' He' _ _ H12)).
  assert (Es : e_s e = e_s e') by lia. destruct (semi b) eqn:Sm; [|apply (one_entry e e' Sm He He' Es)].
  destruct (Z.eq_dec (sgn (e_N e)) (sgn (e_N e'))) as [Eq|Ne]; [apply same_key; [assumption|assumption|unfold key; congruence]|]. exfalso.
  assert (Eh : hx (hd e) (hd e') = refl).
  { unfold hd. rewrite Sm. cbn [andb]. destruct (sgn_pm (e_N e)) as [S1|S1], (sgn_pm (e_N e')) as [S2|S2]; try congruence; rewrite S1, S2; cbn [Z.ltb Z.compare]; [apply hx_0|apply hx_0r]. }
  rewrite Eh in Go. rewrite <- Es in Go. destruct (refl_in Sm) as [Ir Er]. exact (differ e e' Sm He He' Es Ne x refl Ir Er Go).
Qed.

(* the sector *)
Variable Sec : list N.
Hypothesis Ssec : forall s, In s Sec -> is_state k L s.
Hypothesis NSec : NoDup Sec.
Hypothesis Sin : incl states Sec.
Hypothesis Ctr : forall s, In s Sec -> forall r, In (X r h0 s) Sec.
Hypothesis Cre : semi b = true -> forall s, In s Sec -> In (X 0 refl s) Sec.
Notation X1 := (fun r s => X r h0 s).
Lemma es_nd : NoDup es. Proof. apply (NoDup_map_inv key), key_nd. Qed.
Theorem entries_stab : n * length es <= sum Sec (stab n X1).
Proof.
  pose proof (g_H0 _ _ _ _ _ _ _ GR) as H0.
  rewrite <- (map_length ue es). apply (orbits_by_stab n X1 (fun s => (s < N.of_nat M)%N)).
  - exact (g_Hn _ _ _ _ _ _ _ GR).
  - intros r s D. exact (g_XD _ _ _ _ _ _ _ GR r h0 s H0 D).
  - intros r s D. exact (g_Xn _ _ _ _ _ _ _ GR r h0 s H0 D).
  - intros s D. exact (g_X0 _ _ _ _ _ _ _ GR s D).
  - intros r r' s D. cbv beta. rewrite (g_Xm _ _ _ _ _ _ _ GR r h0 r' h0 s H0 H0 D), (e0 n M Hs eps (chi b) X G GR), hx_0. reflexivity.
  - apply map_nodup; [|exact es_nd]. intros e e' He He' E. apply (ue_orbit e e' 0 He He'). rewrite (g_X0 _ _ _ _ _ _ _ GR); [exact E|]. unfold ue. apply (g_XD _ _ _ _ _ _ _ GR); [apply hd_in|apply (e_st e He)].
  - exact NSec.
  - intros u Hu. apply in_map_iff in Hu. destruct Hu as (e & <- & He). destruct (e_st e He) as [Is D]. assert (Iu : In (ue e) Sec).
    { unfold ue, hd. destruct (semi b) eqn:Sm; cbn [andb]; [destruct (sgn (e_N e) <? 0)%Z; [apply (Cre eq_refl), Sin, Is|]|]; apply Ctr, Sin, Is. }
    split; [apply M_st, Ssec, Iu|]. intros r. apply Ctr, Iu.
  - intros u u' r Hu Hu' E. apply in_map_iff in Hu. destruct Hu as (e & <- & He). apply in_map_iff in Hu'. destruct Hu' as (e' & <- & He'). f_equal. exact (ue_orbit e e' r He He' E).
Qed.
End S.
