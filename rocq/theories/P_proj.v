(* Symmetrised states: covariance, orthonormality, completeness, reduced matrices. *)
From Verif Require Import AuxN SpecC SpecSymm SpecSector SpecBasis SpecOps SpecProj M_symm P_symm P_norm P_symminst.
Local Open Scope nat_scope.

Lemma Cpm (z : Z) : (z = 1 \/ z = -1)%Z -> (RtoC (IZR z) * RtoC (IZR z))%C = C1.
Proof. intros [->| ->]; apply C_eq; cbn; lra. Qed.

Lemma group_len ps : length (group ps) = group_order ps.
Proof.
  induction ps as [|p ps IH]; [reflexivity|]. cbn [group group_order fold_right]. fold (group_order ps). rewrite <- IH.
  assert (H : forall l : list nat, length (flat_map (fun i => map (cons i) (group ps)) l) = length l * length (group ps)).
  { induction l as [|i l IHl]; [reflexivity|]. cbn [flat_map length]. rewrite app_length, map_length, IHl. lia. }
  rewrite H, seq_length. reflexivity.
Qed.

Section Act.
Variables (D : N -> Prop) (nt : nat) (pers : list nat) (ms : smap) (qs : list Z).
Hypothesis HG : good_maps D nt pers ms.
Notation valid := (valid nt pers).
Notation gadd := (gadd nt pers).
Notation ginv := (ginv nt pers).
Notation act := (gact ms).
Lemma act_W g s : valid g -> act g s = W ms nt g (s, 1%Z).
Proof. intros [H _]. apply (gact_W nt ms). exact H. Qed.
Lemma act_dom g s : valid g -> D s -> D (fst (act g s)).
Proof. intros Hg Hs. rewrite act_W by exact Hg. apply (W_dom D nt pers ms HG); [lia|exact Hs]. Qed.
Lemma act_sign g s : valid g -> D s -> snd (act g s) = 1%Z \/ snd (act g s) = (-1)%Z.
Proof. intros Hg Hs. rewrite act_W by exact Hg. apply (sign_pm D nt pers ms qs HG s Hs); lia. Qed.
Lemma act_gadd g h s : valid g -> valid h -> D s ->
  act (gadd g h) s = (fst (act g (fst (act h s))), snd (act h s) * snd (act g (fst (act h s))))%Z.
Proof.
  intros Hg Hh Hs. rewrite !act_W by (try assumption; apply (valid_gadd D nt pers ms HG)).
  rewrite (W_gadd D nt pers ms HG) by (try lia; exact Hs). rewrite (as_scale (W ms nt h (s, 1%Z))) at 1. rewrite W_scale. reflexivity.
Qed.
Lemma act_zero s : act (repeat 0 nt) s = (s, 1%Z).
Proof. rewrite act_W by apply (valid_zero D nt pers ms HG). apply (W_zero nt pers ms). Qed.
Lemma act_inv g s : valid g -> D s -> fst (act (ginv g) (fst (act g s))) = s.
Proof.
  intros Hg Hs. pose proof (act_gadd (ginv g) g s (valid_ginv D nt pers ms HG g) Hg Hs) as E.
  rewrite (gadd_ginv D nt pers ms HG g Hg), act_zero in E. injection E. intros _ E1. symmetry. exact E1.
Qed.
Lemma act_inj g s t : valid g -> D s -> D t -> fst (act g s) = fst (act g t) -> s = t.
Proof. intros Hg Hs Ht E. rewrite <- (act_inv g s), <- (act_inv g t) by assumption. rewrite E. reflexivity. Qed.
Lemma act_inv' g s : valid g -> D s -> fst (act g (fst (act (ginv g) s))) = s.
Proof.
  intros Hg Hs. pose proof (act_gadd g (ginv g) s Hg (valid_ginv D nt pers ms HG g) Hs) as E.
  rewrite (gadd_comm nt pers), (gadd_ginv D nt pers ms HG g Hg), act_zero in E. injection E. intros _ E1. symmetry. exact E1.
Qed.

(* ph g s: sign times exp(-i theta g) *)
Definition ph (g : list nat) (s : N) : C := (RtoC (IZR (snd (act g s))) * Cconj (cis (theta qs pers g)))%C.
Lemma ph_gadd g h s : valid g -> valid h -> D s -> ph (gadd g h) s = (ph h s * ph g (fst (act h s)))%C.
Proof.
  intros Hg Hh Hs. unfold ph. rewrite (theta_gadd D nt pers ms qs HG 0%N), act_gadd by assumption. cbn [fst snd].
  rewrite Cconj_mul, mult_IZR, RtoC_mul. ring.
Qed.
Lemma ph_norm g s : valid g -> D s -> (ph g s * Cconj (ph g s))%C = C1.
Proof.
  intros Hg Hs. unfold ph. rewrite Cconj_mul, Cconj_invol, Cconj_RtoC.
  transitivity ((RtoC (IZR (snd (act g s))) * RtoC (IZR (snd (act g s)))) * (cis (theta qs pers g) * Cconj (cis (theta qs pers g))))%C; [ring|].
  rewrite cis_norm, Cpm by (apply act_sign; assumption). ring.
Qed.
Lemma ph_norm' g s : valid g -> D s -> (Cconj (ph g s) * ph g s)%C = C1.
Proof. intros. rewrite <- (ph_norm g s) by assumption. ring. Qed.

Definition nrm (s : N) : C := RtoC (/ sqrt (INR (stabilisers pers ms s) * INR (group_order pers))).
Notation V := (symm_state pers qs ms).
Lemma V_eq s t : V s t = (nrm s * Csum (group pers) (fun g => if (fst (act g s) =? t)%N then ph g s else C0))%C.
Proof. reflexivity. Qed.
Lemma V_cov h s t : valid h -> D s -> D t -> V s (fst (act h t)) = (ph h t * V s t)%C.
Proof.
  intros Hh Hs Ht. rewrite !V_eq. rewrite <- (Csum_perm _ _ _ (group_translate D nt pers ms HG h Hh)), Csum_map.
  transitivity (nrm s * (ph h t * Csum (group pers) (fun g => if (fst (act g s) =? t)%N then ph g s else C0)))%C; [|ring]. f_equal.
  rewrite <- Csum_mul_l. apply Csum_ext. intros g Hg. apply (group_valid D nt pers ms HG) in Hg.
  rewrite act_gadd by assumption. cbn [fst].
  destruct (N.eqb_spec (fst (act g s)) t) as [E|E].
  - rewrite E, N.eqb_refl, ph_gadd, E by assumption. ring.
  - destruct (N.eqb_spec (fst (act h (fst (act g s)))) (fst (act h t))) as [E'|E']; [|ring].
    exfalso. apply E. apply (act_inj h); [assumption|apply act_dom; assumption|assumption|assumption].
Qed.
(* support *)
Lemma V_zero s t : (forall g, valid g -> fst (act g s) <> t) -> V s t = C0.
Proof.
  intros H. rewrite V_eq, Csum_zero; [ring|]. intros g Hg. apply (group_valid D nt pers ms HG) in Hg.
  destruct (N.eqb_spec (fst (act g s)) t) as [E|E]; [destruct (H g Hg E)|reflexivity].
Qed.
Lemma order_pos : 1 <= group_order pers.
Proof.
  rewrite <- (prodp_order D nt pers ms HG). apply (prodp_pos D nt pers ms HG). lia.
Qed.
Lemma stab_ge1 s : D s -> 1 <= stabilisers pers ms s.
Proof. intros Hs. apply (stab_pos D nt pers ms HG s Hs). Qed.
Lemma V_self s : D s -> compatible pers qs ms s -> V s s = (nrm s * RtoC (INR (stabilisers pers ms s)))%C.
Proof.
  intros Hs Hc. rewrite V_eq. f_equal. unfold stabilisers. rewrite <- Csum_const, Csum_filter. apply Csum_ext.
  intros g Hg. destruct (N.eqb_spec (fst (act g s)) s) as [E|E]; [|reflexivity]. unfold ph.
  apply (group_valid D nt pers ms HG) in Hg. apply (valid_elem D nt pers ms HG) in Hg. pose proof (Hc g Hg E) as H.
  apply (f_equal Cconj) in H. rewrite Cconj_mul, Cconj_RtoC in H. rewrite H. apply C_eq; cbn; lra.
Qed.
Lemma V_self0 s : D s -> ~ compatible pers qs ms s -> V s s = C0.
Proof.
  intros Hs Hc. destruct (stab_sum D nt pers ms qs HG s Hs) as [[H _]|[_ H]]; [contradiction|].
  rewrite V_eq. apply (f_equal Cconj) in H. rewrite Csum_conj in H. unfold stab in H. rewrite Csum_filter in H.
  rewrite (Csum_ext _ _ (fun x => if fixes nt ms s x then Cconj (chi nt pers ms qs s x) else C0)).
  - rewrite H. apply C_eq; cbn; ring.
  - intros g Hg. apply (group_valid D nt pers ms HG) in Hg. unfold fixes, chi, ph. rewrite <- act_W by assumption.
    destruct (_ =? s)%N; [|reflexivity]. rewrite Cconj_mul, Cconj_RtoC. reflexivity.
Qed.
Lemma classic_compat s : D s -> compatible pers qs ms s \/ ~ compatible pers qs ms s.
Proof. intros Hs. destruct (stab_sum D nt pers ms qs HG s Hs) as [[H _]|[H _]]; auto. Qed.
(* off the stabiliser: an incompatible state gives the zero vector *)
Lemma V_incompatible s t : D s -> D t -> ~ compatible pers qs ms s -> V s t = C0.
Proof.
  intros Hs Ht Hc.
  assert (Dc : (exists g, In g (group pers) /\ fst (act g s) = t) \/ forall g, In g (group pers) -> fst (act g s) <> t).
  { generalize (group pers). intros l. induction l as [|g l [(h & Hh & E)|IH]]; [right; intros g []|left; exists h; split; [right; assumption|assumption]|].
    destruct (N.eq_dec (fst (act g s)) t) as [E|E]; [left; exists g; split; [left; reflexivity|assumption]|right; intros h [<-|Hh]; auto]. }
  destruct Dc as [(g & Hg & E)|H].
  - apply (group_valid D nt pers ms HG) in Hg. rewrite <- E, V_cov, V_self0 by assumption. ring.
  - apply V_zero. intros g Hg. apply H. apply (group_valid D nt pers ms HG). exact Hg.
Qed.

(* one map as a group element *)
Definition unit_elem (d : nat) : list nat := set_nth (repeat 0 nt) d (1 mod nth d pers 0).
Lemma unit_valid d : d < nt -> valid (unit_elem d).
Proof.
  intros Hd. pose proof (valid_bump D nt pers ms HG (repeat 0 nt) d Hd (valid_zero D nt pers ms HG)) as H.
  rewrite nth_repeat in H. exact H.
Qed.
Lemma unit_act d s : d < nt -> D s -> act (unit_elem d) s = ms d s.
Proof.
  intros Hd Hs. rewrite act_W by (apply unit_valid; exact Hd).
  pose proof (T_W D nt pers ms HG nt d (repeat 0 nt) (s, 1%Z) Hd (le_n _) (repeat_length _ _) Hs) as H.
  rewrite nth_repeat in H. unfold unit_elem. rewrite <- H, (W_zero nt pers ms). unfold sact. cbn [fst snd]. destruct (ms d s) as [a b]. cbn [fst snd]. f_equal. destruct b; reflexivity.
Qed.
Lemma unit_theta d : d < nt -> cis (theta qs pers (unit_elem d)) = cis (2 * PI * IZR (nth d qs 0%Z) / INR (nth d pers 0%nat)).
Proof.
  intros Hd. pose proof (gm_pos _ _ _ _ HG d Hd) as Hp.
  assert (E : theta qs pers (unit_elem d) = (2 * PI * IZR (nth d qs 0%Z) / INR (nth d pers 0%nat) * INR (1 mod nth d pers 0%nat))%R).
  { rewrite <- (thp_theta D nt pers ms qs HG).
    assert (H : forall c, c <= nt -> thp pers qs c (unit_elem d) = if d <? c then (2 * PI * IZR (nth d qs 0%Z) / INR (nth d pers 0%nat) * INR (1 mod nth d pers 0%nat))%R else 0%R).
    { induction c as [|c IH]; intros Hc; [reflexivity|]. rewrite thp_S, IH by lia. unfold unit_elem. rewrite nth_set_nth, repeat_length, nth_repeat.
      destruct (Nat.ltb_spec d nt); [|lia]. rewrite andb_true_r.
      destruct (Nat.eqb_spec c d) as [->|Hn].
      - destruct (Nat.ltb_spec d d); [lia|]. destruct (Nat.ltb_spec d (Datatypes.S d)); [|lia]. unfold ks. rewrite Rplus_0_l. reflexivity.
      - destruct (Nat.ltb_spec d c), (Nat.ltb_spec d (Datatypes.S c)); try lia; cbn [INR]; ring. }
    rewrite H by lia. destruct (Nat.ltb_spec d nt); [reflexivity|lia]. }
  rewrite E. destruct (Nat.eq_dec (nth d pers 0) 1) as [E1|N1].
  - rewrite E1. replace (2 * PI * IZR (nth d qs 0%Z) / INR 1 * INR (1 mod 1))%R with 0%R by (cbn; field).
    replace (2 * PI * IZR (nth d qs 0%Z) / INR 1)%R with (2 * PI * IZR (nth d qs 0%Z))%R by (cbn; field). rewrite cis_0, cis_2PI. reflexivity.
  - rewrite Nat.mod_1_l by lia. f_equal. cbn [INR]. ring.
Qed.

(* the largest state of an orbit *)
Lemma orbit_max t : exists g, valid g /\ forall h, valid h -> (fst (act h t) <= fst (act g t))%N.
Proof.
  assert (H : forall l g0, exists g, In g (g0 :: l) /\ forall h, In h (g0 :: l) -> (fst (act h t) <= fst (act g t))%N).
  { induction l as [|a l IH]; intros g0; [exists g0; split; [left; reflexivity|intros h [<-|[]]; lia]|].
    destruct (IH a) as (g & Hg & Hm). destruct (N.le_gt_cases (fst (act g0 t)) (fst (act g t))) as [Hle|Hlt].
    - exists g. split; [right; exact Hg|]. intros h [<-|Hh]; [exact Hle|apply Hm, Hh].
    - exists g0. split; [left; reflexivity|]. intros h [<-|Hh]; [lia|]. specialize (Hm h Hh). lia. }
  destruct (H (group pers) (repeat 0 nt)) as (g & Hg & Hm). exists g. split.
  - destruct Hg as [<-|Hg]; [apply (valid_zero D nt pers ms HG)|apply (group_valid D nt pers ms HG), Hg].
  - intros h Hh. apply Hm. right. apply (group_valid D nt pers ms HG). exact Hh.
Qed.
Lemma reach_act g s : valid g -> D s -> reach nt ms s (fst (act g s)).
Proof. intros Hg Hs. apply (reach_elem D nt pers ms HG); [exact Hs|]. exists g. split; [exact Hg|]. rewrite act_W by exact Hg. reflexivity. Qed.
Lemma reach_act' s t : D s -> reach nt ms s t -> exists g, valid g /\ fst (act g s) = t.
Proof. intros Hs H. apply (reach_elem D nt pers ms HG) in H; [|exact Hs]. destruct H as (g & Hg & E). exists g. split; [exact Hg|]. rewrite act_W by exact Hg. exact E. Qed.

Lemma sq_mul_inv x : (0 < x)%R -> (/ sqrt x * / sqrt x = / x)%R.
Proof. intros H. rewrite <- Rinv_mult. rewrite sqrt_sqrt by lra. reflexivity. Qed.

Section Sum.
Variables (S : N -> Prop) (sts : list N).
Hypothesis SD : forall s, S s -> D s.
Hypothesis SC : closed_under S nt ms.
Hypothesis Hnd : NoDup sts.
Hypothesis Hin : forall s, In s sts <-> S s.
Lemma act_S g s : valid g -> S s -> S (fst (act g s)).
Proof.
  intros Hg Hs. unfold gact. assert (H : forall ds x, Forall (fun d => d < nt) ds -> S (fst x) -> S (fst (sapply ms ds x))).
  { induction ds as [|d ds IH]; intros x F Hx; [exact Hx|]. inversion F; subst. apply IH; [assumption|]. apply SC; assumption. }
  apply H; [|exact Hs]. apply (word_lt nt pers ms). destruct Hg as [Hl _]. lia.
Qed.
Lemma sts_perm g : valid g -> Permutation (map (fun t => fst (act g t)) sts) sts.
Proof.
  intros Hg. apply NoDup_Permutation; [|exact Hnd|].
  - assert (G : forall l, NoDup l -> (forall x, In x l -> S x) -> NoDup (map (fun t => fst (act g t)) l)).
    { induction l as [|x l IH]; intros N1 H1; [constructor|]. inversion N1; subst. cbn [map]. constructor; [|apply IH; [assumption|intros y Hy; apply H1; right; exact Hy]].
      intros E. apply in_map_iff in E. destruct E as (y & Ey & Hy). assert (y = x).
      { apply (act_inj g); [exact Hg|apply SD, H1; right; exact Hy|apply SD, H1; left; reflexivity|exact Ey]. }
      subst. contradiction. }
    apply G; [exact Hnd|]. intros x Hx. apply Hin. exact Hx.
  - intros x. rewrite in_map_iff. split.
    + intros (y & <- & Hy). apply Hin, act_S; [exact Hg|apply Hin, Hy].
    + intros Hx. apply Hin in Hx. exists (fst (act (ginv g) x)). split; [apply act_inv'; [exact Hg|apply SD, Hx]|].
      apply Hin, act_S; [apply (valid_ginv D nt pers ms HG)|exact Hx].
Qed.
Lemma sum_translate g f : valid g -> Csum sts f = Csum sts (fun t => f (fst (act g t))).
Proof. intros Hg. rewrite <- (Csum_perm _ _ f (sts_perm g Hg)) at 1. rewrite Csum_map. reflexivity. Qed.

(* sum against a symmetrised state *)
Lemma V_sum s f : S s -> Csum sts (fun t => f t * V s t)%C = (nrm s * Csum (group pers) (fun g => ph g s * f (fst (act g s))))%C.
Proof.
  intros Hs. transitivity (Csum sts (fun t => nrm s * Csum (group pers) (fun g => if (fst (act g s) =? t)%N then ph g s * f t else C0)))%C.
  - apply Csum_ext. intros t _. rewrite V_eq. transitivity (nrm s * (f t * Csum (group pers) (fun g => if (fst (act g s) =? t)%N then ph g s else C0)))%C; [ring|].
    f_equal. rewrite <- Csum_mul_l. apply Csum_ext. intros g _. destruct (_ =? t)%N; ring.
  - rewrite Csum_mul_l. f_equal. rewrite Csum_swap. apply Csum_ext. intros g Hg. apply (group_valid D nt pers ms HG) in Hg.
    rewrite (Csum_single sts _ (fst (act g s)) Hnd); [rewrite N.eqb_refl; reflexivity|apply Hin, act_S; assumption|].
    intros x _ Hx. destruct (N.eqb_spec (fst (act g s)) x); [congruence|reflexivity].
Qed.

(* ---- orthonormality ---- *)
Lemma V_inner si sj : S si -> S sj -> Csum sts (fun t => Cconj (V sj t) * V si t)%C = (RtoC (INR (group_order pers)) * nrm si * Cconj (V sj si))%C.
Proof.
  intros Hi Hj. rewrite (V_sum si (fun t => Cconj (V sj t)) Hi).
  transitivity (nrm si * Csum (group pers) (fun _ => C1 * Cconj (V sj si)))%C.
  - f_equal. apply Csum_ext. intros g Hg. apply (group_valid D nt pers ms HG) in Hg.
    rewrite (V_cov g) by (try assumption; apply SD; assumption). rewrite Cconj_mul.
    rewrite <- (ph_norm g si) by (try assumption; apply SD; assumption). ring.
  - rewrite Csum_mul_r, Csum_const, group_len. ring.
Qed.
Definition is_rep (s : N) : Prop := forall t, reach nt ms s t -> (t <= s)%N.
Lemma rep_unique s t g : D s -> D t -> is_rep s -> is_rep t -> valid g -> fst (act g s) = t -> s = t.
Proof.
  intros Hs Ht Rs Rt Hg E. apply N.le_antisymm.
  - apply Rt. rewrite <- (act_inv g s Hg Hs), E. apply reach_act; [apply (valid_ginv D nt pers ms HG)|exact Ht].
  - apply Rs. rewrite <- E. apply reach_act; assumption.
Qed.
Lemma V_other s t : D s -> D t -> is_rep s -> is_rep t -> s <> t -> V s t = C0.
Proof. intros Hs Ht Rs Rt Hn. apply V_zero. intros g Hg E. apply Hn. exact (rep_unique s t g Hs Ht Rs Rt Hg E). Qed.
Lemma nrm_sq s : D s -> (RtoC (INR (group_order pers)) * nrm s * (nrm s * RtoC (INR (stabilisers pers ms s))))%C = C1.
Proof.
  intros Hs. unfold nrm. pose proof order_pos as H1. pose proof (stab_ge1 s Hs) as H2.
  assert (P1 : (0 < INR (group_order pers))%R) by (apply lt_0_INR; lia).
  assert (P2 : (0 < INR (stabilisers pers ms s))%R) by (apply lt_0_INR; lia).
  rewrite <- !RtoC_mul.
  set (a := INR (group_order pers)) in *. set (b := INR (stabilisers pers ms s)) in *.
  replace (a * / sqrt (b * a) * (/ sqrt (b * a) * b))%R with (a * b * (/ sqrt (b * a) * / sqrt (b * a)))%R by ring.
  rewrite sq_mul_inv by (apply Rmult_lt_0_compat; assumption).
  replace (a * b * / (b * a))%R with 1%R by (field; lra). reflexivity.
Qed.
Lemma nrm_conj s : Cconj (nrm s) = nrm s. Proof. apply Cconj_RtoC. Qed.
Lemma V_self_conj s : S s -> compatible pers qs ms s -> Cconj (V s s) = (nrm s * RtoC (INR (stabilisers pers ms s)))%C.
Proof. intros Hs Hc. rewrite V_self by (try assumption; apply SD, Hs). rewrite Cconj_mul, nrm_conj, Cconj_RtoC. reflexivity. Qed.
Lemma orthonormal si sj : S si -> S sj -> is_rep si -> is_rep sj -> compatible pers qs ms si -> compatible pers qs ms sj ->
  Csum sts (fun t => Cconj (V sj t) * V si t)%C = if (si =? sj)%N then C1 else C0.
Proof.
  intros Hi Hj Ri Rj Ci Cj. rewrite V_inner by assumption. destruct (N.eqb_spec si sj) as [<-|Hn].
  - rewrite V_self_conj by assumption. apply nrm_sq. apply SD, Hi.
  - rewrite V_other; [apply C_eq; cbn; ring|apply SD, Hj|apply SD, Hi|assumption|assumption|congruence].
Qed.
(* the columns are sector vectors *)
Lemma V_sector s : S s -> sector_vector S nt pers qs ms (V s).
Proof.
  intros Hs d t Hd Ht. pose proof (unit_act d t Hd (SD t Ht)) as E. rewrite <- E.
  rewrite (V_cov (unit_elem d)) by first [apply unit_valid; exact Hd | apply SD; assumption].
  unfold ph. rewrite unit_theta by exact Hd. set (k := cis _).
  transitivity (RtoC (IZR (snd (act (unit_elem d) t))) * (k * Cconj k) * V s t)%C; [|ring].
  unfold k. rewrite cis_norm. ring.
Qed.
(* ---- completeness ---- *)
Lemma sector_act psi g t : sector_vector S nt pers qs ms psi -> valid g -> S t -> psi (fst (act g t)) = (ph g t * psi t)%C.
Proof.
  intros Hp Hg Ht.
  assert (F1 : forall d x, d < nt -> S (fst x) -> (RtoC (IZR (snd (sact ms d x))) * psi (fst (sact ms d x)))%C
      = (Cconj (cis (2 * PI * IZR (nth d qs 0%Z) / INR (nth d pers 0%nat))) * (RtoC (IZR (snd x)) * psi (fst x)))%C).
  { intros d x Hd Hx. unfold sact. cbn [fst snd]. pose proof (Hp d (fst x) Hd Hx) as E. set (k := cis _) in *.
    assert (K : (k * Cconj k)%C = C1) by apply cis_norm.
    assert (Sg : (RtoC (IZR (snd (ms d (fst x)))) * RtoC (IZR (snd (ms d (fst x)))))%C = C1) by (apply Cpm, (gm_sign _ _ _ _ HG); [exact Hd|apply SD, Hx]).
    rewrite mult_IZR, RtoC_mul. set (sg := RtoC (IZR (snd (ms d (fst x))))) in *.
    transitivity (RtoC (IZR (snd x)) * sg * ((k * Cconj k) * psi (fst (ms d (fst x)))))%C; [rewrite K; ring|].
    transitivity (RtoC (IZR (snd x)) * sg * (Cconj k * (k * psi (fst (ms d (fst x))))))%C; [ring|]. rewrite <- E.
    transitivity (RtoC (IZR (snd x)) * (sg * sg) * (Cconj k * psi (fst x)))%C; [ring|]. rewrite Sg. ring. }
  assert (IS : forall d p x, d < nt -> S (fst x) -> S (fst (Nat.iter p (sact ms d) x))).
  { intros d p x Hd Hx. induction p as [|p IH]; [exact Hx|]. rewrite iter_S. apply SC; assumption. }
  assert (F2 : forall d p x, d < nt -> S (fst x) -> (RtoC (IZR (snd (Nat.iter p (sact ms d) x))) * psi (fst (Nat.iter p (sact ms d) x)))%C
      = (Cconj (cis (ks qs pers d * INR p)) * (RtoC (IZR (snd x)) * psi (fst x)))%C).
  { intros d p x Hd Hx. induction p as [|p IH].
    - cbn [Nat.iter nat_rect]. replace (ks qs pers d * INR 0)%R with 0%R by (cbn; ring). rewrite cis_0. transitivity (C1 * (RtoC (IZR (snd x)) * psi (fst x)))%C; [ring|]. f_equal. apply C_eq; cbn; ring.
    - rewrite iter_S, F1, IH by (try assumption; apply IS; assumption). rewrite S_INR.
      replace (ks qs pers d * (INR p + 1))%R with (ks qs pers d * INR p + 2 * PI * IZR (nth d qs 0%Z) / INR (nth d pers 0%nat))%R by (unfold ks; ring).
      rewrite cis_add, Cconj_mul. ring. }
  assert (WS : forall c x, c <= nt -> S (fst x) -> S (fst (W ms c g x))).
  { induction c as [|c IH]; intros x Hc Hx; [exact Hx|]. cbn [W]. apply IS; [lia|]. apply IH; [lia|exact Hx]. }
  assert (F3 : forall c x, c <= nt -> S (fst x) -> (RtoC (IZR (snd (W ms c g x))) * psi (fst (W ms c g x)))%C
      = (Cconj (cis (thp pers qs c g)) * (RtoC (IZR (snd x)) * psi (fst x)))%C).
  { induction c as [|c IH]; intros x Hc Hx.
    - cbn [W]. unfold thp. cbn. rewrite cis_0. transitivity (C1 * (RtoC (IZR (snd x)) * psi (fst x)))%C; [ring|]. f_equal. apply C_eq; cbn; ring.
    - cbn [W]. rewrite F2, IH by first [lia | assumption | apply WS; [lia|assumption]]. rewrite thp_S, cis_add, Cconj_mul. ring. }
  pose proof (F3 nt (t, 1%Z) (le_n _) Ht) as E. rewrite <- act_W, (thp_theta D nt pers ms qs HG) in E by exact Hg. cbn [fst snd] in E.
  unfold ph. set (sg := RtoC (IZR (snd (act g t)))) in *.
  assert (Sg : (sg * sg)%C = C1) by (apply Cpm, act_sign; [exact Hg|apply SD, Ht]).
  transitivity (sg * (sg * psi (fst (act g t))))%C; [transitivity ((sg * sg) * psi (fst (act g t)))%C; [rewrite Sg; ring|ring]|].
  rewrite E. replace (RtoC (IZR 1)) with C1 by reflexivity. ring.
Qed.
Lemma inner_sector psi s : sector_vector S nt pers qs ms psi -> S s ->
  Csum sts (fun u => Cconj (V s u) * psi u)%C = (RtoC (INR (group_order pers)) * nrm s * psi s)%C.
Proof.
  intros Hp Hs. pose proof (V_sum s (fun u => Cconj (psi u)) Hs) as E. apply (f_equal Cconj) in E. rewrite Csum_conj in E.
  rewrite (Csum_ext _ _ (fun u => Cconj (V s u) * psi u)%C) in E by (intros; rewrite Cconj_mul, Cconj_invol; ring). rewrite E.
  rewrite Cconj_mul, nrm_conj, Csum_conj.
  transitivity (nrm s * Csum (group pers) (fun _ => C1 * psi s))%C; [|rewrite Csum_mul_r, Csum_const, group_len; ring]. f_equal.
  apply Csum_ext. intros g Hg. apply (group_valid D nt pers ms HG) in Hg. rewrite (sector_act psi g s Hp Hg Hs).
  rewrite Cconj_mul, Cconj_invol. transitivity (Cconj (ph g s) * ph g s * psi s)%C; [ring|]. rewrite ph_norm' by first [exact Hg|apply SD, Hs]. reflexivity.
Qed.
Lemma sector_incompatible psi s : sector_vector S nt pers qs ms psi -> S s -> ~ compatible pers qs ms s -> psi s = C0.
Proof.
  intros Hp Hs Hc. pose proof (V_self0 s (SD s Hs) Hc) as E. rewrite V_eq in E.
  apply Cmul_integral in E. destruct E as [E|E].
  { exfalso. pose proof (nrm_sq s (SD s Hs)) as H. rewrite E in H. apply (f_equal fst) in H. cbn in H. lra. }
  assert (H : (psi s * RtoC (INR (stabilisers pers ms s)))%C = C0).
  { transitivity (psi s * Csum (group pers) (fun g => if (fst (act g s) =? s)%N then ph g s else C0))%C; [|rewrite E; ring].
    unfold stabilisers. rewrite <- Csum_const, Csum_filter, <- !Csum_mul_l. apply Csum_ext. intros g Hg.
    apply (group_valid D nt pers ms HG) in Hg. destruct (N.eqb_spec (fst (act g s)) s) as [E1|E1]; [|reflexivity].
    transitivity (psi (fst (act g s))); [rewrite E1; ring|]. rewrite (sector_act psi g s Hp Hg Hs). ring. }
  apply Cmul_integral in H. destruct H as [H|H]; [exact H|]. exfalso. apply (f_equal fst) in H. cbn in H.
  pose proof (stab_ge1 s (SD s Hs)) as H1. assert (0 < INR (stabilisers pers ms s))%R by (apply lt_0_INR; lia). lra.
Qed.

(* value of a symmetrised state at a member of its orbit *)
Lemma V_orbit s t g : S s -> S t -> valid g -> fst (act g t) = s -> compatible pers qs ms s ->
  V s t = (Cconj (ph g t) * (nrm s * RtoC (INR (stabilisers pers ms s))))%C.
Proof.
  intros Hs Ht Hg E Hc. pose proof (V_cov g s t Hg (SD s Hs) (SD t Ht)) as H. rewrite E, V_self in H by first [exact Hc|apply SD, Hs].
  rewrite H. transitivity ((Cconj (ph g t) * ph g t) * V s t)%C; [rewrite ph_norm' by first [exact Hg|apply SD, Ht]; ring|ring].
Qed.

Variables (L : list (N * Z)).
Hypothesis HL : lists_decreasing (in_block S nt pers qs ms) L.
Lemma L_block s n : In (s, n) L -> S s /\ is_rep s /\ compatible pers qs ms s /\ n = Z.of_nat (stabilisers pers ms s).
Proof. intros H. apply HL in H. exact H. Qed.
Lemma L_nodup : NoDup L.
Proof.
  destruct HL as [H _]. clear - H. induction H as [|a l H IH F]; constructor; [|exact IH]. intros Hin0.
  rewrite Forall_forall in F. specialize (F a Hin0). lia.
Qed.
Lemma complete psi t : sector_vector S nt pers qs ms psi -> S t ->
  Csum L (fun p => V (fst p) t * Csum sts (fun u => Cconj (V (fst p) u) * psi u))%C = psi t.
Proof.
  intros Hp Ht. destruct (orbit_max t) as (g & Hg & Hm). set (r := fst (act g t)) in *.
  assert (Sr : S r) by (apply act_S; assumption).
  assert (Rr : is_rep r).
  { intros u Hu. apply reach_act' in Hu; [|apply SD, Sr]. destruct Hu as (h & Hh & <-). unfold r.
    pose proof (act_gadd h g t Hh Hg (SD t Ht)) as E. apply (f_equal fst) in E. cbn [fst] in E. rewrite <- E. apply Hm. apply (valid_gadd D nt pers ms HG). }
  assert (Zero : forall s n, In (s, n) L -> s <> r -> V s t = C0).
  { intros s n Hi Hn. destruct (L_block s n Hi) as (Ss & Rs & _). apply V_zero. intros h Hh E. apply Hn.
    apply (rep_unique s r (gadd g h)); [apply SD, Ss|apply SD, Sr|exact Rs|exact Rr|apply (valid_gadd D nt pers ms HG)|].
    rewrite act_gadd by first [assumption|apply SD, Ss]. cbn [fst]. rewrite E. reflexivity. }
  assert (Psi : psi t = (Cconj (ph g t) * psi r)%C).
  { unfold r. rewrite (sector_act psi g t Hp Hg Ht). transitivity (Cconj (ph g t) * ph g t * psi t)%C; [rewrite ph_norm' by first [exact Hg|apply SD, Ht]; ring|ring]. }
  destruct (classic_compat r (SD r Sr)) as [Hc|Hc].
  - assert (Hi : In (r, Z.of_nat (stabilisers pers ms r)) L) by (apply HL; repeat split; assumption).
    rewrite (Csum_single L _ (r, Z.of_nat (stabilisers pers ms r)) L_nodup Hi).
    + cbn [fst]. rewrite (inner_sector psi r Hp Sr), (V_orbit r t g Sr Ht Hg eq_refl Hc), Psi.
      transitivity (Cconj (ph g t) * psi r * (RtoC (INR (group_order pers)) * nrm r * (nrm r * RtoC (INR (stabilisers pers ms r)))))%C; [ring|].
      rewrite nrm_sq by apply SD, Sr. ring.
    + intros [s n] Hs Hn. cbn [fst]. rewrite (Zero s n Hs); [ring|]. intros ->. apply Hn. f_equal. apply L_block in Hs. apply Hs.
  - rewrite Csum_zero; [rewrite Psi, (sector_incompatible psi r Hp Sr Hc); ring|]. intros [s n] Hs. cbn [fst].
    rewrite (Zero s n Hs); [ring|]. intros ->. apply Hc. apply L_block in Hs. apply Hs.
Qed.

(* commuting matrices *)
Variable A : cmat.
Hypothesis HA : commutes_with_maps S nt ms A.
Lemma A_act g r s : valid g -> S r -> S s -> (RtoC (IZR (snd (act g r) * snd (act g s))) * A (fst (act g r)) (fst (act g s)))%C = A r s.
Proof.
  intros Hg Hr Hs. unfold gact.
  assert (H : forall ds x y, Forall (fun d => d < nt) ds -> S (fst x) -> S (fst y) -> (snd x = 1 \/ snd x = -1)%Z -> (snd y = 1 \/ snd y = -1)%Z ->
     (RtoC (IZR (snd (sapply ms ds x) * snd (sapply ms ds y))) * A (fst (sapply ms ds x)) (fst (sapply ms ds y)))%C
     = (RtoC (IZR (snd x * snd y)) * A (fst x) (fst y))%C).
  { induction ds as [|d ds IH]; intros x y F Hx Hy Zx Zy; [reflexivity|]. inversion F; subst. cbn [sapply fold_left].
    fold (sapply ms ds (sact ms d x)). fold (sapply ms ds (sact ms d y)).
    assert (P : forall x, S (fst x) -> (snd x = 1 \/ snd x = -1)%Z -> (snd (sact ms d x) = 1 \/ snd (sact ms d x) = -1)%Z).
    { intros z Hz Hz'. unfold sact. cbn [snd]. destruct (gm_sign _ _ _ _ HG d (fst z)) as [E|E]; [assumption|apply SD, Hz| |]; rewrite E; destruct Hz' as [->| ->]; auto. }
    rewrite IH; [|assumption|apply SC; assumption|apply SC; assumption|apply P; assumption|apply P; assumption].
    unfold sact. cbn [fst snd]. rewrite <- (HA d (fst x) (fst y)) by assumption.
    rewrite !mult_IZR, !RtoC_mul. ring. }
  rewrite H; [cbn; apply C_eq; cbn; ring| |exact Hr|exact Hs|left; reflexivity|left; reflexivity].
  apply (word_lt nt pers ms). destruct Hg as [Hl _]. lia.
Qed.

(* <j| A |i> between symmetrised states needs one column of A only *)
Lemma reduced_entry si sj : S si -> S sj ->
  Csum sts (fun t => Csum sts (fun u => Cconj (V sj t) * A t u * V si u))%C
  = (RtoC (INR (group_order pers)) * nrm si * Csum sts (fun t => Cconj (V sj t) * A t si))%C.
Proof.
  intros Hi Hj. transitivity (Csum sts (fun t => nrm si * Csum (group pers) (fun g => ph g si * (Cconj (V sj t) * A t (fst (act g si))))))%C.
  - apply Csum_ext. intros t _. apply (V_sum si (fun u => Cconj (V sj t) * A t u)%C Hi).
  - rewrite Csum_mul_l, Csum_swap.
    transitivity (nrm si * Csum (group pers) (fun _ => C1 * Csum sts (fun t => Cconj (V sj t) * A t si)))%C.
    + f_equal. apply Csum_ext. intros g Hg. apply (group_valid D nt pers ms HG) in Hg. rewrite (sum_translate g _ Hg).
      rewrite <- Csum_mul_l. apply Csum_ext. intros t Ht. apply Hin in Ht.
      rewrite (V_cov g) by (try assumption; apply SD; assumption). rewrite <- (A_act g t si Hg Ht Hi), Cconj_mul, mult_IZR, RtoC_mul.
      unfold ph. rewrite Cconj_mul, Cconj_invol, Cconj_RtoC.
      transitivity ((cis (theta qs pers g) * Cconj (cis (theta qs pers g))) * (RtoC (IZR (snd (act g si))) * RtoC (IZR (snd (act g t))) * Cconj (V sj t) * A (fst (act g t)) (fst (act g si))))%C; [ring|].
      rewrite cis_norm. ring.
    + rewrite Csum_mul_r, Csum_const.
      replace (length (group pers)) with (group_order pers) by (symmetry; apply group_len). ring.
Qed.
End Sum.
End Act.
