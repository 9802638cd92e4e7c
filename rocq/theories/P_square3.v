(* Periods of the square lattice maps and the blocks of allowed_blocks_iter. *)
From Verif Require Import AuxN SpecDigits SpecMaps SpecLattice M_maps M_square P_maps P_period P_ham P_square P_square2.
Local Open Scope nat_scope.

Lemma lwalk_app l1 l2 p : lwalk (l1 ++ l2) p = lwalk l2 (lwalk l1 p). Proof. apply fold_left_app. Qed.
Lemma right_mod L x q : 1 <= L -> right_of L ((x + q) mod L) = (x + (q + 1)) mod L.
Proof.
  intros HL. rewrite <- (wrap 1 1 (le_n 1) (le_n 1) L) by (try exact HL; apply Nat.mod_upper_bound; lia). rewrite Nat.add_mod_idemp_l by lia. f_equal. lia.
Qed.
Section L.
Variables Lx Ly : nat.
Hypothesis HLx : 1 <= Lx.
Hypothesis HLy : 1 <= Ly.
Lemma walk_Tx q x y : x < Lx -> lwalk (repeat (lTx Lx) q) (x, y, false) = ((x + q) mod Lx, y, false).
Proof.
  intros Hx. induction q as [|q IH]; [cbn; rewrite Nat.add_0_r, Nat.mod_small by exact Hx; reflexivity|]. replace (S q) with (q + 1) by lia. rewrite repeat_app, lwalk_app, IH. cbn [repeat lwalk fold_left].
  unfold lstep, lTx. cbn [fst snd]. rewrite right_mod by exact HLx. reflexivity.
Qed.
Lemma walk_Ty q x y : y < Ly -> lwalk (repeat (lTy Ly) q) (x, y, false) = (x, (y + q) mod Ly, false).
Proof.
  intros Hx. induction q as [|q IH]; [cbn; rewrite Nat.add_0_r, Nat.mod_small by exact Hx; reflexivity|]. replace (S q) with (q + 1) by lia. rewrite repeat_app, lwalk_app, IH. cbn [repeat lwalk fold_left].
  unfold lstep, lTy. cbn [fst snd]. rewrite right_mod by exact HLy. reflexivity.
Qed.
Definition period (m : list Z) (p : nat) : Prop := exists fuel0, forall fuel, fuel0 <= fuel -> process_map fuel m = PM_period p.
Lemma per_Tx : period (sq_Tx Lx Ly) Lx.
Proof.
  apply (period_lat Lx Ly HLx HLy _ (lTx Lx) Lx (gTx Lx Ly HLx HLy) HLx).
  - intros x y Hx Hy. rewrite walk_Tx by exact Hx. rewrite <- (Nat.mul_1_l Lx) at 1. rewrite Nat.mod_add, Nat.mod_small by lia. reflexivity.
  - intros q Hq. exists 0, 0. split; [lia|]. split; [lia|]. rewrite walk_Tx by lia. cbn [Nat.add]. rewrite Nat.mod_small by lia. intros E. injection E as E. lia.
Qed.
Lemma per_Ty : period (sq_Ty Lx Ly) Ly.
Proof.
  apply (period_lat Lx Ly HLx HLy _ (lTy Ly) Ly (gTy Lx Ly HLx HLy) HLy).
  - intros x y Hx Hy. rewrite walk_Ty by exact Hy. rewrite <- (Nat.mul_1_l Ly) at 1. rewrite Nat.mod_add, Nat.mod_small by lia. reflexivity.
  - intros q Hq. exists 0, 0. split; [lia|]. split; [lia|]. rewrite walk_Ty by lia. cbn [Nat.add]. rewrite Nat.mod_small by lia. intros E. injection E as E. lia.
Qed.
Ltac two_ x0 y0 := let q := fresh in intros q ?; assert (q = 1) as -> by lia; exists x0, y0; split; [lia|]; split; [lia|]; cbn; intros E; try discriminate E; injection E; lia.
Lemma per_two m l x0 y0 : good Lx Ly m l -> (forall x y, x < Lx -> y < Ly -> lwalk [l; l] (x, y, false) = (x, y, false)) -> x0 < Lx -> y0 < Ly -> lwalk [l] (x0, y0, false) <> (x0, y0, false) -> period m 2.
Proof. intros G H Hx Hy D. apply (period_lat Lx Ly HLx HLy m l 2 G); [lia|exact H|]. intros q Hq. assert (q = 1) as -> by lia. exists x0, y0. auto. Qed.
Lemma per_one m l : good Lx Ly m l -> (forall x y, x < Lx -> y < Ly -> lwalk [l] (x, y, false) = (x, y, false)) -> period m 1.
Proof. intros G H. apply (period_lat Lx Ly HLx HLy m l 1 G); [lia|exact H|]. intros q Hq. lia. Qed.
Ltac lw := cbn [lwalk fold_left]; unfold lstep, lPx, lPy, lPd, lPe, lZ, lZA, lZB, no_inv, all_inv; cbn [fst snd xorb negb].
Lemma per_Px : period (sq_Px Lx Ly) (if 2 <=? Lx then 2 else 1).
Proof.
  destruct (Nat.leb_spec 2 Lx).
  - apply (per_two _ (lPx Lx) 0 0 (gPx Lx Ly HLx HLy)); [intros x y Hx Hy; lw; f_equal; f_equal; lia|lia|lia|]. lw. intros E. injection E. lia.
  - apply (per_one _ (lPx Lx) (gPx Lx Ly HLx HLy)). intros x y Hx Hy. lw. f_equal. f_equal. lia.
Qed.
Lemma per_Py : period (sq_Py Lx Ly) (if 2 <=? Ly then 2 else 1).
Proof.
  destruct (Nat.leb_spec 2 Ly).
  - apply (per_two _ (lPy Ly) 0 0 (gPy Lx Ly HLx HLy)); [intros x y Hx Hy; lw; f_equal; f_equal; lia|lia|lia|]. lw. intros E. injection E. lia.
  - apply (per_one _ (lPy Ly) (gPy Lx Ly HLx HLy)). intros x y Hx Hy. lw. f_equal. f_equal. lia.
Qed.
Lemma per_Pd m : sq_Pd Lx Ly = Some m -> period m (if 2 <=? Lx then 2 else 1).
Proof.
  intros Em. pose proof (sq_eq Lx Ly m (or_introl Em)). destruct (Nat.leb_spec 2 Lx).
  - apply (per_two _ lPd 0 1 (gPd Lx Ly HLx HLy m Em)); [intros x y Hx Hy; reflexivity|lia|lia|]. lw. intros E. injection E. lia.
  - apply (per_one _ lPd (gPd Lx Ly HLx HLy m Em)). intros x y Hx Hy. lw. f_equal. f_equal; lia.
Qed.
Lemma per_Pe m : sq_Pe Lx Ly = Some m -> period m (if 2 <=? Lx then 2 else 1).
Proof.
  intros Em. pose proof (sq_eq Lx Ly m (or_intror Em)). destruct (Nat.leb_spec 2 Lx).
  - apply (per_two _ (lPe Lx Ly) 0 0 (gPe Lx Ly HLx HLy m Em)); [intros x y Hx Hy; lw; f_equal; f_equal; lia|lia|lia|]. lw. intros E. injection E. lia.
  - apply (per_one _ (lPe Lx Ly) (gPe Lx Ly HLx HLy m Em)). intros x y Hx Hy. lw. f_equal. f_equal; lia.
Qed.
Lemma per_Z : period (sq_Z Lx Ly) 2.
Proof. apply (per_two _ lZ 0 0 (gZ Lx Ly HLx HLy)); [intros x y Hx Hy; reflexivity|lia|lia|]. lw. discriminate. Qed.
Lemma per_ZA : period (sq_ZA Lx Ly) 2.
Proof. apply (per_two _ lZA 0 0 (gZA Lx Ly HLx HLy)); [intros x y Hx Hy; lw; destruct (sub_A x y); reflexivity|lia|lia|]. lw. discriminate. Qed.
Lemma per_ZB : 2 <= Lx * Ly -> period (sq_ZB Lx Ly) 2.
Proof.
  intros H. assert (C : 2 <= Lx \/ 2 <= Ly) by nia. destruct C.
  - apply (per_two _ lZB 1 0 (gZB Lx Ly HLx HLy)); [intros x y Hx Hy; lw; destruct (sub_B x y); reflexivity|lia|lia|]. lw. discriminate.
  - apply (per_two _ lZB 0 1 (gZB Lx Ly HLx HLy)); [intros x y Hx Hy; lw; destruct (sub_B x y); reflexivity|lia|lia|]. lw. discriminate.
Qed.
End L.

(* ---- blocks ---- *)
Section B.
Variables Lx Ly : nat.
Hypothesis HLx : 1 <= Lx.
Hypothesis HLy : 1 <= Ly.
Lemma in_krange L k : In k (k_range L) <-> (- Z.of_nat L / 2 + 1 <= k <= Z.of_nat L / 2)%Z.
Proof.
  unfold k_range. rewrite in_map_iff. split.
  - intros (i & <- & I). apply in_seq in I. lia.
  - intros H. exists (Z.to_nat (k - (- Z.of_nat L / 2 + 1))). split; [lia|]. apply in_seq. lia.
Qed.
(* every momentum occurs exactly once *)
Lemma krange_residue L k : 1 <= L -> exists! j, In j (k_range L) /\ same_momentum L k j.
Proof.
  intros HL. set (lo := (- Z.of_nat L / 2 + 1)%Z). exists (lo + (k - lo) mod Z.of_nat L)%Z. split.
  - split.
    + apply in_krange. pose proof (Z.mod_pos_bound (k - lo) (Z.of_nat L) ltac:(lia)). fold lo. split; [lia|]. subst lo. Z.to_euclidean_division_equations. lia.
    + exists ((k - lo) / Z.of_nat L)%Z. pose proof (Z.div_mod (k - lo) (Z.of_nat L) ltac:(lia)). lia.
  - intros j [I [c Hc]]. apply in_krange in I. fold lo in I. assert (Hj : (lo <= j < lo + Z.of_nat L)%Z) by (split; [lia|]; subst lo; Z.to_euclidean_division_equations; lia).
    assert (E : (k - lo = (j - lo) + c * Z.of_nat L)%Z) by lia. rewrite E, Z.mod_add, Z.mod_small by lia. lia.
Qed.
Lemma krange_nodup L : NoDup (k_range L).
Proof. unfold k_range. apply NoDup_map_in; [intros x y _ _ E; lia|apply seq_NoDup]. Qed.
Definition is_pi (L : nat) (k : Z) : Prop := k = (Z.of_nat L / 2)%Z /\ Nat.even L = true.
Lemma pi_b L k : ((k =? Z.of_nat L / 2)%Z && (L mod 2 =? 0))%bool = true <-> is_pi L k.
Proof. rewrite andb_true_iff, Z.eqb_eq, (mod2_even 1 1 (le_n 1) (le_n 1)). reflexivity. Qed.
Lemma pi_opp L k : is_pi L k -> self_opposite L k.
Proof. intros [-> E]. apply Nat.even_spec in E. destruct E as [j ->]. exists 1%Z. rewrite <- (Z.div_unique (Z.of_nat (2 * j)) 2 (Z.of_nat j) 0) by lia. lia. Qed.
Lemma zero_opp L : self_opposite L 0. Proof. exists 0%Z. lia. Qed.
(* the eigenvalues that a block asks for agree with the relations between the maps *)
Definition consistent (b : block) : Prop :=
  (px b <> None -> self_opposite Lx (kx b)) /\ (py b <> None -> self_opposite Ly (ky b)) /\
  forall m d, pd b = Some (m, d) ->
    (m = sq_Pd Lx Ly /\ (Lx = Ly -> same_momentum Lx (kx b) (ky b)) /\ px b = py b) \/
    (m = sq_Pe Lx Ly /\ Lx = Ly /\ same_momentum Lx (kx b) (- ky b) /\ px b = py b).
Lemma blocks_kk k1 k2 b : In b (blocks_at Lx Ly k1 k2) -> kx b = k1 /\ ky b = k2 /\ consistent b.
Proof.
  unfold blocks_at. cbv zeta.
  destruct ((k1 =? Z.of_nat Lx / 2)%Z && (Lx mod 2 =? 0))%bool eqn:P1; destruct ((k2 =? Z.of_nat Ly / 2)%Z && (Ly mod 2 =? 0))%bool eqn:P2;
  try (apply pi_b in P1; pose proof (pi_opp Lx k1 P1) as Q1); try (apply pi_b in P2; pose proof (pi_opp Ly k2 P2) as Q2);
  pose proof (zero_opp Lx); pose proof (zero_opp Ly);
  destruct (Z.eqb_spec k1 0) as [-> |N1]; destruct (Z.eqb_spec k2 0) as [-> |N2];
  repeat match goal with |- context [(?a =? ?b)%nat] => destruct (Nat.eqb_spec a b) | |- context [(?a =? ?b)%Z] => destruct (Z.eqb_spec a b) end; cbn; intros I;
  repeat (destruct I as [<- |I]); try contradiction; cbn; (split; [reflexivity|split; [reflexivity|]]); unfold consistent; cbn;
  (split; [intros F; first [assumption | exfalso; apply F; reflexivity]|split; [intros F; first [assumption | exfalso; apply F; reflexivity]|]]); intros m d E; try discriminate E; injection E as <- <-.
  all: try (left; split; [reflexivity|split; [|reflexivity]]; intros Eq; exists 0%Z; unfold is_pi in *; subst; lia).
  all: right; split; [reflexivity|split; [assumption|split; [|reflexivity]]]; exists 0%Z; subst; lia.
Qed.
Lemma in_allowed b : In b (allowed_blocks Lx Ly) <-> In (kx b) (k_range Lx) /\ In (ky b) (k_range Ly) /\ In b (blocks_at Lx Ly (kx b) (ky b)).
Proof.
  unfold allowed_blocks. rewrite in_flat_map. split.
  - intros (k1 & H1 & H). apply in_flat_map in H. destruct H as (k2 & H2 & H). destruct (blocks_kk k1 k2 b H) as (E1 & E2 & _). rewrite E1, E2. auto.
  - intros (H1 & H2 & H). exists (kx b). split; [exact H1|]. apply in_flat_map. exists (ky b). auto.
Qed.
Lemma allowed_consistent b : In b (allowed_blocks Lx Ly) -> In (kx b) (k_range Lx) /\ In (ky b) (k_range Ly) /\ consistent b.
Proof. intros H. apply in_allowed in H. destruct H as (H1 & H2 & H). split; [exact H1|]. split; [exact H2|]. apply (blocks_kk _ _ _ H). Qed.
Lemma self_opp L k : 1 <= L -> In k (k_range L) -> (self_opposite L k <-> k = 0%Z \/ is_pi L k).
Proof.
  intros HL I. apply in_krange in I. split; [|intros [-> |H]; [apply zero_opp|apply pi_opp, H]]. intros [c Hc].
  assert (Hb : (- Z.of_nat L < 2 * k <= Z.of_nat L)%Z) by (split; Z.to_euclidean_division_equations; lia).
  assert (C : c = 0%Z \/ c = 1%Z) by nia. destruct C as [-> | ->]; [left; lia|right]. assert (E : (Z.of_nat L = 2 * k)%Z) by lia. split; [apply Z.div_unique with 0%Z; lia|]. apply Nat.even_spec. exists (Z.to_nat k). lia.
Qed.
Lemma covered k1 k2 : In k1 (k_range Lx) -> In k2 (k_range Ly) ->
  ((exists b, In b (allowed_blocks Lx Ly) /\ kx b = k1 /\ ky b = k2) <-> self_opposite Lx k1 \/ self_opposite Ly k2 \/ (Lx = Ly /\ (k1 = k2 \/ k1 = (- k2)%Z))).
Proof.
  intros I1 I2. rewrite (self_opp Lx k1 HLx I1), (self_opp Ly k2 HLy I2).
  assert (E : (exists b, In b (allowed_blocks Lx Ly) /\ kx b = k1 /\ ky b = k2) <-> blocks_at Lx Ly k1 k2 <> []).
  { split.
    - intros (b & H & <- & <-). apply in_allowed in H. destruct H as (_ & _ & H). intros E. rewrite E in H. exact H.
    - intros N. destruct (blocks_at Lx Ly k1 k2) as [|b l] eqn:E; [contradiction|]. assert (H : In b (blocks_at Lx Ly k1 k2)) by (rewrite E; left; reflexivity). exists b. destruct (blocks_kk _ _ _ H) as (E1 & E2 & _).
      split; [|auto]. apply in_allowed. rewrite E1, E2. auto. }
  rewrite E. clear E. unfold blocks_at. cbv zeta.
  destruct ((k1 =? Z.of_nat Lx / 2)%Z && (Lx mod 2 =? 0))%bool eqn:P1; destruct ((k2 =? Z.of_nat Ly / 2)%Z && (Ly mod 2 =? 0))%bool eqn:P2;
  rewrite <- ?(pi_b Lx k1), <- ?(pi_b Ly k2), P1, P2;
  destruct (Z.eqb_spec k1 0) as [-> |N1]; destruct (Z.eqb_spec k2 0) as [-> |N2];
  repeat match goal with |- context [(?a =? ?b)%nat] => destruct (Nat.eqb_spec a b) | |- context [(?a =? ?b)%Z] => destruct (Z.eqb_spec a b) end; cbn;
  split; intros HH; try discriminate; try tauto; try lia.
Qed.
(* no block is offered twice *)
Lemma NoDup_flat {A C K} (key : C -> K) (f : A -> list C) (kf : A -> K) l : NoDup l -> (forall a b, In a l -> In b l -> kf a = kf b -> a = b) -> (forall a, In a l -> NoDup (f a)) -> (forall a c, In a l -> In c (f a) -> key c = kf a) -> NoDup (flat_map f l).
Proof.
  induction l as [|a l IH]; intros N I F Kf; cbn [flat_map]; [constructor|]. inversion N; subst. apply NoDup_app2; [apply F; left; reflexivity|apply IH; [assumption|..]|].
  - intros x y Hx Hy. apply I; right; assumption.
  - intros x Hx. apply F. right. exact Hx.
  - intros x c Hx. apply Kf. right. exact Hx.
  - intros c H1' H2'. apply in_flat_map in H2'. destruct H2' as (b & Hb & Hc). assert (a = b) as -> ; [|contradiction]. apply I; [left; reflexivity|right; exact Hb|]. rewrite <- (Kf a c (or_introl eq_refl) H1'), <- (Kf b c (or_intror Hb) Hc). reflexivity.
Qed.
Lemma blocks_nodup k1 k2 : NoDup (blocks_at Lx Ly k1 k2).
Proof.
  unfold blocks_at. cbv zeta.
  destruct ((k1 =? Z.of_nat Lx / 2)%Z && (Lx mod 2 =? 0))%bool; destruct ((k2 =? Z.of_nat Ly / 2)%Z && (Ly mod 2 =? 0))%bool;
  destruct (k1 =? 0)%Z; destruct (k2 =? 0)%Z; destruct (Lx =? Ly); destruct (k1 =? k2)%Z; destruct (k1 =? - k2)%Z; cbn; repeat constructor; cbn; intros HH; repeat (destruct HH as [HH|HH]; [discriminate HH|]); exact HH.
Qed.
Lemma allowed_nodup : NoDup (allowed_blocks Lx Ly).
Proof.
  apply (NoDup_flat kx _ (fun k => k)); [apply krange_nodup|auto| |].
  - intros k1 _. apply (NoDup_flat ky _ (fun k => k)); [apply krange_nodup|auto|intros; apply blocks_nodup|]. intros k2 b _ H. apply (blocks_kk _ _ _ H).
  - intros k1 b _ H. apply in_flat_map in H. destruct H as (k2 & _ & H). apply (blocks_kk _ _ _ H).
Qed.
End B.
