(* C56: time vectors of periodically driven systems. *)
From Coq Require Import List ZArith Arith Bool Lia Reals Lra.
From Coq Require Import Floats.SpecFloat.
From Verif Require Import M_symop M_tvec P_tvec SpecTvec.
Import ListNotations.
Local Open Scope R_scope.

Ltac closed H HL := rewrite init_closed in H by exact HL; injection H as <-.

Ltac asR := match goal with |- @eq _ ?a ?b => change (@eq R a b) end.

Lemma T_pos Om : 0 < Om -> 0 < 2 * PI / Om.
Proof. intro H. apply Rdiv_lt_0_compat; [|exact H]. pose proof PI_RGT_0. lra. Qed.

Lemma grid_S T Nu L k : (0 < L)%nat -> grid T Nu L (S k) - grid T Nu L k = T / INR L.
Proof. intro H. assert (INR L <> 0) by (apply not_0_INR; lia). unfold grid. rewrite S_INR. field. assumption. Qed.

Lemma nth_map_seq_inv {X} (g : nat -> X) a n k x : nth_error (map g (seq a n)) k = Some x -> (k < n)%nat /\ x = g (a + k)%nat.
Proof.
  intro H. assert (k < n)%nat as Hk.
  { rewrite <- (seq_length n a), <- (map_length g). apply nth_error_Some. congruence. }
  split; [exact Hk|]. rewrite nth_error_map_seq in H by exact Hk. congruence.
Qed.

(* position k is a whole number of periods exactly when k is a multiple of len_T *)
Lemma grid_strobo T Nu L k : (0 < L)%nat -> 0 < T -> stroboscopic T (grid T Nu L k) <-> exists q, k = (q * L)%nat.
Proof.
  intros HL HT. assert (HLr : INR L <> 0) by (apply not_0_INR; lia). split.
  - intros [m Hm]. unfold grid in Hm.
    apply Rmult_eq_reg_r in Hm; [|lra].
    assert (H : INR k = (IZR m + INR Nu) * INR L) by (rewrite <- Hm; field; assumption).
    rewrite !INR_IZR_INZ, <- plus_IZR, <- mult_IZR in H. apply eq_IZR in H.
    exists (Z.to_nat (m + Z.of_nat Nu)). nia.
  - intros [q ->]. exists (Z.of_nat q - Z.of_nat Nu)%Z. unfold grid.
    rewrite minus_IZR, <- !INR_IZR_INZ, mult_INR. field. assumption.
Qed.
Lemma grid_mul T Nu L q : (0 < L)%nat -> grid T Nu L (q * L) = (INR q - INR Nu) * T.
Proof. intro HL. assert (HLr : INR L <> 0) by (apply not_0_INR; lia). unfold grid. rewrite mult_INR. field. assumption. Qed.

Lemma grid_inj T Nu L j k : (0 < L)%nat -> 0 < T -> grid T Nu L j = grid T Nu L k -> j = k.
Proof.
  intros HL HT H. unfold grid in H. apply Rmult_eq_reg_r in H; [|lra].
  assert (HLr : 0 < INR L) by (apply lt_0_INR; lia).
  assert (INR j / INR L = INR k / INR L) by lra.
  apply INR_eq. apply Rmult_eq_reg_r with (/ INR L); [exact H0|]. apply Rinv_neq_0_compat. lra.
Qed.

(* the constructor accepts exactly the vectors with at least one point per period *)
Theorem C56_accepts : forall Om Nc L Nu Nd, (exists v, tvec_init exact Om Nc L Nu Nd = Some v) <-> (0 < L)%nat.
Proof.
  intros Om Nc L Nu Nd. split.
  - intros [v H]. destruct L as [|L]; [|lia]. exfalso. revert H. unfold tvec_init, strobo_times, arange. cbn. discriminate.
  - intro HL. eexists. apply init_closed. exact HL.
Qed.
Print Assumptions C56_accepts.

(* the times: N_up + N_const + N_down periods of len_T equidistant points, ending with the last stroboscopic time; and
   the attributes N, len_T, T, len, dt, i, f and tot *)
Theorem C56_times : forall Om Nc L Nu Nd v, 0 < Om -> tvec_init exact Om Nc L Nu Nd = Some v ->
  even_grid (v_T v) Nu (v_N v) (v_len_T v) (v_vals v) /\
  v_N v = (Nu + Nc + Nd)%nat /\ v_len_T v = L /\ v_T v = 2 * PI / Om /\
  v_len v = length (v_vals v) /\ v_dt v = v_T v / INR L /\
  nth_error (v_vals v) 0 = Some (v_i v) /\ nth_error (v_vals v) (length (v_vals v) - 1) = Some (v_f v) /\
  v_i v = - INR Nu * v_T v /\ v_f v = (INR Nc + INR Nd) * v_T v /\ v_tot v = v_f v - v_i v.
Proof.
  intros Om Nc L Nu Nd v HOm H.
  assert (HL : (0 < L)%nat) by (apply (C56_accepts Om Nc L Nu Nd); eauto).
  assert (HLr : INR L <> 0) by (apply not_0_INR; lia).
  closed H HL. cbn [v_T v_N v_len_T v_vals v_len v_dt v_i v_f v_tot].
  set (T := 2 * PI / Om). set (N := (Nu + Nc + Nd)%nat).
  assert (H0 : grid T Nu L 0 = - INR Nu * T) by (unfold grid; cbn [INR]; field; assumption).
  assert (HN : grid T Nu L (N * L) = (INR Nc + INR Nd) * T).
  { rewrite grid_mul by exact HL. unfold N. rewrite !plus_INR. ring. }
  rewrite map_length, seq_length.
  repeat match goal with |- _ /\ _ => split end; try reflexivity; try assumption.
  - unfold even_grid. rewrite map_length, seq_length. split; [reflexivity|]. split.
    + rewrite nth_error_map_seq by lia. now rewrite <- H0.
    + intros k x y Hx Hy. apply nth_map_seq_inv in Hx, Hy. destruct Hx as [_ ->], Hy as [_ ->].
      cbn [Nat.add]. now apply grid_S.
  - now rewrite nth_error_map_seq by lia.
  - rewrite nth_error_map_seq by lia. f_equal. f_equal. lia.
Qed.
Print Assumptions C56_times.

(* two points len_T positions apart are one period apart *)
Theorem C56_periodic : forall Om Nc L Nu Nd v k x, tvec_init exact Om Nc L Nu Nd = Some v ->
  (k + L < length (v_vals v))%nat -> nth_error (v_vals v) k = Some x -> nth_error (v_vals v) (k + L) = Some (x + v_T v).
Proof.
  intros Om Nc L Nu Nd v k x H Hk Hx.
  assert (HL : (0 < L)%nat) by (apply (C56_accepts Om Nc L Nu Nd); eauto).
  assert (HLr : INR L <> 0) by (apply not_0_INR; lia).
  closed H HL. cbn [v_T v_vals] in *. rewrite map_length, seq_length in Hk.
  generalize dependent (2 * PI / Om). intros T Hx.
  apply nth_map_seq_inv in Hx. destruct Hx as [_ ->].
  rewrite nth_error_map_seq by lia. f_equal. unfold grid. cbn [Nat.add]. rewrite plus_INR. field. assumption.
Qed.
Print Assumptions C56_periodic.

Lemma mkstrobo_of T Nu L a n ind0 q M all : (0 < L)%nat -> 0 < T ->
  all = map (grid T Nu L) (seq 0 M) -> ind0 = a -> (exists r, a = (r * L)%nat) -> (a + n <= M)%nat ->
  (forall k, (k < q)%nat <-> (k * L < n)%nat) ->
  strobo_of T all (map (grid T Nu L) (seq a n)) (map (fun k => (k * L + ind0)%nat) (seq 0 q))
            (map (fun k => grid T Nu L (a + k * L)%nat) (seq 0 q)).
Proof.
  intros HL HT -> -> [r Hr] Hn Hq. split.
  - rewrite !map_map. apply map_ext_in. intros k Hk. apply in_seq in Hk.
    assert (k * L < n)%nat by (apply Hq; lia). rewrite nth_error_map_seq by lia. f_equal. f_equal. lia.
  - intro x. split.
    + intro Hx. apply in_map_iff in Hx. destruct Hx as (k & <- & Hk). apply in_seq in Hk.
      assert (k * L < n)%nat by (apply Hq; lia). split.
      * apply in_map. apply in_seq. lia.
      * apply grid_strobo; [exact HL|exact HT|]. exists (r + k)%nat. lia.
    + intros [Hx Hs]. apply in_map_iff in Hx. destruct Hx as (k & <- & Hk). apply in_seq in Hk.
      apply grid_strobo in Hs; [|exact HL|exact HT]. destruct Hs as [s Hs].
      apply in_map_iff. exists (s - r)%nat. split.
      * f_equal. nia.
      * apply in_seq. assert (s - r < q)%nat by (apply Hq; nia). lia.
Qed.
Lemma quot_1 L N k : (0 < L)%nat -> (k < N + 1)%nat <-> (k * L < N * L + 1)%nat.
Proof. intro. nia. Qed.
Lemma quot_0 L N k : (0 < L)%nat -> (k < N)%nat <-> (k * L < N * L)%nat.
Proof. intro. nia. Qed.

(* strobo.inds and strobo.vals are the stroboscopic times of the vector, and no stroboscopic time in its range is missed *)
Theorem C56_strobo : forall Om Nc L Nu Nd v, 0 < Om -> tvec_init exact Om Nc L Nu Nd = Some v ->
  strobo_of (v_T v) (v_vals v) (v_vals v) (s_inds (v_strobo v)) (s_vals (v_strobo v)) /\
  s_inds (v_strobo v) = map (fun k => (k * L)%nat) (seq 0 (Nu + Nc + Nd + 1)) /\
  forall m : Z, v_i v <= IZR m * v_T v <= v_f v -> In (IZR m * v_T v) (s_vals (v_strobo v)).
Proof.
  intros Om Nc L Nu Nd v HOm H.
  assert (HL : (0 < L)%nat) by (apply (C56_accepts Om Nc L Nu Nd); eauto).
  assert (HT := T_pos Om HOm).
  closed H HL. cbn [v_T v_vals v_i v_f v_strobo s_inds s_vals mkstrobo].
  set (T := 2 * PI / Om) in *. set (N := (Nu + Nc + Nd)%nat).
  split; [|split].
  - apply (mkstrobo_of T Nu L 0 (N * L + 1) 0 (N + 1) (N * L + 1)); try reflexivity; try assumption.
    + exists 0%nat. reflexivity.
    + intro k. now apply quot_1.
  - apply map_ext. intro k. lia.
  - intros m [H1 H2].
    assert (H0 : grid T Nu L 0 = (INR 0 - INR Nu) * T) by (rewrite <- (grid_mul T Nu L 0) by exact HL; reflexivity).
    rewrite H0 in H1. rewrite grid_mul in H2 by exact HL.
    apply Rmult_le_reg_r in H1; [|exact HT]. apply Rmult_le_reg_r in H2; [|exact HT].
    rewrite !INR_IZR_INZ, <- minus_IZR in H1, H2. apply le_IZR in H1, H2.
    apply in_map_iff. exists (Z.to_nat (m + Z.of_nat Nu)). split.
    + cbn [Nat.add]. rewrite grid_mul by exact HL. f_equal. rewrite !INR_IZR_INZ, <- minus_IZR. f_equal. lia.
    + apply in_seq. lia.
Qed.
Print Assumptions C56_strobo.

(* up ++ const ++ down is the vector; each part has its number of periods.  const ends with the stroboscopic time that ends
   its last period, so up and down miss one end point each *)
Definition values (o : option (part exact)) : list R := match o with Some p => p_vals p | None => [] end.
Theorem C56_regimes : forall Om Nc L Nu Nd v, 0 < Om -> tvec_init exact Om Nc L Nu Nd = Some v -> (0 < Nu + Nd)%nat ->
  values (v_up v) ++ values (v_const v) ++ values (v_down v) = v_vals v /\
  (v_up v = None <-> Nu = 0%nat) /\ (v_down v = None <-> Nd = 0%nat) /\
  (exists p, v_const v = Some p /\ even_grid (v_T v) 0 Nc L (p_vals p) /\ p_N p = Nc /\ p_len p = length (p_vals p)
             /\ p_i p = 0 /\ p_f p = INR Nc * v_T v /\ p_tot p = p_f p - p_i p) /\
  (forall p, v_up v = Some p -> length (p_vals p) = (Nu * L)%nat /\ p_N p = Nu /\ p_len p = length (p_vals p)
             /\ p_i p = v_i v /\ p_f p = - v_dt v) /\
  (forall p, v_down v = Some p -> length (p_vals p) = (Nd * L)%nat /\ p_N p = Nd /\ p_len p = length (p_vals p)
             /\ p_i p = INR Nc * v_T v + v_dt v /\ p_f p = v_f v).
Proof.
  intros Om Nc L Nu Nd v HOm H HN.
  assert (HL : (0 < L)%nat) by (apply (C56_accepts Om Nc L Nu Nd); eauto).
  assert (HLr : INR L <> 0) by (apply not_0_INR; lia).
  closed H HL. cbn [v_T v_vals v_i v_f v_dt v_up v_const v_down].
  set (T := 2 * PI / Om) in *. set (N := (Nu + Nc + Nd)%nat). set (g := grid T Nu L).
  assert (E1 : values (if Nat.ltb 0 Nu then Some (mkpart exact g L T Nu 0 (Nu * L) 0 Nu) else None) = map g (seq 0 (Nu * L))).
  { destruct (Nat.ltb_spec 0 Nu); [reflexivity|]. replace Nu with 0%nat by lia. reflexivity. }
  assert (E3 : values (if Nat.ltb 0 Nd then Some (mkpart exact g L T Nd ((Nu + Nc) * L + 1) (Nd * L) ((Nu + Nc + 1) * L) Nd) else None)
               = map g (seq ((Nu + Nc) * L + 1) (Nd * L))).
  { destruct (Nat.ltb_spec 0 Nd); [reflexivity|]. replace Nd with 0%nat by lia. reflexivity. }
  assert (E2 : (Nat.ltb 0 Nu || Nat.ltb 0 Nd)%bool = true).
  { apply orb_true_iff. destruct (Nat.ltb_spec 0 Nu); [now left|right]. apply Nat.ltb_lt. lia. }
  rewrite E1, E2, E3. cbn [values p_vals mkpart].
  assert (G0 : g (Nu * L)%nat = 0) by (unfold g; rewrite grid_mul by exact HL; ring).
  assert (G1 : g ((Nu + Nc) * L)%nat = INR Nc * T) by (unfold g; rewrite grid_mul by exact HL; rewrite plus_INR; ring).
  split; [|split; [|split; [|split; [|split]]]].
  - rewrite <- !map_app. f_equal.
    replace (N * L + 1)%nat with (Nu * L + ((Nc * L + 1) + Nd * L))%nat by (unfold N; lia).
    rewrite (seq_app (Nu * L) (Nc * L + 1 + Nd * L) 0). f_equal. cbn [Nat.add]. rewrite (seq_app (Nc * L + 1) (Nd * L) (Nu * L)). f_equal. f_equal. lia.
  - destruct (Nat.ltb_spec 0 Nu); split; intro; try lia; congruence.
  - destruct (Nat.ltb_spec 0 Nd); split; intro; try lia; congruence.
  - eexists. split; [reflexivity|]. cbn [p_vals p_N p_len p_i p_f p_tot mkpart]. rewrite map_length, seq_length.
    assert (G2 : g (Nu * L + (Nc * L + 1) - 1)%nat = INR Nc * T).
    { rewrite <- G1. f_equal. lia. }
    repeat split; try assumption.
    + now rewrite map_length, seq_length.
    + rewrite nth_error_map_seq by lia. rewrite Nat.add_0_r, G0. replace (- INR 0 * T) with 0 by (cbn [INR]; ring). reflexivity.
    + intros k x y Hx Hy. apply nth_map_seq_inv in Hx, Hy. destruct Hx as [_ ->], Hy as [_ ->].
      rewrite Nat.add_succ_r. now apply grid_S.
    + rewrite G2, G0. unfold ofnat. cbn [nmul ofZ exact]. rewrite <- INR_IZR_INZ. change (INR Nc * T = INR Nc * T - 0). ring.
  - intros p Hp. destruct (Nat.ltb_spec 0 Nu) as [Hu|]; [|discriminate]. injection Hp as <-.
    cbn [p_vals p_N p_len p_i p_f mkpart]. rewrite map_length, seq_length. repeat split; try reflexivity.
    assert (Hp : (0 < Nu * L)%nat) by nia.
    pose proof (grid_S T Nu L (Nu * L - 1) HL) as HS. replace (S (Nu * L - 1)) with (Nu * L)%nat in HS by lia.
    fold g in HS. rewrite G0 in HS. cbn [Nat.add]. lra.
  - intros p Hp. destruct (Nat.ltb_spec 0 Nd) as [Hd|]; [|discriminate]. injection Hp as <-.
    cbn [p_vals p_N p_len p_i p_f mkpart]. rewrite map_length, seq_length. repeat split; try reflexivity.
    + pose proof (grid_S T Nu L ((Nu + Nc) * L) HL) as HS. fold g in HS. rewrite G1 in HS.
      rewrite Nat.add_1_r. lra.
    + f_equal. unfold N. lia.
Qed.
Print Assumptions C56_regimes.

(* stroboscopic times of the up and const regimes: inds point into the whole vector *)
Theorem C56_part_strobo_partial : forall Om Nc L Nu Nd v p, 0 < Om -> tvec_init exact Om Nc L Nu Nd = Some v ->
  v_up v = Some p \/ v_const v = Some p ->
  strobo_of (v_T v) (v_vals v) (p_vals p) (s_inds (p_strobo p)) (s_vals (p_strobo p)).
Proof.
  intros Om Nc L Nu Nd v p HOm H Hp.
  assert (HL : (0 < L)%nat) by (apply (C56_accepts Om Nc L Nu Nd); eauto).
  assert (HT := T_pos Om HOm).
  closed H HL. cbn [v_T v_vals v_up v_const] in *.
  set (T := 2 * PI / Om) in *. set (N := (Nu + Nc + Nd)%nat) in *.
  destruct Hp as [Hp|Hp].
  - destruct (Nat.ltb_spec 0 Nu) as [Hu|]; [|discriminate]. injection Hp as <-.
    cbn [p_vals p_strobo s_inds s_vals mkpart mkstrobo].
    apply (mkstrobo_of T Nu L 0 (Nu * L) 0 Nu (N * L + 1)); try reflexivity; try assumption.
    + exists 0%nat. reflexivity.
    + unfold N. nia.
    + intro k. now apply quot_0.
  - destruct (Nat.ltb 0 Nu || Nat.ltb 0 Nd)%bool; [|discriminate]. injection Hp as <-.
    cbn [p_vals p_strobo s_inds s_vals mkpart mkstrobo].
    apply (mkstrobo_of T Nu L (Nu * L) (Nc * L + 1) (Nu * L) (Nc + 1) (N * L + 1)); try reflexivity; try assumption.
    + exists Nu. reflexivity.
    + unfold N. nia.
    + intro k. now apply quot_1.
Qed.
Print Assumptions C56_part_strobo_partial.

(* The stroboscopic times of the down regime are wrong for every vector with at least two points per period: down.strobo.inds
   are the positions of the ends of its periods, but down.strobo.vals (and down.strobo itself) hold the times one step after
   the beginning of each period, none of which is a multiple of T.  Floquet.py:497 starts t_down one point after the end of
   the constant regime, and _strobo_times takes its entries 0, len_T, 2*len_T, ... *)
Theorem C56_down_strobo_refuted : forall Om Nc L Nu Nd v p j, 0 < Om -> tvec_init exact Om Nc L Nu Nd = Some v ->
  v_down v = Some p -> (2 <= L)%nat -> (j < Nd)%nat ->
  exists i x y, nth_error (s_inds (p_strobo p)) j = Some i /\ nth_error (s_vals (p_strobo p)) j = Some x /\
    nth_error (v_vals v) i = Some y /\
    y = (INR Nc + INR j + 1) * v_T v /\ x = (INR Nc + INR j) * v_T v + v_dt v /\ x <> y /\ ~ stroboscopic (v_T v) x.
Proof.
  intros Om Nc L Nu Nd v p j HOm H Hp HL2 Hj.
  assert (HL : (0 < L)%nat) by lia. assert (HLr : INR L <> 0) by (apply not_0_INR; lia).
  assert (HT := T_pos Om HOm).
  closed H HL. cbn [v_T v_vals v_dt v_down] in *.
  set (T := 2 * PI / Om) in *. set (N := (Nu + Nc + Nd)%nat) in *.
  destruct (Nat.ltb_spec 0 Nd) as [Hd|]; [|discriminate]. injection Hp as <-.
  cbn [p_strobo s_inds s_vals mkpart mkstrobo].
  exists (j * L + (Nu + Nc + 1) * L)%nat, (grid T Nu L ((Nu + Nc) * L + 1 + j * L)), (grid T Nu L (j * L + (Nu + Nc + 1) * L)).
  rewrite !nth_error_map_seq by (unfold N; nia). cbn [Nat.add].
  assert (NS : ~ stroboscopic T (grid T Nu L ((Nu + Nc) * L + 1 + j * L))).
  { intro Hs. apply grid_strobo in Hs; [|exact HL|exact HT]. destruct Hs as [q Hq].
    assert (H1 : (1 = (q - (Nu + Nc) - j) * L)%nat) by nia. destruct (q - (Nu + Nc) - j)%nat as [|[|m]]; nia. }
  repeat split; try reflexivity; try exact NS.
  - unfold grid. rewrite !plus_INR, !mult_INR, !plus_INR. cbn [INR]. asR. field. assumption.
  - unfold grid. rewrite !plus_INR, !mult_INR, !plus_INR. cbn [INR]. asR. field. assumption.
  - intro E. apply grid_inj in E; [|exact HL|exact HT]. nia.
Qed.
Print Assumptions C56_down_strobo_refuted.

(* The attribute tot of the up and down regimes is not the duration f - i of the regime (which is what tot is for the whole
   vector and for const): it is one time step longer, for every vector. *)
Theorem C56_part_tot_refuted : forall Om Nc L Nu Nd v p, 0 < Om -> tvec_init exact Om Nc L Nu Nd = Some v ->
  v_up v = Some p \/ v_down v = Some p -> p_tot p = p_f p - p_i p + v_dt v /\ p_tot p <> p_f p - p_i p.
Proof.
  intros Om Nc L Nu Nd v p HOm H Hp.
  assert (HT := T_pos Om HOm).
  assert (HL : (0 < L)%nat) by (apply (C56_accepts Om Nc L Nu Nd); eauto).
  assert (HLr : 0 < INR L) by (apply lt_0_INR; lia).
  assert (Hdt : 0 < v_dt v).
  { pose proof H as H'. closed H' HL. cbn [v_dt]. apply Rdiv_lt_0_compat; assumption. }
  assert (E : p_tot p = p_f p - p_i p + v_dt v); [|split; [exact E|lra]].
  closed H HL. cbn [v_dt v_up v_down] in *. set (T := 2 * PI / Om) in *.
  destruct Hp as [Hp|Hp].
  - destruct (Nat.ltb_spec 0 Nu) as [Hu|]; [|discriminate]. injection Hp as <-.
    cbn [p_tot p_f p_i mkpart]. unfold ofnat. cbn [nmul ofZ exact]. rewrite <- INR_IZR_INZ.
    unfold grid. rewrite minus_INR by nia. rewrite plus_INR, mult_INR. cbn [INR]. asR. field. lra.
  - destruct (Nat.ltb_spec 0 Nd) as [Hd|]; [|discriminate]. injection Hp as <-.
    cbn [p_tot p_f p_i mkpart]. unfold ofnat. cbn [nmul ofZ exact]. rewrite <- INR_IZR_INZ.
    unfold grid. rewrite minus_INR by nia. rewrite !plus_INR, !mult_INR, !plus_INR. cbn [INR]. asR. field. lra.
Qed.
Print Assumptions C56_part_tot_refuted.

(* The attribute const is documented without condition, but a vector without ramps (the default) does not have it: reading it
   raises AttributeError. *)
Theorem C56_const_missing_refuted : forall Om Nc L v, tvec_init exact Om Nc L 0 0 = Some v -> v_const v = None.
Proof.
  intros Om Nc L v H.
  assert (HL : (0 < L)%nat) by (apply (C56_accepts Om Nc L 0 0); eauto).
  closed H HL. reflexivity.
Qed.
Print Assumptions C56_const_missing_refuted.
