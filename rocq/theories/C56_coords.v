(* C56: the coordinates (period, position within the period) of an entry of a time vector. *)
From Coq Require Import List ZArith Arith Bool Lia Reals Lra.
From Coq Require Import Floats.SpecFloat.
From Verif Require Import M_symop M_tvec P_tvec SpecTvec C56_tvec.
Import ListNotations.
Local Open Scope R_scope.

Lemma filter_all {X} (f : X -> bool) l : (forall x, In x l -> f x = true) -> filter f l = l.
Proof. induction l as [|x l IH]; intro H; cbn; [reflexivity|]. rewrite H by (now left). f_equal. apply IH. intros y Hy. apply H. now right. Qed.
Lemma count_le m n : (m < n)%nat -> length (filter (fun a => (a <=? m)%nat) (seq 0 n)) = (m + 1)%nat.
Proof.
  intro H. replace n with ((m + 1) + (n - m - 1))%nat by lia. rewrite seq_app, filter_app, app_length.
  rewrite (filter_all _ (seq 0 (m + 1))) by (intros x Hx; apply in_seq in Hx; apply Nat.leb_le; lia).
  assert (E : filter (fun a => (a <=? m)%nat) (seq (0 + (m + 1)) (n - m - 1)) = []).
  { destruct (filter _ _) as [|x l] eqn:E; [reflexivity|]. exfalso.
    assert (Hx : In x (x :: l)) by (now left). rewrite <- E in Hx. apply filter_In in Hx. destruct Hx as [H1 H2].
    apply in_seq in H1. apply Nat.leb_le in H2. lia. }
  rewrite E, seq_length. cbn. lia.
Qed.
Lemma filter_eqb r a n : (a <= r < a + n)%nat -> filter (fun j => (j =? r)%nat) (seq a n) = [r].
Proof.
  revert a. induction n as [|n IH]; intros a H; [lia|]. cbn. destruct (Nat.eqb_spec a r) as [->|Hne].
  - f_equal. destruct (filter _ _) as [|x l] eqn:E; [reflexivity|]. exfalso.
    assert (Hx : In x (x :: l)) by (now left). rewrite <- E in Hx. apply filter_In in Hx. destruct Hx as [H1 H2].
    apply in_seq in H1. apply Nat.eqb_eq in H2. lia.
  - apply IH. lia.
Qed.

Lemma grid_add T Nu L p k : (0 < L)%nat -> grid T Nu L (p + k) = grid T Nu L p + INR k * (T / INR L).
Proof. intro H. assert (INR L <> 0) by (apply not_0_INR; lia). unfold grid. rewrite plus_INR. field. assumption. Qed.

(* the position a Python index stands for *)
Definition position (len : nat) (index : Z) : nat := Z.to_nat (if (index <? 0)%Z then index + Z.of_nat len else index).

Lemma coords_closed Om Nc L Nu Nd v index : 0 < Om -> tvec_init exact Om Nc L Nu Nd = Some v ->
  (0 < v_N v)%nat -> 1 / 10 ^ 15 <= v_dt v -> (- Z.of_nat (v_len v) <= index < Z.of_nat (v_len v))%Z ->
  get_coordinates exact v index =
    Some (Z.of_nat (position (v_len v) index / L), (position (v_len v) index mod L)%nat).
Proof.
  intros HOm H HN Hdt Hi.
  assert (HL : (0 < L)%nat) by (apply (C56_accepts Om Nc L Nu Nd); eauto).
  assert (HLr : 0 < INR L) by (apply lt_0_INR; lia).
  assert (HT := T_pos Om HOm).
  closed H HL. cbn [v_N v_dt v_len] in *.
  set (T := 2 * PI / Om) in *. set (N := (Nu + Nc + Nd)%nat) in *. set (g := grid T Nu L) in *.
  set (p := position (N * L + 1) index).
  assert (Hp : (p < N * L + 1)%nat) by (unfold p, position; destruct (Z.ltb_spec index 0); lia).
  assert (Hdiv : p = (L * (p / L) + p mod L)%nat) by (apply Nat.div_mod; lia).
  assert (Hmod : (p mod L < L)%nat) by (apply Nat.mod_upper_bound; lia).
  assert (Hq : (p / L < N + 1)%nat) by (apply Nat.div_lt_upper_bound; nia).
  assert (Ht : py_nth exact (map g (seq 0 (N * L + 1))) index = Some (g p)).
  { unfold py_nth. rewrite map_length, seq_length. destruct (Z.ltb_spec index (- Z.of_nat (N * L + 1))); [lia|].
    unfold p, position. destruct (Z.ltb_spec index 0); rewrite nth_error_map_seq by lia; reflexivity. }
  unfold get_coordinates. cbn [v_vals v_strobo v_T]. rewrite Ht. cbn [bind].
  assert (Hs : searchsorted exact (s_vals (mkstrobo exact g L 0 0 (N + 1))) (nadd exact (g p) (tol exact)) = (p / L + 1)%nat).
  { unfold searchsorted, mkstrobo. cbn [s_vals].
    rewrite <- (count_le (p / L) (N + 1)) by exact Hq.
    cbn [Nat.add]. generalize (seq 0 (N + 1)). intro l. induction l as [|a l IH]; [reflexivity|]. cbn [map filter].
    assert (E : nlt exact (g (a * L)%nat) (nadd exact (g p) (tol exact)) = (a <=? p / L)%nat).
    { cbn [nlt nadd tol exact]. destruct (Nat.leb_spec a (p / L)) as [Ha|Ha].
      - assert (Hle : (a * L <= p)%nat) by nia.
        pose proof (grid_add T Nu L (a * L) (p - a * L) HL) as G. replace (a * L + (p - a * L))%nat with p in G by lia. fold g in G.
        assert (0 <= INR (p - a * L)) by apply pos_INR.
        assert (0 < T / INR L) by (apply Rdiv_lt_0_compat; assumption).
        assert (0 <= INR (p - a * L) * (T / INR L)) by (apply Rmult_le_pos; lra).
        destruct (Rlt_dec _ _) as [|Hn]; [reflexivity|]. exfalso. apply Hn. change (g (a * L)%nat < g p + 1 / 10 ^ 15).
        assert (0 < 1 / 10 ^ 15) by lra. lra.
      - assert (Hle : (S p <= a * L)%nat) by nia.
        pose proof (grid_add T Nu L p (a * L - p) HL) as G. replace (p + (a * L - p))%nat with (a * L)%nat in G by lia. fold g in G.
        assert (1 <= INR (a * L - p)) by (replace 1 with (INR 1) by reflexivity; apply le_INR; lia).
        assert (T / INR L <= INR (a * L - p) * (T / INR L)).
        { assert (0 < T / INR L) by (apply Rdiv_lt_0_compat; assumption). nra. }
        destruct (Rlt_dec _ _) as [Hn|]; [|reflexivity]. exfalso. change (g (a * L)%nat < g p + 1 / 10 ^ 15) in Hn. lra. }
    rewrite E. destruct (a <=? p / L)%nat; cbn [length]; rewrite IH; reflexivity. }
  rewrite Hs, inds_at by lia. cbn [bind].
  replace (Z.of_nat (p / L + 1) - 1)%Z with (Z.of_nat (p / L)) by lia.
  rewrite firstn_seq_map by nia.
  assert (Hw : first_where exact (fun x => nlt exact (nabs exact (nsub exact (nsub exact (g p) (nmul exact (ofZ exact (Z.of_nat (p / L))) T)) x)) (tol exact))
                 (map g (seq 0 (1 * L + 0))) = Some (p mod L)%nat).
  { unfold first_where. rewrite map_length, seq_length. replace (1 * L + 0)%nat with L by lia.
    rewrite (filter_ext_in _ (fun j => (j =? p mod L)%nat)); [now rewrite filter_eqb by lia|].
    intros j Hj. apply in_seq in Hj. rewrite nth_error_map_seq by lia. cbn [Nat.add nlt nabs nsub nmul ofZ tol exact].
    assert (G : g p - IZR (Z.of_nat (p / L)) * T = g (p mod L)%nat).
    { rewrite <- INR_IZR_INZ. rewrite Hdiv at 1. rewrite Nat.add_comm. unfold g. rewrite grid_add by exact HL.
      rewrite mult_INR. field. lra. }
    rewrite G. assert (Hd : 0 < T / INR L) by (apply Rdiv_lt_0_compat; assumption).
    destruct (Nat.eqb_spec j (p mod L)) as [->|Hne].
    - destruct (Rlt_dec _ _) as [|Hn]; [reflexivity|]. exfalso. apply Hn. change (Rabs (g (p mod L)%nat - g (p mod L)%nat) < 1 / 10 ^ 15).
      rewrite Rminus_diag_eq by reflexivity. rewrite Rabs_R0. lra.
    - destruct (Rlt_dec _ _) as [Hn|]; [|reflexivity]. exfalso.
      change (Rabs (g (p mod L)%nat - g j) < 1 / 10 ^ 15) in Hn.
      assert (Hge : T / INR L <= Rabs (g (p mod L)%nat - g j)); [|lra].
      destruct (Nat.lt_total j (p mod L)) as [Hlt|[->|Hlt]]; [|contradiction|].
      + pose proof (grid_add T Nu L j (p mod L - j) HL) as Ga. replace (j + (p mod L - j))%nat with (p mod L)%nat in Ga by lia. fold g in Ga.
        assert (1 <= INR (p mod L - j)) by (replace 1 with (INR 1) by reflexivity; apply le_INR; lia).
        rewrite Ga. replace (g j + INR (p mod L - j) * (T / INR L) - g j) with (INR (p mod L - j) * (T / INR L)) by ring.
        rewrite Rabs_right by nra. nra.
      + pose proof (grid_add T Nu L (p mod L) (j - p mod L) HL) as Ga. replace (p mod L + (j - p mod L))%nat with j in Ga by lia. fold g in Ga.
        assert (1 <= INR (j - p mod L)) by (replace 1 with (INR 1) by reflexivity; apply le_INR; lia).
        rewrite Ga. replace (g (p mod L)%nat - (g (p mod L)%nat + INR (j - p mod L) * (T / INR L))) with (- (INR (j - p mod L) * (T / INR L))) by ring.
        rewrite Rabs_Ropp, Rabs_right by nra. nra. }
  refine (eq_trans (f_equal (fun o => bind o _) Hw) _). reflexivity.
Qed.

(* get_coordinates(index) = (i, j): j is a position within a period, and t[t.strobo.inds[i] + j] = t[index]; for an index that
   counts from the start, i is the number of full periods before it.  The times are exact real numbers here and at least
   1e-15 apart *)
Theorem C56_coordinates_partial : forall Om Nc L Nu Nd v index x, 0 < Om -> tvec_init exact Om Nc L Nu Nd = Some v ->
  (0 < v_N v)%nat -> 1 / 10 ^ 15 <= v_dt v -> py_nth exact (v_vals v) index = Some x ->
  exists i j s, get_coordinates exact v index = Some (Z.of_nat i, j) /\ (j < L)%nat /\
    nth_error (s_inds (v_strobo v)) i = Some s /\ nth_error (v_vals v) (s + j) = Some x /\
    ((0 <= index)%Z -> index = (Z.of_nat i * Z.of_nat L + Z.of_nat j)%Z).
Proof.
  intros Om Nc L Nu Nd v index x HOm H HN Hdt Hx.
  assert (HL : (0 < L)%nat) by (apply (C56_accepts Om Nc L Nu Nd); eauto).
  assert (Hlen : v_len v = length (v_vals v)) by (closed H HL; cbn [v_len v_vals]; now rewrite map_length, seq_length).
  assert (Hi : (- Z.of_nat (v_len v) <= index < Z.of_nat (v_len v))%Z).
  { rewrite Hlen. unfold py_nth in Hx. destruct (Z.ltb_spec index (- Z.of_nat (length (v_vals v)))); [discriminate|].
    destruct (Z.ltb_spec index 0); [lia|].
    assert (Z.to_nat index < length (v_vals v))%nat by (apply nth_error_Some; congruence). lia. }
  assert (Hpos : py_nth exact (v_vals v) index = nth_error (v_vals v) (position (v_len v) index)).
  { unfold py_nth, position. rewrite Hlen in *. destruct (Z.ltb_spec index (- Z.of_nat (length (v_vals v)))); [lia|].
    destruct (Z.ltb_spec index 0); reflexivity. }
  rewrite (coords_closed Om Nc L Nu Nd v index HOm H HN Hdt Hi).
  set (p := position (v_len v) index) in *.
  assert (Hdiv : p = (L * (p / L) + p mod L)%nat) by (apply Nat.div_mod; lia).
  assert (Hmod : (p mod L < L)%nat) by (apply Nat.mod_upper_bound; lia).
  assert (Hp : (p < v_len v)%nat) by (unfold p, position; destruct (Z.ltb_spec index 0); lia).
  exists (p / L)%nat, (p mod L)%nat, (p / L * L)%nat.
  split; [reflexivity|]. split; [exact Hmod|]. split; [|split].
  - closed H HL. cbn [v_strobo s_inds mkstrobo v_len] in *.
    assert (p / L < Nu + Nc + Nd + 1)%nat by (apply Nat.div_lt_upper_bound; nia).
    rewrite nth_error_map_seq by assumption. f_equal. lia.
  - replace (p / L * L + p mod L)%nat with p by lia. now rewrite <- Hpos.
  - intro Hn. assert (index = Z.of_nat p) by (unfold p, position; destruct (Z.ltb_spec index 0); lia). lia.
Qed.
Print Assumptions C56_coordinates_partial.

(* without a full period there is no coordinate: IndexError *)
Theorem C56_coordinates_empty : forall Om L v index, (0 < L)%nat -> tvec_init exact Om 0 L 0 0 = Some v ->
  get_coordinates exact v index = None.
Proof.
  intros Om L v index HL H. closed H HL. unfold get_coordinates. cbn [v_vals v_strobo v_T].
  destruct (py_nth _ _ _); [|reflexivity]. cbn [bind]. reflexivity.
Qed.
Print Assumptions C56_coordinates_empty.

(* binary64 with rounding to nearest even (the standard library's SpecFloat) *)
Definition rounded : arith :=
  Arith spec_float (fun z => binary_normalize 53 1024 z 0 false) (SFadd 53 1024) (SFsub 53 1024) (SFmul 53 1024) (SFdiv 53 1024)
        SFabs SFltb (S754_finite false 7074237752028440 (-50)) (S754_finite false 5070602400912918 (-102)).

(* With rounding get_coordinates fails on ordinary vectors: for t = Floquet_t_vec(1.0, 3, len_T=3) the call
   t.get_coordinates(7) raises IndexError, and so does t.get_coordinates(9), the end of the last period; for the vector of the
   docstring's own example, Floquet_t_vec(10.0, 10), index 920 raises it.  The tolerance 1E-15 is absolute: it is smaller
   than the rounding error of t - i*T as soon as t is larger than about 4. *)
Theorem C56_coordinates_rounding_refuted :
  (exists v, tvec_init rounded (ofZ rounded 1) 3 3 0 0 = Some v /\ length (v_vals v) = 10%nat /\
     get_coordinates rounded v 7 = None /\ get_coordinates rounded v 9 = None /\
     get_coordinates rounded v 5 = Some (1%Z, 2%nat)) /\
  (exists v, tvec_init rounded (ofZ rounded 10) 10 100 0 0 = Some v /\ get_coordinates rounded v 145 = Some (1%Z, 45%nat) /\
     get_coordinates rounded v 920 = None).
Proof.
  split.
  - assert (H : match tvec_init rounded (ofZ rounded 1) 3 3 0 0 with
                | Some v => Some (length (v_vals v), get_coordinates rounded v 7, get_coordinates rounded v 9, get_coordinates rounded v 5)
                | None => None end = Some (10%nat, None, None, Some (1%Z, 2%nat))) by (vm_compute; reflexivity).
    revert H. generalize (tvec_init rounded (ofZ rounded 1) 3 3 0 0). intros o H.
    destruct o as [v|]; [|discriminate]. exists v. injection H as H1 H2 H3 H4. auto.
  - assert (H : match tvec_init rounded (ofZ rounded 10) 10 100 0 0 with
                | Some v => Some (get_coordinates rounded v 145, get_coordinates rounded v 920)
                | None => None end = Some (Some (1%Z, 45%nat), None)) by (vm_compute; reflexivity).
    revert H. generalize (tvec_init rounded (ofZ rounded 10) 10 100 0 0). intros o H.
    destruct o as [v|]; [|discriminate]. exists v. injection H as H1 H2. auto.
Qed.
Print Assumptions C56_coordinates_rounding_refuted.

(* a vector with two ramp-up periods, three constant ones and one ramp-down period of four points each *)
Example C56_case :
  exists v, tvec_init exact 1 3 4 2 1 = Some v /\ v_N v = 6%nat /\ length (v_vals v) = 25%nat /\
  s_inds (v_strobo v) = [0; 4; 8; 12; 16; 20; 24]%nat /\
  get_coordinates exact v 13 = Some (3%Z, 1%nat) /\ get_coordinates exact v (-1) = Some (6%Z, 0%nat) /\
  exists up c d, v_up v = Some up /\ v_const v = Some c /\ v_down v = Some d /\
    s_inds (p_strobo up) = [0; 4]%nat /\ s_inds (p_strobo c) = [8; 12; 16; 20]%nat /\ s_inds (p_strobo d) = [24]%nat.
Proof.
  destruct (proj2 (C56_accepts 1 3 4 2 1)) as [v Hv]; [lia|].
  exists v. split; [exact Hv|].
  assert (Hdt : 1 / 10 ^ 15 <= v_dt v).
  { pose proof Hv as H'. rewrite init_closed in H' by lia. injection H' as <-. cbn [v_dt]. pose proof PI2_3_2. pose proof PI_RGT_0. cbn [INR]. lra. }
  assert (Hn : v_N v = 6%nat) by (pose proof Hv as H'; rewrite init_closed in H' by lia; injection H' as <-; reflexivity).
  assert (Hlen : v_len v = 25%nat) by (pose proof Hv as H'; rewrite init_closed in H' by lia; injection H' as <-; reflexivity).
  split; [exact Hn|].
  split; [pose proof Hv as H'; rewrite init_closed in H' by lia; injection H' as <-; reflexivity|].
  split; [pose proof Hv as H'; rewrite init_closed in H' by lia; injection H' as <-; reflexivity|].
  split; [rewrite (coords_closed 1 3 4 2 1 v 13); [rewrite Hlen; reflexivity|lra|exact Hv|lia|exact Hdt|lia]|].
  split; [rewrite (coords_closed 1 3 4 2 1 v (-1)); [rewrite Hlen; reflexivity|lra|exact Hv|lia|exact Hdt|lia]|].
  rewrite init_closed in Hv by lia. injection Hv as <-. do 3 eexists. repeat split; reflexivity.
Qed.
