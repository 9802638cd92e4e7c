(* Closed forms of the time vectors of M_tvec over the real numbers. *)
From Coq Require Import List ZArith Arith Bool Lia Reals Lra.
From Verif Require Import M_symop M_tvec.
Import ListNotations.
Local Open Scope R_scope.

(* M_tvec without rounding *)
Definition exact : arith :=
  Arith R IZR Rplus Rminus Rmult Rdiv Rabs (fun x y => if Rlt_dec x y then true else false) (2 * PI) (1 / 10 ^ 15).

Lemma nth_error_map_seq {X} (g : nat -> X) a n k : (k < n)%nat -> nth_error (map g (seq a n)) k = Some (g (a + k)%nat).
Proof.
  revert a k. induction n as [|n IH]; intros a k H; [lia|].
  destruct k as [|k]; cbn; [now rewrite Nat.add_0_r|]. rewrite IH by lia. f_equal. f_equal. lia.
Qed.

Lemma all_some_map {X Y} (f : X -> option Y) (g : X -> Y) l : (forall x, In x l -> f x = Some (g x)) -> all_some (map f l) = Some (map g l).
Proof.
  induction l as [|x l IH]; intro H; cbn; [reflexivity|].
  rewrite H by (now left). rewrite IH; [reflexivity|]. intros y Hy. apply H. now right.
Qed.

Lemma firstn_seq_map {X} (g : nat -> X) a n k : (k <= n)%nat -> firstn k (map g (seq a n)) = map g (seq a k).
Proof.
  intro H. rewrite firstn_map. f_equal.
  revert a n H. induction k as [|k IH]; intros a n H; [reflexivity|].
  destruct n as [|n]; [lia|]. cbn. f_equal. apply IH. lia.
Qed.
Lemma skipn_seq_map {X} (g : nat -> X) a n k : (k <= n)%nat -> skipn k (map g (seq a n)) = map g (seq (a + k) (n - k)).
Proof.
  intro H. rewrite skipn_map. f_equal.
  revert a n H. induction k as [|k IH]; intros a n H; [now rewrite Nat.add_0_r, Nat.sub_0_r|].
  destruct n as [|n]; [lia|]. cbn. rewrite IH by lia. f_equal; lia.
Qed.

Lemma ceil_1 L q : (0 < L)%nat -> ((q * L + 1 + L - 1) / L = q + 1)%nat.
Proof. intro HL. symmetry. apply Nat.div_unique with 0%nat; lia. Qed.
Lemma ceil_0 L q : (0 < L)%nat -> ((q * L + L - 1) / L = q)%nat.
Proof. intro HL. symmetry. apply Nat.div_unique with (L - 1)%nat; lia. Qed.


Section Closed.
Variable A : arith.
Notation X := (num A).
Variable g : nat -> X.
Variable L : nat.
Hypothesis HL : (0 < L)%nat.

Definition mkstrobo (a ind0 q : nat) : strobo A :=
  Strobo A (map (fun k => (k * L + ind0)%nat) (seq 0 q)) (map (fun k => g (a + k * L)%nat) (seq 0 q)).
Definition mkpart (T : X) (N a n ind0 q : nat) : part A :=
  Part A N (map g (seq a n)) (g a) (g (a + n - 1)%nat) (nmul A (ofnat A N) T) n (mkstrobo a ind0 q).

Lemma strobo_closed a n ind0 q : q = ((n + L - 1) / L)%nat ->
  strobo_times A (map g (seq a n)) L ind0 = Some (mkstrobo a ind0 q).
Proof.
  intro Hq. unfold strobo_times, arange.
  destruct (Nat.eqb_spec L 0) as [E|_]; [lia|]. rewrite map_length, seq_length, <- Hq, map_map.
  rewrite (all_some_map _ (fun k => g (a + k * L)%nat)).
  - unfold mkstrobo. rewrite map_map. reflexivity.
  - intros k Hk. apply in_seq in Hk. apply nth_error_map_seq.
    assert (k * L < n)%nat; [|exact H].
    assert (k <= (n + L - 1) / L - 1)%nat by lia.
    assert (((n + L - 1) / L) * L <= n + L - 1)%nat by (rewrite Nat.mul_comm; apply Nat.mul_div_le; lia).
    nia.
Qed.

Lemma ramp_closed N T a n ind0 q : (0 < n)%nat -> q = ((n + L - 1) / L)%nat ->
  periodic_ramp A N (map g (seq a n)) T L ind0 = Some (mkpart T N a n ind0 q).
Proof.
  intros Hn Hq. unfold periodic_ramp. rewrite map_length, seq_length.
  rewrite nth_error_map_seq by lia. rewrite nth_error_map_seq by lia. rewrite (strobo_closed _ _ _ q Hq).
  unfold mkpart. rewrite Nat.add_0_r. replace (a + (n - 1))%nat with (a + n - 1)%nat by lia. reflexivity.
Qed.

Lemma inds_at q ind0 k a : (k < q)%nat -> at_ (s_inds (mkstrobo a ind0 q)) k = Some (k * L + ind0)%nat.
Proof. intro H. unfold at_, mkstrobo; cbn. now rewrite nth_error_map_seq by lia. Qed.
Lemma inds_last q ind0 a : (0 < q)%nat -> last_ (s_inds (mkstrobo a ind0 q)) = Some ((q - 1) * L + ind0)%nat.
Proof. intro H. unfold last_, mkstrobo; cbn. rewrite map_length, seq_length. now rewrite nth_error_map_seq by lia. Qed.

Lemma regimes_closed T Nu Nc Nd N : N = (Nu + Nc + Nd)%nat ->
  regimes A (map g (seq 0 (N * L + 1))) (s_inds (mkstrobo 0 0 (N + 1))) T L Nu Nc Nd =
  Some (if Nat.ltb 0 Nu then Some (mkpart T Nu 0 (Nu * L) 0 Nu) else None,
        if Nat.ltb 0 Nu || Nat.ltb 0 Nd then Some (mkpart T Nc (Nu * L) (Nc * L + 1) (Nu * L) (Nc + 1)) else None,
        if Nat.ltb 0 Nd then Some (mkpart T Nd ((Nu + Nc) * L + 1) (Nd * L) ((Nu + Nc + 1) * L) Nd) else None).
Proof.
  intros ->.
  assert (Hup : (0 < Nu)%nat -> periodic_ramp A Nu (firstn (Nu * L + 0) (map g (seq 0 ((Nu + Nc + Nd) * L + 1)))) T L 0
                = Some (mkpart T Nu 0 (Nu * L) 0 Nu)).
  { intro H. rewrite firstn_seq_map by nia. rewrite Nat.add_0_r. apply ramp_closed; [nia|]. now rewrite ceil_0 by exact HL. }
  assert (Hc : forall i, i = (Nu * L)%nat -> periodic_ramp A Nc (slice A (map g (seq 0 ((Nu + Nc + Nd) * L + 1))) (Nu * L + 0) ((Nu + Nc) * L + 0 + 1)) T L i
               = Some (mkpart T Nc (Nu * L) (Nc * L + 1) (Nu * L) (Nc + 1))).
  { intros i ->. unfold slice. rewrite skipn_seq_map by nia. rewrite firstn_seq_map by nia.
    replace ((Nu + Nc) * L + 0 + 1 - (Nu * L + 0))%nat with (Nc * L + 1)%nat by nia. rewrite !Nat.add_0_r. cbn [Nat.add].
    apply ramp_closed; [lia|]. now rewrite ceil_1 by exact HL. }
  assert (Hd : (0 < Nd)%nat -> forall i, i = ((Nu + Nc + 1) * L)%nat ->
     periodic_ramp A Nd (slice A (map g (seq 0 ((Nu + Nc + Nd) * L + 1))) ((Nu + Nc) * L + 0 + 1) ((Nu + Nc + Nd + 1 - 1) * L + 0 + 1)) T L i
               = Some (mkpart T Nd ((Nu + Nc) * L + 1) (Nd * L) ((Nu + Nc + 1) * L) Nd)).
  { intros H i ->. unfold slice. rewrite skipn_seq_map by nia. rewrite firstn_seq_map by nia.
    replace ((Nu + Nc + Nd + 1 - 1) * L + 0 + 1 - ((Nu + Nc) * L + 0 + 1))%nat with (Nd * L)%nat by nia.
    replace (0 + ((Nu + Nc) * L + 0 + 1))%nat with ((Nu + Nc) * L + 1)%nat by lia.
    apply ramp_closed; [nia|]. now rewrite ceil_0 by exact HL. }
  unfold regimes.
  rewrite (inds_at (Nu + Nc + Nd + 1) 0 Nu 0) by lia.
  rewrite (inds_at (Nu + Nc + Nd + 1) 0 (Nu + Nc) 0) by lia.
  rewrite (inds_last (Nu + Nc + Nd + 1) 0 0) by lia. cbn [bind].
  destruct (Nat.ltb_spec 0 Nu) as [H1|H1]; destruct (Nat.ltb_spec 0 Nd) as [H2|H2]; cbn [andb orb].
  - rewrite Hup by assumption. cbn [bind p_strobo mkpart]. rewrite inds_last by lia. cbn [bind].
    rewrite Hc by nia. cbn [bind p_strobo mkpart]. rewrite inds_last by lia. cbn [bind].
    rewrite Hd by nia. reflexivity.
  - rewrite Hup by assumption. cbn [bind p_strobo mkpart]. rewrite inds_last by lia. cbn [bind].
    rewrite Hc by nia. reflexivity.
  - rewrite Hc by nia. cbn [bind p_strobo mkpart]. rewrite inds_last by lia. cbn [bind].
    rewrite Hd by nia. reflexivity.
  - reflexivity.
Qed.
End Closed.

(* the time at position k *)
Definition grid (T : R) (Nu L k : nat) : R := (INR k / INR L - INR Nu) * T.

Lemma vals_closed T Nu Nc Nd L : (0 < L)%nat ->
  map (fun x => T * x) (linspace exact (IZR (- Z.of_nat Nu)) (ofnat exact (Nc + Nd)) ((Nu + Nc + Nd) * L + 1))
  = map (grid T Nu L) (seq 0 ((Nu + Nc + Nd) * L + 1)).
Proof.
  intro HL. assert (HLr : INR L <> 0) by (apply not_0_INR; lia).
  unfold ofnat; cbn [ofZ exact]. rewrite <- INR_IZR_INZ, opp_IZR, <- INR_IZR_INZ.
  destruct ((Nu + Nc + Nd) * L)%nat as [|m] eqn:E.
  - assert (Nu = 0)%nat by nia. subst. cbn. unfold grid. f_equal. cbn. field. assumption.
  - rewrite Nat.add_1_r. cbn [linspace]. rewrite (seq_S (S m) 0), !map_app, map_map. f_equal.
    + apply map_ext_in. intros k _. unfold ofnat, grid; cbn [ofZ nadd nmul ndiv nsub exact].
      rewrite <- !INR_IZR_INZ.
      assert (HN : INR (S m) = (INR Nu + INR Nc + INR Nd) * INR L) by (rewrite <- E, mult_INR, !plus_INR; reflexivity).
      assert (INR (S m) <> 0) by (apply not_0_INR; lia). rewrite HN in *.
      rewrite plus_INR. field. split; [assumption|].
      intro H0. apply H. rewrite H0. ring.
    + cbn [map]. f_equal. unfold grid. rewrite Nat.add_0_l, <- E, mult_INR, !plus_INR. field. assumption.
Qed.

(* everything the constructor stores *)
Lemma init_closed Om Nc L Nu Nd : (0 < L)%nat ->
  let T := 2 * PI / Om in let N := (Nu + Nc + Nd)%nat in let g := grid T Nu L in
  tvec_init exact Om Nc L Nu Nd =
  Some (Tvec exact N L T (map g (seq 0 (N * L + 1))) (N * L + 1) (T / INR L) (mkstrobo exact g L 0 0 (N + 1))
        (g 0%nat) (g (N * L)%nat) (g (N * L)%nat - g 0%nat)
        (if Nat.ltb 0 Nu then Some (mkpart exact g L T Nu 0 (Nu * L) 0 Nu) else None)
        (if Nat.ltb 0 Nu || Nat.ltb 0 Nd then Some (mkpart exact g L T Nc (Nu * L) (Nc * L + 1) (Nu * L) (Nc + 1)) else None)
        (if Nat.ltb 0 Nd then Some (mkpart exact g L T Nd ((Nu + Nc) * L + 1) (Nd * L) ((Nu + Nc + 1) * L) Nd) else None)).
Proof.
  intros HL T N g. unfold tvec_init. cbn zeta.
  change (ndiv exact (pi2 exact) Om) with T. change (nmul exact T) with (Rmult T).
  change (ofZ exact (- Z.of_nat Nu)) with (IZR (- Z.of_nat Nu)).
  change (ndiv exact T (ofnat exact L)) with (T / IZR (Z.of_nat L)). rewrite <- INR_IZR_INZ.
  rewrite vals_closed by assumption. fold N. change (grid T Nu L) with g.
  rewrite (strobo_closed exact g L HL 0 _ 0 (N + 1)) by (now rewrite ceil_1 by exact HL).
  cbn [bind]. rewrite map_length, seq_length.
  rewrite (nth_error_map_seq g 0 _ 0) by lia. cbn [bind].
  rewrite (nth_error_map_seq g 0 _ (N * L + 1 - 1)) by lia. cbn [bind].
  refine (eq_trans (f_equal (fun o => bind o _) (regimes_closed exact g L HL T Nu Nc Nd N eq_refl)) _). cbn [bind].
  replace (0 + (N * L + 1 - 1))%nat with (N * L)%nat by lia. reflexivity.
Qed.
