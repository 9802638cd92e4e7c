(* Lemmas about long-time averages and the diagonal ensemble. *)
From Verif Require Import AuxN SpecC SpecExpm SpecLanczos SpecExpect SpecEntropy SpecDiag M_entropy M_diag P_entropy.
From Coq Require Import Lra.
Local Open Scope R_scope.

(* ---- time averages ---- *)
Lemma average_ext f g a : (forall t, f t = g t) -> time_average f a -> time_average g a.
Proof. intros H [F [HF HT]]. exists F. split; [intros t; rewrite <- H; apply HF|exact HT]. Qed.
Lemma average_add f g a b : time_average f a -> time_average g b -> time_average (fun t => f t + g t) (a + b).
Proof.
  intros [F [HF LF]] [G [HG LG]]. exists (fun t => F t + G t). split; [intros t; apply (derivable_pt_lim_plus F G); [apply HF|apply HG]|].
  intros e He. destruct (LF (e / 2) ltac:(lra)) as [T1 [P1 H1]]. destruct (LG (e / 2) ltac:(lra)) as [T2 [P2 H2]].
  exists (Rmax T1 T2). split; [apply Rlt_le_trans with T1; [exact P1|apply Rmax_l]|]. intros T HT.
  specialize (H1 T (Rle_trans _ _ _ (Rmax_l T1 T2) HT)). specialize (H2 T (Rle_trans _ _ _ (Rmax_r T1 T2) HT)).
  replace ((F T + G T - (F 0 + G 0)) / T - (a + b)) with (((F T - F 0) / T - a) + ((G T - G 0) / T - b)) by (unfold Rdiv; ring).
  apply Rle_lt_trans with (1 := Rabs_triang _ _). lra.
Qed.
Lemma linear_derivative w t : derivable_pt_lim (fun t => w * t) t w.
Proof. pose proof (derivable_pt_lim_scal id w t 1 (derivable_pt_lim_id t)) as H. rewrite Rmult_1_r in H. exact H. Qed.
Lemma average_const a : time_average (fun _ => a) a.
Proof.
  exists (fun t => a * t). split.
  - intros t. apply linear_derivative.
  - intros e He. exists 1. split; [lra|]. intros T HT. replace ((a * T - a * 0) / T - a) with 0 by (field; lra). rewrite Rabs_R0. exact He.
Qed.
(* a bounded antiderivative *)
Lemma average_bounded f F M : (forall t, derivable_pt_lim F t (f t)) -> (forall t, Rabs (F t) <= M) -> time_average f 0.
Proof.
  intros HF HM. exists F. split; [exact HF|]. intros e He. assert (H0 : 0 <= M) by (apply Rle_trans with (Rabs (F 0)); [apply Rabs_pos|apply HM]).
  exists (2 * (M + 1) / e). assert (HT0 : 0 < 2 * (M + 1) / e) by (apply Rdiv_lt_0_compat; lra). split; [exact HT0|]. intros T HT. assert (HT1 : 0 < T) by lra.
  rewrite Rminus_0_r. unfold Rdiv. rewrite Rabs_mult, (Rabs_pos_eq (/ T)) by (left; apply Rinv_0_lt_compat; exact HT1).
  apply Rle_lt_trans with (2 * M * / T).
  - apply Rmult_le_compat_r; [left; apply Rinv_0_lt_compat; exact HT1|]. apply Rle_trans with (1 := Rabs_triang _ _). rewrite Rabs_Ropp. pose proof (HM T). pose proof (HM 0). lra.
  - apply (Rmult_lt_reg_r T); [exact HT1|]. rewrite Rmult_assoc, Rinv_l, Rmult_1_r by lra. apply (Rmult_le_compat_l e) in HT; [|lra].
    replace (e * (2 * (M + 1) / e)) with (2 * (M + 1)) in HT by (field; lra). lra.
Qed.
Lemma sin_derivative w b t : derivable_pt_lim (fun t => b * sin (w * t)) t (b * (cos (w * t) * w)).
Proof.
  apply (derivable_pt_lim_scal (fun t => sin (w * t))). apply (derivable_pt_lim_comp (fun t => w * t) sin); [apply linear_derivative|apply derivable_pt_lim_sin].
Qed.
Lemma cos_derivative w b t : derivable_pt_lim (fun t => b * cos (w * t)) t (b * (- sin (w * t) * w)).
Proof.
  apply (derivable_pt_lim_scal (fun t => cos (w * t))). apply (derivable_pt_lim_comp (fun t => w * t) cos); [apply linear_derivative|apply derivable_pt_lim_cos].
Qed.
Lemma average_wave z w : time_average (fun t => fst (z * cis (w * t)))%C (if Req_EM_T w 0 then fst z else 0).
Proof.
  destruct (Req_EM_T w 0) as [E|E].
  - apply average_ext with (fun _ => fst z); [|apply average_const]. intros t. rewrite E, Rmult_0_l, cis_0. cbn. ring.
  - apply average_bounded with (fun t => fst z / w * sin (w * t) + snd z / w * cos (w * t)) (Rabs (fst z / w) + Rabs (snd z / w)).
    + intros t. replace (fst (z * cis (w * t))%C) with (fst z / w * (cos (w * t) * w) + snd z / w * (- sin (w * t) * w)) by (cbn; field; exact E).
      apply (derivable_pt_lim_plus (fun t => fst z / w * sin (w * t)) (fun t => snd z / w * cos (w * t))); [apply sin_derivative|apply cos_derivative].
    + intros t. apply Rle_trans with (1 := Rabs_triang _ _). rewrite !Rabs_mult. apply Rplus_le_compat.
      * rewrite <- (Rmult_1_r (Rabs (fst z / w))) at 2. apply Rmult_le_compat_l; [apply Rabs_pos|]. apply Rabs_le. pose proof (SIN_bound (w * t)). lra.
      * rewrite <- (Rmult_1_r (Rabs (snd z / w))) at 2. apply Rmult_le_compat_l; [apply Rabs_pos|]. apply Rabs_le. pose proof (COS_bound (w * t)). lra.
Qed.
Lemma average_waves {X} (l : list X) (z : X -> C) (w : X -> R) :
  time_average (fun t => fst (Csum l (fun x => z x * cis (w x * t))))%C (Rsum l (fun x => if Req_EM_T (w x) 0 then fst (z x) else 0)).
Proof.
  induction l as [|x l IH]; [apply (average_const 0)|]. rewrite Rsum_cons.
  apply average_ext with (fun t => fst (z x * cis (w x * t))%C + fst (Csum l (fun x => z x * cis (w x * t))%C)).
  - intros t. rewrite Csum_cons. reflexivity.
  - apply average_add; [apply average_wave|exact IH].
Qed.
Lemma zero_derivative_constant (G : R -> R) : (forall t, derivable_pt_lim G t 0) -> forall x, 0 <= x -> G x = G 0.
Proof.
  intros H x [Hx|Hx]; [|subst; reflexivity]. pose (pr := fun t => exist (fun l => derivable_pt_abs G t l) 0 (H t) : derivable_pt G t).
  destruct (MVT_cor1 G 0 x pr Hx) as [c [Hc _]]. unfold derive_pt in Hc. cbn in Hc. lra.
Qed.
Lemma average_unique f a b : time_average f a -> time_average f b -> a = b.
Proof.
  intros [F [HF LF]] [G [HG LG]]. destruct (Req_dec a b) as [E|E]; [exact E|]. exfalso. set (e := Rabs (a - b) / 2).
  assert (He : 0 < e) by (unfold e; pose proof (Rabs_pos_lt (a - b) ltac:(lra)); lra).
  destruct (LF e He) as [T1 [P1 H1]]. destruct (LG e He) as [T2 [P2 H2]]. set (T := Rmax T1 T2).
  specialize (H1 T (Rmax_l T1 T2)). specialize (H2 T (Rmax_r T1 T2)).
  assert (HD : F T - F 0 = G T - G 0).
  { assert (Hc : (F T - G T) = (F 0 - G 0)); [|lra]. apply (zero_derivative_constant (fun t => F t - G t)).
    - intros t. replace 0 with (f t - f t) by ring. apply (derivable_pt_lim_minus F G); [apply HF|apply HG].
    - apply Rle_trans with T1; [lra|apply Rmax_l]. }
  rewrite HD in H1. assert (Hs : Rabs (a - b) < e + e).
  { replace (a - b) with (((G T - G 0) / T - b) + - ((G T - G 0) / T - a)) by ring. apply Rle_lt_trans with (1 := Rabs_triang _ _). rewrite Rabs_Ropp. lra. }
  unfold e in Hs. lra.
Qed.
Lemma average_scale f a c : time_average f a -> time_average (fun t => c * f t) (c * a).
Proof.
  intros [F [HF LF]]. exists (fun t => c * F t). split; [intros t; apply derivable_pt_lim_scal, HF|]. intros e He.
  pose proof (Rabs_pos c) as Hc. destruct (LF (e / (Rabs c + 1)) ltac:(apply Rdiv_lt_0_compat; lra)) as [T0 [P0 H0]]. exists T0. split; [exact P0|]. intros T HT. specialize (H0 T HT).
  replace ((c * F T - c * F 0) / T - c * a) with (c * ((F T - F 0) / T - a)) by (unfold Rdiv; ring). rewrite Rabs_mult.
  apply Rle_lt_trans with (Rabs c * (e / (Rabs c + 1))); [apply Rmult_le_compat_l; lra|].
  apply (Rmult_lt_reg_r (Rabs c + 1)); [lra|]. replace (Rabs c * (e / (Rabs c + 1)) * (Rabs c + 1)) with (Rabs c * e) by (field; lra). lra.
Qed.

(* ---- sums ---- *)
Lemma Rsum_prod {X Y} (l : list X) (k : list Y) f : Rsum (list_prod l k) f = Rsum l (fun x => Rsum k (fun y => f (x, y))).
Proof. induction l as [|x l IH]; [reflexivity|]. cbn [list_prod]. rewrite Rsum_app, Rsum_map, Rsum_cons, IH. reflexivity. Qed.
Lemma Csum_prod {X Y} (l : list X) (k : list Y) f : Csum (list_prod l k) f = Csum l (fun x => Csum k (fun y => f (x, y))).
Proof. induction l as [|x l IH]; [reflexivity|]. cbn [list_prod]. rewrite Csum_app, Csum_map, Csum_cons, IH. reflexivity. Qed.
Lemma Rsum_zero {X} (l : list X) f : (forall x, In x l -> f x = 0) -> Rsum l f = 0.
Proof. induction l as [|x l IH]; intros H; [reflexivity|]. rewrite Rsum_cons, (H x (or_introl eq_refl)), IH by (intros y Hy; apply H; right; exact Hy). ring. Qed.
Lemma Rsum_delta n j f : (j < n)%nat -> Rsum (seq 0 n) (fun k => if (j =? k)%nat then f k else 0) = f j.
Proof.
  intros Hj. replace (seq 0 n) with (seq 0 j ++ j :: seq (S j) (n - S j)).
  - rewrite Rsum_app, Rsum_cons, Nat.eqb_refl, !Rsum_zero; [ring| |]; intros k Hk; apply in_seq in Hk; destruct (Nat.eqb_spec j k); (lia || reflexivity).
  - change (j :: seq (S j) (n - S j)) with (seq (0 + j) (S (n - S j))). rewrite <- seq_app. f_equal. lia.
Qed.
Lemma Rsum_mul_l {X} (l : list X) c f : Rsum l (fun x => c * f x) = c * Rsum l f. Proof. apply Rsum_scal. Qed.
Lemma Rsum_mul_r {X} (l : list X) c f : Rsum l (fun x => f x * c) = Rsum l f * c.
Proof. rewrite Rmult_comm, <- Rsum_scal. apply Rsum_ext. intros x _. ring. Qed.
Lemma Rsum_nonneg {X} (l : list X) f : (forall x, In x l -> 0 <= f x) -> 0 <= Rsum l f.
Proof. intros H. rewrite <- (Rsum_zero l (fun _ => 0)) by reflexivity. apply Rsum_le, H. Qed.
Lemma Rsum_sub {X} (l : list X) f g : Rsum l (fun x => f x - g x) = Rsum l f - Rsum l g.
Proof. induction l as [|x l IH]; rewrite ?Rsum_nil, ?Rsum_cons; [ring|rewrite IH; ring]. Qed.

(* ---- the expectation value as a sum of waves ---- *)
Section Elements.
Context (n : nat) (V : mat).
Definition coherence (s : state) (j k : nat) : C :=
  match s with Ket psi => (inner n (column V j) psi * Cconj (inner n (column V k) psi))%C | Density rho => element n V rho j k end.
Lemma element_sum A j k : element n V A j k = Csum (seq 0 n) (fun i => Csum (seq 0 n) (fun m => Cconj (V i j) * A i m * V m k))%C.
Proof. unfold element, inner, apply, column. apply Csum_ext. intros i _. rewrite <- Csum_mul_l. apply Csum_ext. intros m _. ring. Qed.
Lemma element_rotated A j k : element n V A j k = rotated n V A j k. Proof. reflexivity. Qed.
Definition amplitude (A : mat) (s : state) (x : nat * nat) : C := (element n V A (fst x) (snd x) * coherence s (snd x) (fst x))%C.
Lemma coherence_population s j : fst (coherence s j j) = population n V s j.
Proof. destruct s as [psi|rho]; cbn; [ring|reflexivity]. Qed.
Lemma hermitian_element A : hermitian n A -> forall j k, element n V A k j = Cconj (element n V A j k).
Proof.
  intros H j k. rewrite !element_sum, Csum_conj. rewrite Csum_swap. apply Csum_ext. intros m Hm. rewrite Csum_conj. apply Csum_ext. intros i Hi. apply in_seq in Hi, Hm.
  rewrite !Cconj_mul, Cconj_invol. rewrite (H m i) by lia. ring.
Qed.
Lemma hermitian_real A : hermitian n A -> forall j, snd (element n V A j j) = 0.
Proof. intros H j. pose proof (f_equal snd (hermitian_element A H j j)) as Hs. cbn in Hs. lra. Qed.
Lemma coherence_sym s j k : hermitian_state n s -> coherence s k j = Cconj (coherence s j k).
Proof.
  destruct s as [psi|rho]; cbn [hermitian_state coherence]; intros H; [rewrite Cconj_mul, Cconj_invol; ring|apply hermitian_element, H].
Qed.
Lemma amplitude_diag A s j : hermitian n A -> hermitian_state n s -> amplitude A s (j, j) = RtoC (fst (element n V A j j) * population n V s j).
Proof.
  intros HA Hs. unfold amplitude. cbn [fst snd]. rewrite <- coherence_population. pose proof (hermitian_real A HA j) as H1. pose proof (f_equal snd (coherence_sym s j j Hs)) as H2. cbn in H2.
  assert (H3 : snd (coherence s j j) = 0) by lra. clear H2. apply C_eq; cbn [fst snd Cmul RtoC]; rewrite H1, H3; ring.
Qed.
Definition square_abs (z : C) : R := fst z * fst z + snd z * snd z.
End Elements.
Section Waves.
Context (n : nat) (V : mat) (E : nat -> R).
(* <j|rho|k> *)
Lemma expectation_waves A s t : SpecExpect.mean n A (evolved n V E t s) = Csum (seq 0 n) (fun k => Csum (seq 0 n) (fun j => element n V A k j * coherence n V s j k * cis ((E k - E j) * t)))%C.
Proof.
  assert (P : forall j k, cis ((E k - E j) * t) = (cis (E k * t) * cis (- (E j * t)))%C) by (intros j k; rewrite <- cis_add; f_equal; ring).
  destruct s as [psi|rho]; unfold SpecExpect.mean, evolved.
  - unfold inner at 1, apply, coherence. set (c := fun j => inner n (column V j) psi).
    transitivity (Csum (seq 0 n) (fun i => Csum (seq 0 n) (fun m => Csum (seq 0 n) (fun k => Csum (seq 0 n) (fun j => Cconj (V i k) * A i m * V m j * (c j * Cconj (c k)) * cis ((E k - E j) * t))))))%C.
    + apply Csum_ext. intros i _. rewrite <- Csum_mul_l. apply Csum_ext. intros m _. rewrite Csum_conj, <- Csum_mul_r. apply Csum_ext. intros k _.
      rewrite <- !Csum_mul_l. apply Csum_ext. intros j _. rewrite P, !Cconj_mul, cis_conj, Ropp_involutive. unfold c. ring.
    + transitivity (Csum (seq 0 n) (fun i => Csum (seq 0 n) (fun k => Csum (seq 0 n) (fun m => Csum (seq 0 n) (fun j => Cconj (V i k) * A i m * V m j * (c j * Cconj (c k)) * cis ((E k - E j) * t))))))%C; [apply Csum_ext; intros i _; apply Csum_swap|].
      rewrite Csum_swap. apply Csum_ext. intros k _.
      transitivity (Csum (seq 0 n) (fun i => Csum (seq 0 n) (fun j => Csum (seq 0 n) (fun m => Cconj (V i k) * A i m * V m j * (c j * Cconj (c k)) * cis ((E k - E j) * t)))))%C; [apply Csum_ext; intros i _; apply Csum_swap|].
      rewrite Csum_swap. apply Csum_ext. intros j _. rewrite element_sum. rewrite <- !Csum_mul_r. apply Csum_ext. intros i _. rewrite <- !Csum_mul_r. apply Csum_ext. intros m _. unfold c. ring.
  - unfold tr, mul, coherence.
    transitivity (Csum (seq 0 n) (fun i => Csum (seq 0 n) (fun m => Csum (seq 0 n) (fun k => Csum (seq 0 n) (fun j => Cconj (V i k) * A i m * V m j * element n V rho j k * cis ((E k - E j) * t))))))%C.
    + apply Csum_ext. intros i _. apply Csum_ext. intros m _. rewrite <- Csum_mul_l. transitivity (Csum (seq 0 n) (fun j => Csum (seq 0 n) (fun k => Cconj (V i k) * A i m * V m j * element n V rho j k * cis ((E k - E j) * t))))%C; [|apply Csum_swap].
      apply Csum_ext. intros j _. rewrite <- Csum_mul_l. apply Csum_ext. intros k _. rewrite P. ring.
    + transitivity (Csum (seq 0 n) (fun i => Csum (seq 0 n) (fun k => Csum (seq 0 n) (fun m => Csum (seq 0 n) (fun j => Cconj (V i k) * A i m * V m j * element n V rho j k * cis ((E k - E j) * t))))))%C; [apply Csum_ext; intros i _; apply Csum_swap|].
      rewrite Csum_swap. apply Csum_ext. intros k _.
      transitivity (Csum (seq 0 n) (fun i => Csum (seq 0 n) (fun j => Csum (seq 0 n) (fun m => Cconj (V i k) * A i m * V m j * element n V rho j k * cis ((E k - E j) * t)))))%C; [apply Csum_ext; intros i _; apply Csum_swap|].
      rewrite Csum_swap. apply Csum_ext. intros j _. rewrite (element_sum n V A). rewrite <- !Csum_mul_r. apply Csum_ext. intros i _. rewrite <- !Csum_mul_r. apply Csum_ext. intros m _. ring.
Qed.
Lemma expectation_average A s : distinct_energies n E ->
  time_average (expectation n V E A s) (Rsum (seq 0 n) (fun j => fst (element n V A j j * coherence n V s j j)%C)).
Proof.
  intros HE. set (P := list_prod (seq 0 n) (seq 0 n)).
  apply average_ext with (fun t => fst (Csum P (fun x => amplitude n V A s x * cis ((E (fst x) - E (snd x)) * t)))%C).
  { intros t. unfold expectation. rewrite expectation_waves. unfold P. rewrite Csum_prod. reflexivity. }
  replace (Rsum (seq 0 n) (fun j => fst (element n V A j j * coherence n V s j j)%C)) with (Rsum P (fun x => if Req_EM_T (E (fst x) - E (snd x)) 0 then fst (amplitude n V A s x) else 0)); [apply average_waves|].
  unfold P. rewrite Rsum_prod. apply Rsum_ext. intros k Hk. apply in_seq in Hk. rewrite <- (Rsum_delta n k (fun j => fst (element n V A k j * coherence n V s j k)%C)) by lia. apply Rsum_ext. intros j Hj. apply in_seq in Hj. cbn [fst snd].
  destruct (Req_EM_T (E k - E j) 0) as [H|H]; destruct (Nat.eqb_spec k j) as [H'|H']; try reflexivity; [destruct H'; apply HE; lia || lra|subst; lra].
Qed.
Lemma expectation_real A s t : hermitian n A -> hermitian_state n s -> snd (SpecExpect.mean n A (evolved n V E t s)) = 0.
Proof.
  intros HA Hs. assert (H : Cconj (SpecExpect.mean n A (evolved n V E t s)) = SpecExpect.mean n A (evolved n V E t s)).
  { rewrite expectation_waves, Csum_conj, Csum_swap. rewrite (Csum_ext (seq 0 n) _ (fun x => Csum (seq 0 n) (fun y => Cconj (element n V A x y * coherence n V s y x * cis ((E x - E y) * t))))%C) by (intros x _; apply Csum_conj).
    apply Csum_ext. intros j _. apply Csum_ext. intros k _. rewrite !Cconj_mul, cis_conj, <- (hermitian_element n V A HA j k), <- (coherence_sym n V s k j Hs). f_equal. f_equal. ring. }
  apply (f_equal snd) in H. cbn in H. lra.
Qed.
(* the average of the square of the expectation value *)
Lemma expectation_square_average A s : distinct_gaps n E -> hermitian n A -> hermitian_state n s ->
  time_average (fun t => expectation n V E A s t * expectation n V E A s t)
    (Rsum (seq 0 n) (fun j => fst (element n V A j j) * population n V s j) * Rsum (seq 0 n) (fun j => fst (element n V A j j) * population n V s j) +
     Rsum (seq 0 n) (fun k => Rsum (seq 0 n) (fun j => if (k =? j)%nat then 0 else square_abs (amplitude n V A s (k, j))))).
Proof.
  intros HE HA Hs. set (P := list_prod (seq 0 n) (seq 0 n)). set (w := fun x : nat * nat => E (fst x) - E (snd x)).
  apply average_ext with (fun t => fst (Csum (list_prod P P) (fun x => (amplitude n V A s (fst x) * Cconj (amplitude n V A s (snd x))) * cis ((w (fst x) - w (snd x)) * t)))%C).
  { intros t. unfold expectation. set (z := SpecExpect.mean n A (evolved n V E t s)). assert (Hz : snd z = 0) by (apply expectation_real; assumption).
    transitivity (fst (z * Cconj z)%C); [|cbn; rewrite Hz; ring]. f_equal. rewrite Csum_prod.
    assert (Ez : z = Csum P (fun x => amplitude n V A s x * cis (w x * t))%C) by (unfold z, P; rewrite expectation_waves, Csum_prod; reflexivity).
    rewrite Ez. rewrite Csum_conj, <- Csum_mul_r. apply Csum_ext. intros x _. rewrite <- Csum_mul_l. apply Csum_ext. intros y _. cbn [fst snd]. rewrite !Cconj_mul, cis_conj.
    replace ((w x - w y) * t) with (w x * t + - (w y * t)) by ring. rewrite cis_add. ring. }
  match goal with |- time_average _ ?a => replace a with (Rsum (list_prod P P) (fun x => if Req_EM_T (w (fst x) - w (snd x)) 0 then fst (amplitude n V A s (fst x) * Cconj (amplitude n V A s (snd x)))%C else 0)); [apply average_waves|] end.
  rewrite Rsum_prod. unfold P at 1. rewrite Rsum_prod.
  transitivity (Rsum (seq 0 n) (fun k => Rsum (seq 0 n) (fun j => (if (k =? j)%nat then fst (element n V A j j) * population n V s j * Rsum (seq 0 n) (fun l => fst (element n V A l l) * population n V s l) else 0) + (if (k =? j)%nat then 0 else square_abs (amplitude n V A s (k, j)))))).
  - apply Rsum_ext. intros k Hk. apply Rsum_ext. intros j Hj. apply in_seq in Hk, Hj. unfold P. rewrite Rsum_prod. cbn [fst snd]. destruct (Nat.eqb_spec k j) as [Ekj|Ekj].
    + subst j. rewrite Rplus_0_r, <- Rsum_scal. apply Rsum_ext. intros l Hl. apply in_seq in Hl.
      rewrite <- (Rsum_delta n l (fun m => fst (element n V A k k) * population n V s k * (fst (element n V A m m) * population n V s m))) by lia. apply Rsum_ext. intros m Hm. apply in_seq in Hm.
      unfold w. cbn [fst snd]. destruct (Req_EM_T (E k - E k - (E l - E m)) 0) as [H|H]; destruct (Nat.eqb_spec l m) as [H'|H']; try reflexivity.
      * subst m. rewrite !amplitude_diag by assumption. cbn. ring.
      * exfalso. destruct (HE k k l m ltac:(lia) ltac:(lia) ltac:(lia) ltac:(lia) ltac:(lra)) as [[_ H1]|[H1 H2]]; [contradiction|congruence].
      * subst. lra.
    + rewrite Rplus_0_l. transitivity (Rsum (seq 0 n) (fun l => if (k =? l)%nat then square_abs (amplitude n V A s (l, j)) else 0)); [|rewrite (Rsum_delta n k (fun l => square_abs (amplitude n V A s (l, j)))) by lia; reflexivity].
      apply Rsum_ext. intros l Hl. apply in_seq in Hl. destruct (Nat.eqb_spec k l) as [Ekl|Ekl].
      * subst l. rewrite <- (Rsum_delta n j (fun m => square_abs (amplitude n V A s (k, m)))) by lia. apply Rsum_ext. intros m Hm. apply in_seq in Hm. unfold w. cbn [fst snd].
        destruct (Req_EM_T (E k - E j - (E k - E m)) 0) as [H|H]; destruct (Nat.eqb_spec j m) as [H'|H']; try reflexivity.
        -- subst m. unfold square_abs. cbn. ring.
        -- exfalso. destruct (HE k j k m ltac:(lia) ltac:(lia) ltac:(lia) ltac:(lia) ltac:(lra)) as [[H1 _]|[_ H1]]; congruence.
        -- subst. lra.
      * apply Rsum_zero. intros m Hm. apply in_seq in Hm. unfold w. cbn [fst snd]. destruct (Req_EM_T (E k - E j - (E l - E m)) 0) as [H|H]; [|reflexivity].
        exfalso. destruct (HE k j l m ltac:(lia) ltac:(lia) ltac:(lia) ltac:(lia) ltac:(lra)) as [[H1 _]|[H1 _]]; congruence.
  - rewrite <- Rsum_mul_r, <- Rsum_add. apply Rsum_ext. intros k Hk. apply in_seq in Hk. rewrite Rsum_add. f_equal.
    rewrite (Rsum_delta n k (fun j => fst (element n V A j j) * population n V s j * Rsum (seq 0 n) (fun l => fst (element n V A l l) * population n V s l))) by lia. reflexivity.
Qed.
End Waves.
