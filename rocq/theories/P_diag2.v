(* Lemmas about diag_ensemble: the check of the energies, the values for one state, mixtures. *)
From Verif Require Import AuxN SpecC SpecExpm SpecLanczos SpecExpect SpecEntropy SpecDiag M_entropy M_diag P_entropy P_diag.
From Coq Require Import Lra Sorting.Sorted.
Local Open Scope R_scope.

(* ---- the check of the energies ---- *)
Fixpoint separated (d : R) (l : list R) : Prop := match l with [] => True | x :: l' => Forall (fun y => d <= Rabs (x - y)) l' /\ separated d l' end.
Lemma separated_perm d l l' : Permutation l l' -> separated d l -> separated d l'.
Proof.
  induction 1 as [|x l l' P IH|x y l|l l' l'' P1 IH1 P2 IH2]; cbn [separated]; [tauto| | |tauto].
  - intros [H1 H2]. split; [|apply IH, H2]. rewrite Forall_forall in *. intros y Hy. apply H1. apply Permutation_sym in P. apply (Permutation_in _ P Hy).
  - intros [H1 [H2 H3]]. inversion H1 as [|? ? Hx Hl]; subst. split; [constructor; [rewrite Rabs_minus_sym; exact Hx|exact H2]|]. split; assumption.
Qed.
Lemma insert_perm x l : Permutation (x :: l) (insert x l).
Proof. induction l as [|y l IH]; cbn [insert]; [apply Permutation_refl|]. destruct (Rle_dec x y); [apply Permutation_refl|]. eapply Permutation_trans; [apply perm_swap|]. apply perm_skip, IH. Qed.
Lemma sort_perm l : Permutation l (M_diag.sort l).
Proof. induction l as [|x l IH]; [constructor|]. cbn [M_diag.sort fold_right]. eapply Permutation_trans; [apply perm_skip, IH|apply insert_perm]. Qed.
Lemma insert_sorted x l : StronglySorted Rle l -> StronglySorted Rle (insert x l).
Proof.
  induction 1 as [|y l Hs IH Hl]; cbn [insert]; [repeat constructor|]. destruct (Rle_dec x y) as [H|H].
  - constructor; [constructor; assumption|]. constructor; [exact H|]. rewrite Forall_forall in *. intros z Hz. specialize (Hl z Hz). lra.
  - constructor; [exact IH|]. rewrite Forall_forall in *. intros z Hz. apply (Permutation_in _ (Permutation_sym (insert_perm x l))) in Hz. destruct Hz as [<-|Hz]; [lra|exact (Hl z Hz)].
Qed.
Lemma sort_sorted l : StronglySorted Rle (M_diag.sort l). Proof. induction l as [|x l IH]; [constructor|apply insert_sorted, IH]. Qed.
Lemma sorted_diffs d l : 0 < d -> StronglySorted Rle l -> (Forall (fun x => d <= x) (diff l) <-> separated d l).
Proof.
  intros Hd. induction 1 as [|x l Hs IH Hl]; [split; [constructor|constructor]|]. destruct l as [|y l]; [split; [intros _; cbn; repeat constructor|constructor]|].
  change (diff (x :: y :: l)) with ((y - x) :: diff (y :: l)). cbn [separated] in *. rewrite Forall_cons_iff, IH. inversion Hl as [|? ? Hxy Hxl]; subst. inversion Hs as [|? ? Hs' Hyl]; subst. split.
  - intros [H1 H2]. split; [|exact H2]. constructor; [rewrite Rabs_minus_sym, Rabs_pos_eq; lra|]. rewrite Forall_forall in *. intros z Hz. specialize (Hyl z Hz). specialize (Hxl z Hz). rewrite Rabs_minus_sym, Rabs_pos_eq; lra.
  - intros [H1 H2]. split; [|exact H2]. inversion H1 as [|? ? H3 _]; subst. rewrite Rabs_minus_sym, Rabs_pos_eq in H3; lra.
Qed.
Lemma separated_map d (E : nat -> R) n : separated d (map E (seq 0 n)) <-> (forall j k, (j < n)%nat -> (k < n)%nat -> j <> k -> d <= Rabs (E j - E k)).
Proof.
  assert (G : forall a m, separated d (map E (seq a m)) <-> (forall j k, (a <= j)%nat -> (j < k)%nat -> (k < a + m)%nat -> d <= Rabs (E j - E k))).
  { intros a m. revert a. induction m as [|m IH]; intros a; [split; [intros _ j k H1 H2 H3; lia|constructor]|]. cbn [seq map separated]. rewrite IH. split.
    - intros [H1 H2] j k Hj Hk Hm. destruct (Nat.eq_dec j a) as [->|Ha]; [|apply H2; lia]. rewrite Forall_forall in H1. apply H1. apply in_map, in_seq. lia.
    - intros H. split; [|intros j k Hj Hk Hm; apply H; lia]. apply Forall_forall. intros y Hy. apply in_map_iff in Hy. destruct Hy as [k [<- Hk]]. apply in_seq in Hk. apply H; lia. }
  rewrite G. split; [intros H j k Hj Hk Hne; destruct (Nat.lt_ge_cases j k); [apply H; lia|rewrite Rabs_minus_sym; apply H; lia]|intros H j k Hj Hjk Hk; apply H; lia].
Qed.
Lemma degenerate_spec eps E n : 0 < eps -> (degenerate eps (map E (seq 0 n)) = false <-> forall j k, (j < n)%nat -> (k < n)%nat -> j <> k -> 1000 * eps <= Rabs (E j - E k)).
Proof.
  intros He. rewrite <- separated_map. unfold degenerate. set (l := map E (seq 0 n)).
  assert (Hd : existsb (fun d => if Rlt_dec d (1000 * eps) then true else false) (diff (M_diag.sort l)) = false <-> Forall (fun x => 1000 * eps <= x) (diff (M_diag.sort l))).
  { induction (diff (M_diag.sort l)) as [|x m IH]; [split; [constructor|reflexivity]|]. cbn [existsb]. rewrite orb_false_iff, IH, Forall_cons_iff. destruct (Rlt_dec x (1000 * eps)) as [H|H]; split; intros [H1 H2]; split; try assumption; try discriminate; try lra; reflexivity. }
  rewrite Hd, (sorted_diffs (1000 * eps) (M_diag.sort l)) by (lra || apply sort_sorted). split; apply separated_perm; [apply Permutation_sym|]; apply sort_perm.
Qed.

(* ---- populations ---- *)
Definition system_of (s : state) : system := match s with Ket psi => Vector psi | Density rho => Matrix rho end.
Lemma floored_big eps x : / 10 ^ 16 < x -> floored eps x = x. Proof. intros H. unfold floored. destruct (Rle_dec x (/ 10 ^ 16)); [lra|reflexivity]. Qed.
Lemma floored_close eps x : 0 <= x -> / 10 ^ 16 <= eps -> Rabs (floored eps x - x) <= eps.
Proof.
  intros Hx He. assert (H10 : 0 < / 10 ^ 16) by (apply Rinv_0_lt_compat; lra). unfold floored. destruct (Rle_dec x (/ 10 ^ 16)); [apply Rabs_le; lra|replace (x - x) with 0 by ring; rewrite Rabs_R0; lra].
Qed.
Lemma np_sqrt_pos x : 0 <= x -> np_sqrt (Fin x) = Fin (sqrt x). Proof. intros H. unfold np_sqrt. destruct (Rlt_dec x 0); [lra|reflexivity]. Qed.
Section Values.
Context (n : nat) (V : mat).
Definition rho_of (s : state) : nat -> R := match s with Ket psi => rho_pure n V psi | Density rho => rho_DM n V rho end.
Lemma rho_of_population s j : rho_of s j = population n V s j.
Proof.
  destruct s as [psi|rho]; [|reflexivity]. unfold rho_of, rho_pure, population, inner, column.
  replace (Csum (seq 0 n) (fun i => Cconj (psi i) * V i j)%C) with (Cconj (Csum (seq 0 n) (fun k => Cconj (V k j) * psi k)%C)); [cbn [fst snd Cconj]; ring|].
  rewrite Csum_conj. apply Csum_ext. intros i _. rewrite Cconj_mul, Cconj_invol. ring.
Qed.
Lemma obs_d_ext A r r' : (forall j, (j < n)%nat -> r j = r' j) -> obs_d n V A r = obs_d n V A r'.
Proof. intros H. apply Rsum_ext. intros j Hj. apply in_seq in Hj. rewrite H by lia. reflexivity. Qed.
Lemma delta_t2_ext A r r' : (forall j, (j < n)%nat -> r j = r' j) -> delta_t2 n V A r = delta_t2 n V A r'.
Proof. intros H. unfold delta_t2. f_equal. apply Csum_ext. intros j Hj. apply Csum_ext. intros k Hk. apply in_seq in Hj, Hk. rewrite (H j), (H k) by lia. reflexivity. Qed.
Lemma delta_q2_ext A r r' : (forall j, (j < n)%nat -> r j = r' j) -> delta_q2 n V A r = delta_q2 n V A r'.
Proof. intros H. unfold delta_q2. rewrite (obs_d_ext A r r' H), (delta_t2_ext A r r' H). f_equal. f_equal. apply Rsum_ext. intros j Hj. apply in_seq in Hj. rewrite H by lia. reflexivity. Qed.
Lemma map_ext_n (r r' : nat -> R) : (forall j, (j < n)%nat -> r j = r' j) -> map r (seq 0 n) = map r' (seq 0 n).
Proof. intros H. apply map_ext_in. intros j Hj. apply in_seq in Hj. apply H. lia. Qed.
Lemma values_for_ext o dt dq sd alpha r r' : (forall j, (j < n)%nat -> r j = r' j) -> values_for n V o dt dq sd alpha r = values_for n V o dt dq sd alpha r'.
Proof.
  intros H. unfold values_for. rewrite (map_ext_n r r' H). destruct (ensemble_entropy alpha (map r' (seq 0 n))); [|reflexivity]. destruct (obs_matrix o) as [A|]; [|reflexivity]. rewrite (obs_d_ext A r r' H), (delta_t2_ext A r r' H), (delta_q2_ext A r r' H). reflexivity.
Qed.
Lemma element_product A B j k : unitary n V -> element n V (mul n A B) j k = Csum (seq 0 n) (fun m => element n V A j m * element n V B m k)%C.
Proof.
  intros [_ HV].
  assert (R1 : element n V (mul n A B) j k = Csum (seq 0 n) (fun i => Csum (seq 0 n) (fun x => Cconj (V i j) * A i x * Csum (seq 0 n) (fun y => B x y * V y k)%C)%C)%C).
  { rewrite element_sum. apply Csum_ext. intros i _. unfold mul.
    transitivity (Csum (seq 0 n) (fun m => Csum (seq 0 n) (fun x => Cconj (V i j) * A i x * (B x m * V m k))))%C.
    - apply Csum_ext. intros m _. rewrite <- Csum_mul_l, <- Csum_mul_r. apply Csum_ext. intros x _. ring.
    - rewrite Csum_swap. apply Csum_ext. intros x _. rewrite <- Csum_mul_l. reflexivity. }
  rewrite R1. symmetry. set (g := fun x => Csum (seq 0 n) (fun y => B x y * V y k)%C).
  transitivity (Csum (seq 0 n) (fun m => Csum (seq 0 n) (fun i => Csum (seq 0 n) (fun x => Csum (seq 0 n) (fun x' => Cconj (V i j) * A i x * g x' * (V x m * Cconj (V x' m)))))))%C.
  - apply Csum_ext. intros m _. rewrite element_sum. rewrite <- Csum_mul_r. apply Csum_ext. intros i _. rewrite <- Csum_mul_r. apply Csum_ext. intros x _.
    unfold element, inner, apply, column. rewrite <- Csum_mul_l. apply Csum_ext. intros x' _. fold (g x'). ring.
  - rewrite Csum_swap. apply Csum_ext. intros i _. rewrite Csum_swap. apply Csum_ext. intros x Hx. apply in_seq in Hx. rewrite Csum_swap.
    rewrite (Csum_single (seq 0 n) _ x); [|apply seq_NoDup|apply in_seq; lia|].
    + rewrite Csum_mul_l, (HV x x) by lia. rewrite Nat.eqb_refl. fold (g x). ring.
    + intros x' Hx' Hne. apply in_seq in Hx'. rewrite Csum_mul_l, (HV x x') by lia. destruct (Nat.eqb_spec x x'); [congruence|ring].
Qed.
Lemma population_ket_nonneg psi j : 0 <= population n V (Ket psi) j.
Proof. cbn [population]. apply Rplus_le_le_0_compat; apply Rle_0_sqr. Qed.
Lemma population_total psi : unitary n V -> inner n psi psi = C1 -> Rsum (seq 0 n) (population n V (Ket psi)) = 1.
Proof.
  intros [_ HV] Hn. assert (H : Csum (seq 0 n) (fun j => coherence n V (Ket psi) j j) = C1).
  { rewrite <- Hn. unfold coherence. transitivity (Csum (seq 0 n) (fun j => Csum (seq 0 n) (fun x => Csum (seq 0 n) (fun y => (psi x * Cconj (psi y)) * (V y j * Cconj (V x j))))))%C.
    - apply Csum_ext. intros j _. unfold inner, column. rewrite Csum_conj, <- Csum_mul_r. apply Csum_ext. intros x _. rewrite <- Csum_mul_l. apply Csum_ext. intros y _. rewrite Cconj_mul, Cconj_invol. ring.
    - rewrite Csum_swap. unfold inner. apply Csum_ext. intros x Hx. apply in_seq in Hx. rewrite Csum_swap. rewrite (Csum_single (seq 0 n) _ x); [|apply seq_NoDup|apply in_seq; lia|].
      + rewrite Csum_mul_l, (HV x x) by lia. rewrite Nat.eqb_refl. ring.
      + intros y Hy Hne. apply in_seq in Hy. rewrite Csum_mul_l, (HV y x) by lia. destruct (Nat.eqb_spec y x); [congruence|ring]. }
  apply (f_equal fst) in H. rewrite Csum_fst in H. rewrite <- (Rsum_ext (seq 0 n) (fun j => fst (coherence n V (Ket psi) j j))); [exact H|]. intros j _. apply coherence_population.
Qed.
(* real matrix elements: the code's value is the sum of rho_j rho_k |O_jk|^2 *)
Definition real_elements (A : mat) : Prop := forall j k, (j < n)%nat -> (k < n)%nat -> snd (element n V A j k) = 0.
Lemma delta_t2_real A r : real_elements A ->
  delta_t2 n V A r = Rsum (seq 0 n) (fun j => Rsum (seq 0 n) (fun k => if (j =? k)%nat then 0 else square_abs (element n V A j k) * (r j * r k))).
Proof.
  intros HR. unfold delta_t2. rewrite Csum_fst. apply Rsum_ext. intros j Hj. rewrite Csum_fst. apply Rsum_ext. intros k Hk. apply in_seq in Hj, Hk.
  destruct (j =? k)%nat; [cbn; ring|]. change (rotated n V A j k) with (element n V A j k). unfold square_abs. pose proof (HR j k ltac:(lia) ltac:(lia)) as H. cbn. rewrite H. ring.
Qed.
Lemma amplitude_square A psi j k : square_abs (amplitude n V A (Ket psi) (j, k)) = square_abs (element n V A j k) * (population n V (Ket psi) j * population n V (Ket psi) k).
Proof. unfold amplitude. cbn [fst snd coherence population]. unfold square_abs. cbn. ring. Qed.
Lemma delta_t2_nonneg A r : real_elements A -> (forall j, 0 <= r j) -> 0 <= delta_t2 n V A r.
Proof.
  intros HR Hr. rewrite delta_t2_real by exact HR. apply Rsum_nonneg. intros j _. apply Rsum_nonneg. intros k _. destruct (j =? k)%nat; [lra|].
  apply Rmult_le_pos; [apply Rplus_le_le_0_compat; apply Rle_0_sqr|apply Rmult_le_pos; apply Hr].
Qed.
Lemma hermitian_square A : hermitian n A -> hermitian n (mul n A A).
Proof. intros H i j Hi Hj. unfold mul. rewrite Csum_conj. apply Csum_ext. intros k Hk. apply in_seq in Hk. rewrite Cconj_mul, <- (H i k), <- (H k j) by lia. ring. Qed.
Lemma square_elements A j : unitary n V -> hermitian n A -> fst (element n V (mul n A A) j j) = Rsum (seq 0 n) (fun k => square_abs (element n V A j k)).
Proof.
  intros HV HA. rewrite element_product by exact HV. rewrite Csum_fst. apply Rsum_ext. intros k _. rewrite (hermitian_element n V A HA j k). unfold square_abs. cbn. ring.
Qed.
Lemma delta_q2_value A r : unitary n V -> delta_q2 n V A r = obs_d n V (mul n A A) r - delta_t2 n V A r - obs_d n V A r * obs_d n V A r.
Proof.
  intros HV. unfold delta_q2. f_equal. f_equal. unfold obs_d. apply Rsum_ext. intros j _. change (rotated n V (mul n A A) j j) with (element n V (mul n A A) j j). rewrite element_product by exact HV. ring_simplify. reflexivity.
Qed.
Lemma delta_q2_nonneg A r : unitary n V -> hermitian n A -> real_elements A -> (forall j, 0 <= r j) -> Rsum (seq 0 n) r = 1 -> 0 <= delta_q2 n V A r.
Proof.
  intros HV HA HR Hr H1. rewrite delta_q2_value by exact HV. rewrite delta_t2_real by exact HR. set (m := obs_d n V A r).
  assert (Hle1 : forall k, (k < n)%nat -> r k <= 1).
  { intros k Hk. rewrite <- H1. rewrite <- (Rsum_delta n k r Hk). apply Rsum_le. intros j _. destruct (k =? j)%nat; [lra|apply Hr]. }
  assert (HQ : obs_d n V (mul n A A) r = Rsum (seq 0 n) (fun j => Rsum (seq 0 n) (fun k => square_abs (element n V A j k) * r j))).
  { unfold obs_d. apply Rsum_ext. intros j _. change (rotated n V (mul n A A) j j) with (element n V (mul n A A) j j). rewrite square_elements by assumption. rewrite <- Rsum_mul_r. reflexivity. }
  rewrite HQ, <- Rsum_sub.
  assert (Hsplit : Rsum (seq 0 n) (fun j => fst (element n V A j j) * fst (element n V A j j) * r j) <=
     Rsum (seq 0 n) (fun j => Rsum (seq 0 n) (fun k => square_abs (element n V A j k) * r j) - Rsum (seq 0 n) (fun k => if (j =? k)%nat then 0 else square_abs (element n V A j k) * (r j * r k)))).
  { apply Rsum_le. intros j Hj. apply in_seq in Hj. rewrite <- Rsum_sub. rewrite <- (Rsum_delta n j (fun k => fst (element n V A j k) * fst (element n V A j k) * r j)) by lia. apply Rsum_le. intros k Hk. apply in_seq in Hk.
    destruct (Nat.eqb_spec j k) as [->|Hne].
    - unfold square_abs. rewrite (HR k k) by lia. right. ring.
    - replace (square_abs (element n V A j k) * r j - square_abs (element n V A j k) * (r j * r k)) with (square_abs (element n V A j k) * (r j * (1 - r k))) by ring.
      apply Rmult_le_pos; [apply Rplus_le_le_0_compat; apply Rle_0_sqr|apply Rmult_le_pos; [apply Hr|pose proof (Hle1 k ltac:(lia)); lra]]. }
  assert (HJ : 0 <= Rsum (seq 0 n) (fun j => r j * ((fst (element n V A j j) - m) * (fst (element n V A j j) - m)))) by (apply Rsum_nonneg; intros j _; apply Rmult_le_pos; [apply Hr|apply Rle_0_sqr]).
  assert (HJ2 : Rsum (seq 0 n) (fun j => r j * ((fst (element n V A j j) - m) * (fst (element n V A j j) - m))) = Rsum (seq 0 n) (fun j => fst (element n V A j j) * fst (element n V A j j) * r j) - m * m).
  { transitivity (Rsum (seq 0 n) (fun j => (fst (element n V A j j) * fst (element n V A j j) * r j + (-2 * m) * (fst (rotated n V A j j) * r j)) + m * m * r j)).
    - apply Rsum_ext. intros j _. change (rotated n V A j j) with (element n V A j j). ring.
    - rewrite !Rsum_add, !Rsum_scal, H1. fold (obs_d n V A r). fold m. ring. }
  lra.
Qed.
End Values.
Lemma obs_average n V E A s : hermitian n A -> hermitian_state n s -> distinct_energies n E -> time_average (expectation n V E A s) (obs_d n V A (population n V s)).
Proof.
  intros HA Hs HE. replace (obs_d n V A (population n V s)) with (Rsum (seq 0 n) (fun j => fst (element n V A j j * coherence n V s j j)%C)); [apply expectation_average, HE|].
  apply Rsum_ext. intros j _. change (element n V A j j * coherence n V s j j)%C with (amplitude n V A s (j, j)). rewrite amplitude_diag by assumption. reflexivity.
Qed.
Lemma square_average n V E A psi : distinct_gaps n E -> hermitian n A -> real_elements n V A ->
  time_average (fun t => expectation n V E A (Ket psi) t * expectation n V E A (Ket psi) t)
    (obs_d n V A (population n V (Ket psi)) * obs_d n V A (population n V (Ket psi)) + delta_t2 n V A (population n V (Ket psi))).
Proof.
  intros HE HA HR. rewrite delta_t2_real by exact HR.
  rewrite (Rsum_ext (seq 0 n) _ (fun k => Rsum (seq 0 n) (fun j => if (k =? j)%nat then 0 else square_abs (amplitude n V A (Ket psi) (k, j))))).
  - apply expectation_square_average; [exact HE|exact HA|exact Logic.I].
  - intros k _. apply Rsum_ext. intros j _. rewrite amplitude_square. reflexivity.
Qed.
Lemma gaps_energies n E : distinct_gaps n E -> distinct_energies n E.
Proof. intros H j k Hj Hk He. destruct (H j k j j Hj Hk Hj Hj) as [[H1 _]|[_ H1]]; [lra|exact H1|symmetry; exact H1]. Qed.
Lemma separated_distinct n eps E : 0 < eps -> (forall j k, (j < n)%nat -> (k < n)%nat -> j <> k -> 1000 * eps <= Rabs (E j - E k)) -> distinct_energies n E.
Proof.
  intros He H j k Hj Hk Hjk. destruct (Nat.eq_dec j k) as [H0|H0]; [exact H0|]. specialize (H j k Hj Hk H0). rewrite Hjk in H. replace (E k - E k) with 0 in H by ring. rewrite Rabs_R0 in H. lra.
Qed.

(* ---- mixtures ---- *)
Lemma gibbs_shift E beta : E <> [] -> map (fun x => x / Rsum (thermal E beta) (fun y => y)) (thermal E beta) = map (gibbs beta E) (seq 0 (length E)).
Proof.
  intros HE. set (e0 := nth 0 E 0). assert (Z : Rsum (thermal E beta) (fun y => y) = exp (beta * e0) * Rsum E (fun e => exp (- beta * e))).
  { unfold thermal. rewrite Rsum_map, <- Rsum_scal. apply Rsum_ext. intros e _. rewrite <- exp_plus. f_equal. fold e0. ring. }
  assert (HZ : 0 < Rsum E (fun e => exp (- beta * e))) by (apply Rsum_pos; [exact HE|intros x _; apply exp_pos]).
  rewrite Z. unfold thermal at 1. rewrite map_map.
  assert (G : forall l a, (forall k, (k < length l)%nat -> nth (a + k) E 0 = nth k l 0) -> map (fun x => exp (- beta * (x - nth 0 E 0)) / (exp (beta * e0) * Rsum E (fun e => exp (- beta * e)))) l = map (gibbs beta E) (seq a (length l))).
  { induction l as [|x l IH]; intros a H; [reflexivity|]. cbn [map length seq]. f_equal.
    - unfold gibbs. pose proof (H 0%nat ltac:(cbn [length]; lia)) as H0. rewrite Nat.add_0_r in H0. cbn [nth] in H0. rewrite H0.
      replace (- beta * (x - nth 0 E 0)) with (beta * e0 + - beta * x) by (unfold e0; ring). rewrite exp_plus. field. split; [lra|]. apply Rgt_not_eq, exp_pos.
    - apply IH. intros k Hk. pose proof (H (S k) ltac:(cbn [length]; lia)) as H1. cbn [nth] in H1. rewrite <- H1. f_equal. lia. }
  apply G. intros k _. reflexivity.
Qed.
Lemma gibbs_total E beta : E <> [] -> Rsum (seq 0 (length E)) (gibbs beta E) = 1 /\ forall j, 0 < gibbs beta E j.
Proof.
  intros HE. assert (HZ : 0 < Rsum E (fun e => exp (- beta * e))) by (apply Rsum_pos; [exact HE|intros x _; apply exp_pos]). split; [|intros j; apply Rdiv_lt_0_compat; [apply exp_pos|exact HZ]].
  unfold gibbs, Rdiv. rewrite Rsum_mul_r. replace (Rsum (seq 0 (length E)) (fun x => exp (- beta * nth x E 0))) with (Rsum E (fun e => exp (- beta * e))); [apply Rinv_r; lra|].
  rewrite <- (Rsum_map (fun j => nth j E 0) (seq 0 (length E)) (fun e => exp (- beta * e))). f_equal. clear. induction E as [|x E IH] using rev_ind; [reflexivity|].
  rewrite app_length, Nat.add_1_r, seq_S, map_app. cbn [map]. rewrite app_nth2, Nat.sub_diag by (cbn; lia). cbn [nth]. f_equal. rewrite IH at 1. apply map_ext_in. intros j Hj. apply in_seq in Hj. rewrite app_nth1 by lia. reflexivity.
Qed.
Lemma np_dot_fin (x w : nat -> R) m : np_dot (map (fun p => Fin (x p)) (seq 0 m)) (map w (seq 0 m)) = Fin (Rsum (seq 0 m) (fun p => w p * x p)).
Proof.
  unfold np_dot. assert (G : forall l acc, fold_left np_add (map (fun y => np_mul (snd y) (fst y)) (combine (map (fun p => Fin (x p)) l) (map w l))) (Fin acc) = Fin (acc + Rsum l (fun p => w p * x p))).
  { induction l as [|p l IH]; intros acc; cbn [map combine fold_left]; [rewrite Rsum_nil, Rplus_0_r; reflexivity|]. cbn [fst snd np_mul np_add]. rewrite IH, Rsum_cons. f_equal. ring. }
  rewrite G, Rplus_0_l. reflexivity.
Qed.
Lemma truncate_small x : 0 <= x < 1 -> truncate x = 0.
Proof.
  intros H. unfold truncate. destruct (Rle_dec 0 x); [|lra]. replace (Int_part x) with 0%Z; [reflexivity|]. unfold Int_part. assert (Hu : up x = 1%Z); [|rewrite Hu; reflexivity].
  symmetry. apply tech_up; cbn; lra.
Qed.
Lemma key_eqb_refl k : key_eqb k k = true. Proof. destruct k; reflexivity. Qed.
Lemma key_eqb_eq a b : key_eqb a b = true -> a = b. Proof. destruct a, b; cbn; intros H; (reflexivity || discriminate H). Qed.
Lemma lookup_in {X} k (l : list (key * X)) d x : NoDup (map fst l) -> In (k, x) l -> lookup k l d = x.
Proof.
  unfold lookup. induction l as [|[k' y] l IH]; intros HN HI; [destruct HI|]. cbn [find fst]. inversion HN as [|? ? H1 H2]; subst. destruct HI as [HI|HI].
  - injection HI as -> ->. rewrite key_eqb_refl. reflexivity.
  - destruct (key_eqb k k') eqn:Ek; [|apply IH; assumption]. apply key_eqb_eq in Ek. subst. destruct H1. apply (in_map fst) in HI. exact HI.
Qed.
Lemma values_keys n V o dt dq sd alpha r l : values_for n V o dt dq sd alpha r = Some l -> map fst l = keys_for o dt dq sd.
Proof.
  unfold values_for, keys_for. destruct (ensemble_entropy alpha _); [|discriminate]. intros H. injection H as <-. destruct (obs_matrix o); destruct dt, dq, sd; reflexivity.
Qed.
Lemma keys_nodup o dt dq sd : NoDup (keys_for o dt dq sd).
Proof. unfold keys_for. destruct (obs_matrix o); destruct dt, dq, sd; cbn; repeat (constructor; [cbn; intuition discriminate|]); constructor. Qed.
