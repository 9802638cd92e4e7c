(* Uniqueness of the solutions of v' = A v for every matrix A (by the inequality of Gronwall), and exp((s + t) A) = exp(t A) exp(s A). *)
From Verif Require Import AuxN SpecC SpecExpm SpecLanczos SpecExpect SpecFloquet SpecBlock P_floquet P_block.
Local Open Scope nat_scope.

Lemma dl_exp c s : derivable_pt_lim (fun u => exp (c * u)) s (c * exp (c * s))%R.
Proof.
  assert (L : derivable_pt_lim (fun u => c * u)%R s c).
  { refine (eq_ind (c * 1)%R (fun d => derivable_pt_lim (fun u => c * u)%R s d) _ c (Rmult_1_r c)). exact (derivable_pt_lim_scal id c s 1 (derivable_pt_lim_id s)). }
  rewrite Rmult_comm. exact (derivable_pt_lim_comp (fun u => c * u)%R exp s c _ L (derivable_pt_lim_exp (c * s))).
Qed.
Lemma falls h h' a b : (forall s, derivable_pt_lim h s (h' s)) -> (forall s, (h' s <= 0)%R) -> (a <= b)%R -> (h b <= h a)%R.
Proof.
  intros D N [L|<-]; [|apply Rle_refl]. destruct (MVT_cor2 h h' a b L (fun c _ => D c)) as (c & E & _). pose proof (N c). nra.
Qed.
Lemma gronwall g g' M a : (forall s, derivable_pt_lim g s (g' s)) -> (forall s, (Rabs (g' s) <= M * g s)%R) -> g a = 0%R -> forall t, (g t <= 0)%R.
Proof.
  intros D B Z t.
  assert (DM : forall c s, derivable_pt_lim (fun u => g u * exp (c * u))%R s (g' s * exp (c * s) + g s * (c * exp (c * s)))%R).
  { intros c s. exact (derivable_pt_lim_mult g (fun u => exp (c * u)) s _ _ (D s) (dl_exp c s)). }
  destruct (Rle_dec a t) as [L|L].
  - assert (Q : (g t * exp (- M * t) <= g a * exp (- M * a))%R).
    { apply (falls (fun u => g u * exp (- M * u))%R _ a t (DM (- M)%R)); [|exact L]. intro s. pose proof (exp_pos (- M * s)) as P. pose proof (B s) as Bs. pose proof (Rle_abs (g' s)).
      replace (g' s * exp (- M * s) + g s * (- M * exp (- M * s)))%R with (- ((M * g s - g' s) * exp (- M * s)))%R by ring.
      assert (0 <= (M * g s - g' s) * exp (- M * s))%R by (apply Rmult_le_pos; lra). lra. }
    rewrite Z, Rmult_0_l in Q. pose proof (exp_pos (- M * t)). nra.
  - assert (Q : (- (g a * exp (M * a)) <= - (g t * exp (M * t)))%R).
    { apply (falls (fun u => - (g u * exp (M * u)))%R (fun s => - (g' s * exp (M * s) + g s * (M * exp (M * s))))%R t a); [|intro s|lra].
      - intro s. apply (derivable_pt_lim_opp (fun u => g u * exp (M * u))%R). apply DM.
      - pose proof (exp_pos (M * s)) as P. pose proof (B s) as Bs. pose proof (Rle_abs (- g' s)) as U. rewrite Rabs_Ropp in U.
        replace (g' s * exp (M * s) + g s * (M * exp (M * s)))%R with ((M * g s + g' s) * exp (M * s))%R by ring.
        assert (0 <= (M * g s + g' s) * exp (M * s))%R by (apply Rmult_le_pos; lra). lra. }
    rewrite Z, Rmult_0_l in Q. pose proof (exp_pos (M * t)). nra.
Qed.

Lemma Rsum_abs {X} (l : list X) f : (Rabs (Rsum l f) <= Rsum l (fun x => Rabs (f x)))%R.
Proof.
  induction l as [|x l IH]; [cbn; rewrite Rabs_R0; lra|]. change (Rabs (f x + Rsum l f) <= Rabs (f x) + Rsum l (fun x => Rabs (f x)))%R.
  pose proof (Rabs_triang (f x) (Rsum l f)). lra.
Qed.
Lemma Rsum_below {X} (l : list X) f g : (forall x, In x l -> (f x <= g x)%R) -> (Rsum l f <= Rsum l g)%R.
Proof.
  induction l as [|x l IH]; intro H; [cbn; lra|]. change (f x + Rsum l f <= g x + Rsum l g)%R. pose proof (H x (or_introl eq_refl)). assert (Rsum l f <= Rsum l g)%R by (apply IH; intros; apply H; now right). lra.
Qed.
Lemma Rsum_factor {X} (l : list X) f c : Rsum l (fun x => f x * c)%R = (Rsum l f * c)%R.
Proof. induction l as [|x l IH]; [cbn; ring|]. change (f x * c + Rsum l (fun x => f x * c) = (f x + Rsum l f) * c)%R. rewrite IH. ring. Qed.

Section Unique.
Variable n : nat.
Variable A : mat.
Definition sq (z : C) : R := (fst z * fst z + snd z * snd z)%R.
Definition len2 (v : vec) : R := Rsum (seq 0 n) (fun k => sq (v k)).
Definition weight (z : C) : R := (Rabs (fst z) + Rabs (snd z))%R.
Lemma sq_pos z : (0 <= sq z)%R. Proof. unfold sq. nra. Qed.
Lemma len2_term v k : k < n -> (sq (v k) <= len2 v)%R.
Proof.
  intro Hk. assert (Hi : In k (seq 0 n)) by (apply in_seq; lia). unfold len2. induction (seq 0 n) as [|x l IH]; [contradiction|].
  change (sq (v k) <= sq (v x) + Rsum l (fun k => sq (v k)))%R. pose proof (sq_pos (v x)).
  assert (0 <= Rsum l (fun k => sq (v k)))%R. { clear. induction l as [|x l IH]; [cbn; lra|]. change (0 <= sq (v x) + Rsum l (fun k => sq (v k)))%R. pose proof (sq_pos (v x)). lra. }
  destruct Hi as [->|Hi]; [lra|]. specialize (IH Hi). lra.
Qed.
Lemma term_bound a x y g : (sq x <= g)%R -> (sq y <= g)%R -> (Rabs (fst (Cconj x * (a * y))%C) <= weight a * g)%R.
Proof.
  destruct a as [a1 a2], x as [x1 x2], y as [y1 y2]. unfold sq, weight. cbn. intros Hx Hy.
  replace (x1 * (a1 * y1 - a2 * y2) - - x2 * (a1 * y2 + a2 * y1))%R with (a1 * (x1 * y1 + x2 * y2) + a2 * (x2 * y1 - x1 * y2))%R by ring.
  assert (P : (Rabs (x1 * y1 + x2 * y2) <= g)%R) by (apply Rabs_le; pose proof (pow2_ge_0 (x1 - y1)); pose proof (pow2_ge_0 (x1 + y1)); pose proof (pow2_ge_0 (x2 - y2)); pose proof (pow2_ge_0 (x2 + y2)); split; lra).
  assert (Q : (Rabs (x2 * y1 - x1 * y2) <= g)%R) by (apply Rabs_le; pose proof (pow2_ge_0 (x2 - y1)); pose proof (pow2_ge_0 (x2 + y1)); pose proof (pow2_ge_0 (x1 - y2)); pose proof (pow2_ge_0 (x1 + y2)); split; lra).
  eapply Rle_trans; [apply Rabs_triang|]. rewrite !Rabs_mult. pose proof (Rabs_pos a1). pose proof (Rabs_pos a2). nra.
Qed.
Definition bound : R := (2 * Rsum (seq 0 n) (fun k => Rsum (seq 0 n) (fun j => weight (A k j))))%R.
Lemma rate_bound v : (Rabs (Rsum (seq 0 n) (fun k => 2 * fst (Cconj (v k) * apply n A v k)%C)) <= bound * len2 v)%R.
Proof.
  eapply Rle_trans; [apply Rsum_abs|]. unfold bound. rewrite Rmult_assoc, (Rmult_comm 2), <- Rsum_factor, <- Rsum_factor.
  apply Rsum_below. intros k Hk. apply in_seq in Hk. rewrite Rabs_mult, (Rabs_right 2) by lra. rewrite (Rmult_comm 2). apply Rmult_le_compat_r; [lra|].
  unfold apply. rewrite <- Csum_mul_l, Csum_fst. eapply Rle_trans; [apply Rsum_abs|]. rewrite <- Rsum_factor. apply Rsum_below. intros j Hj. apply in_seq in Hj.
  apply term_bound; apply len2_term; lia.
Qed.
Lemma dl_len2 (q : R -> vec) (d : vec) s : (forall k, k < n -> has_derivative (fun u => q u k) s (d k)) ->
  derivable_pt_lim (fun u => len2 (q u)) s (Rsum (seq 0 n) (fun k => 2 * fst (Cconj (q s k) * d k)%C))%R.
Proof.
  intro D. assert (HI : forall k, In k (seq 0 n) -> k < n) by (intros k Hk; apply in_seq in Hk; lia). unfold len2. induction (seq 0 n) as [|k l IH]; [apply derivable_pt_lim_const|].
  change (derivable_pt_lim ((fun u => sq (q u k)) + (fun u => Rsum l (fun k => sq (q u k))))%F s (2 * fst (Cconj (q s k) * d k)%C + Rsum l (fun k => 2 * fst (Cconj (q s k) * d k)%C))%R).
  apply derivable_pt_lim_plus; [|apply IH; intros; apply HI; now right]. destruct (D k (HI k (or_introl eq_refl))) as [D1 D2].
  replace (2 * fst (Cconj (q s k) * d k)%C)%R with ((fst (d k) * fst (q s k) + fst (q s k) * fst (d k)) + (snd (d k) * snd (q s k) + snd (q s k) * snd (d k)))%R by (cbn; ring).
  apply (derivable_pt_lim_plus (fun u => fst (q u k) * fst (q u k))%R (fun u => snd (q u k) * snd (q u k))%R).
  - exact (derivable_pt_lim_mult (fun u => fst (q u k)) (fun u => fst (q u k)) s _ _ D1 D1).
  - exact (derivable_pt_lim_mult (fun u => snd (q u k)) (fun u => snd (q u k)) s _ _ D2 D2).
Qed.
Lemma stays_zero (q : R -> vec) a : (forall s k, k < n -> has_derivative (fun u => q u k) s (apply n A (q s) k)) -> (forall k, k < n -> q a k = C0) ->
  forall t k, k < n -> q t k = C0.
Proof.
  intros D Z t k Hk. assert (G : (len2 (q t) <= 0)%R).
  { apply (gronwall (fun u => len2 (q u)) (fun s => Rsum (seq 0 n) (fun k => 2 * fst (Cconj (q s k) * apply n A (q s) k)%C)%R) bound a).
    - intro s. apply dl_len2. intros j Hj. exact (D s j Hj).
    - intro s. apply rate_bound.
    - unfold len2. assert (HI : forall k, In k (seq 0 n) -> k < n) by (intros j Hj; apply in_seq in Hj; lia). induction (seq 0 n) as [|x l IH]; [reflexivity|].
      change (sq (q a x) + Rsum l (fun k => sq (q a k)) = 0)%R. rewrite IH by (intros; apply HI; now right). rewrite Z by (apply HI; now left). unfold sq. cbn. ring. }
  pose proof (len2_term (q t) k Hk) as T. unfold sq in T. apply C_eq; cbn; nra.
Qed.
Lemma same_path (p q : R -> vec) a : (forall s k, k < n -> has_derivative (fun u => p u k) s (apply n A (p s) k)) -> (forall s k, k < n -> has_derivative (fun u => q u k) s (apply n A (q s) k)) ->
  (forall k, k < n -> p a k = q a k) -> forall t k, k < n -> p t k = q t k.
Proof.
  intros Dp Dq E t k Hk. assert (Z : (p t k + - C1 * q t k)%C = C0).
  { apply (stays_zero (fun s k => p s k + - C1 * q s k)%C a); [| |exact Hk].
    - intros s j Hj. eapply hd_val; [|exact (hd_add _ _ _ _ _ (Dp s j Hj) (hd_scale (- C1)%C _ _ _ (Dq s j Hj)))]. unfold apply.
      rewrite <- Csum_mul_l, <- Csum_add. apply Csum_ext. intros. ring.
    - intros j Hj. rewrite (E j Hj). ring. }
  replace (p t k) with (p t k + - C1 * q t k + q t k)%C by ring. rewrite Z. ring.
Qed.
Lemma hd_shift f c t d : has_derivative f (c + t)%R d -> has_derivative (fun s => f (c + s)%R) t d.
Proof.
  assert (L : derivable_pt_lim (fun s => c + s)%R t 1%R).
  { refine (eq_ind (0 + 1)%R (fun d => derivable_pt_lim (fun s => c + s)%R t d) _ 1%R (Rplus_0_l 1%R)). exact (derivable_pt_lim_plus (fun _ => c) id t 0%R 1%R (derivable_pt_lim_const c t) (derivable_pt_lim_id t)). }
  intros [H1 H2]. split.
  - rewrite <- (Rmult_1_r (fst d)). exact (derivable_pt_lim_comp (fun s => c + s)%R (fun u => fst (f u)) t 1%R _ L H1).
  - rewrite <- (Rmult_1_r (snd d)). exact (derivable_pt_lim_comp (fun s => c + s)%R (fun u => snd (f u)) t 1%R _ L H2).
Qed.
Lemma exponential_unique t v w w' : exponential n A t v w -> exponential n A t v w' -> forall k, k < n -> w k = w' k.
Proof.
  intros (p & P1 & P2 & P3) (q & Q1 & Q2 & Q3) k Hk. rewrite <- P3, <- Q3 by exact Hk. apply (same_path p q 0%R P1 Q1); [|exact Hk]. intros j Hj. now rewrite P2, Q2.
Qed.
Lemma exponential_compose a b u v w : exponential n A a u v -> exponential n A b v w -> exponential n A (a + b) u w.
Proof.
  intros (p & P1 & P2 & P3) (q & Q1 & Q2 & Q3). exists p. split; [exact P1|]. split; [exact P2|]. intros k Hk. rewrite <- Q3 by exact Hk.
  apply (same_path (fun s => p (a + s)%R) q 0%R); [|exact Q1| |exact Hk].
  - intros s j Hj. apply (hd_shift (fun u => p u j)). exact (P1 (a + s)%R j Hj).
  - intros j Hj. cbn beta. rewrite Rplus_0_r. now rewrite P3, Q2.
Qed.
Lemma exponentials_repeat h : forall m s v w, exponentials n A (s :: repeat h m) v w -> exponential n A (s + INR m * h) v w.
Proof.
  induction m as [|m IH]; intros s v w (u & E & F).
  - cbn in F. replace (s + INR 0 * h)%R with s by (cbn; ring). refine (flows_ext n _ _ _ _ _ _ _ _ _ E); [reflexivity|]. intros k Hk. symmetry. now apply F.
  - cbn [repeat] in F. apply IH in F. replace (s + INR (S m) * h)%R with (s + (h + INR m * h))%R by (rewrite S_INR; ring). exact (exponential_compose _ _ _ _ _ E F).
Qed.
End Unique.
