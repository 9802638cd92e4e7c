(* Lemmas about entropies, divergences and level spacings. *)
From Verif Require Import AuxN SpecC SpecEntropy M_entropy.
From Coq Require Import Lra.
Local Open Scope R_scope.

Lemma Rsum_cons {T} x (l : list T) f : Rsum (x :: l) f = f x + Rsum l f. Proof. reflexivity. Qed.
Lemma Rsum_nil {T} (f : T -> R) : Rsum [] f = 0. Proof. reflexivity. Qed.
Lemma Rsum_le {T} (l : list T) f g : (forall x, In x l -> f x <= g x) -> Rsum l f <= Rsum l g.
Proof.
  induction l as [|x l IH]; intros H; rewrite ?Rsum_nil, ?Rsum_cons; [lra|]. pose proof (H x (or_introl eq_refl)).
  assert (Rsum l f <= Rsum l g) by (apply IH; intros y Hy; apply H; right; exact Hy). lra.
Qed.
Lemma Rsum_add {T} (l : list T) f g : Rsum l (fun x => f x + g x) = Rsum l f + Rsum l g.
Proof. induction l as [|x l IH]; rewrite ?Rsum_nil, ?Rsum_cons; [ring|rewrite IH; ring]. Qed.
Lemma Rsum_scal {T} (l : list T) c f : Rsum l (fun x => c * f x) = c * Rsum l f.
Proof. induction l as [|x l IH]; rewrite ?Rsum_nil, ?Rsum_cons; [ring|rewrite IH; ring]. Qed.
Lemma Rsum_one {T} (l : list T) : Rsum l (fun _ => 1) = INR (length l).
Proof. induction l as [|x l IH]; [reflexivity|]. rewrite Rsum_cons, IH. cbn [length]. rewrite S_INR. ring. Qed.
Lemma Rsum_pos {T} (l : list T) f : l <> [] -> (forall x, In x l -> 0 < f x) -> 0 < Rsum l f.
Proof.
  intros Hl H. destruct l as [|x l]; [destruct (Hl eq_refl)|]. rewrite Rsum_cons. pose proof (H x (or_introl eq_refl)).
  assert (0 <= Rsum l f); [|lra]. clear Hl H0. induction l as [|y l IH]; rewrite ?Rsum_nil, ?Rsum_cons; [lra|].
  pose proof (H y (or_intror (or_introl eq_refl))). assert (0 <= Rsum l f); [|lra]. apply IH. intros z [Hz|Hz]; apply H; [left; exact Hz|right; right; exact Hz].
Qed.
(* a sum of non-positive terms that vanishes vanishes term by term *)
Lemma Rsum_le0_eq {T} (l : list T) f g : (forall x, In x l -> f x <= g x) -> Rsum l f = Rsum l g -> forall x, In x l -> f x = g x.
Proof.
  induction l as [|x l IH]; intros H He y Hy; [destruct Hy|]. rewrite !Rsum_cons in He. pose proof (H x (or_introl eq_refl)).
  assert (Hl : Rsum l f <= Rsum l g) by (apply Rsum_le; intros z Hz; apply H; right; exact Hz).
  destruct Hy as [<-|Hy]; [lra|]. apply IH; [intros z Hz; apply H; right; exact Hz|lra|exact Hy].
Qed.

(* ---- the support ---- *)
Lemma support_cons x p : support (x :: p) = if Rlt_dec 0 x then x :: support p else support p.
Proof. unfold support. cbn [filter]. destruct (Rlt_dec 0 x); reflexivity. Qed.
Lemma support_in p x : In x (support p) -> In x p /\ 0 < x.
Proof. unfold support. intros H. apply filter_In in H. destruct H as [H1 H2]. destruct (Rlt_dec 0 x); [split; assumption|discriminate H2]. Qed.
Lemma support_length p : (length (support p) <= length p)%nat.
Proof. induction p as [|x p IH]; [reflexivity|]. rewrite support_cons. destruct (Rlt_dec 0 x); cbn [length]; lia. Qed.
Lemma support_total p : Forall (fun x => 0 <= x) p -> Rsum (support p) (fun x => x) = total p.
Proof.
  unfold total. induction 1 as [|x p Hx Hp IH]; [reflexivity|]. rewrite support_cons, Rsum_cons. destruct (Rlt_dec 0 x); [rewrite Rsum_cons, IH; reflexivity|].
  replace x with 0 by lra. rewrite IH. ring.
Qed.
Lemma support_pos p : Exists (fun x => 0 < x) p -> support p <> [].
Proof. intros H. apply Exists_exists in H. destruct H as [x [H1 H2]]. intros He. assert (Hi : In x (support p)). { unfold support. apply filter_In. split; [exact H1|]. destruct (Rlt_dec 0 x); [reflexivity|contradiction]. } rewrite He in Hi. destruct Hi. Qed.
Lemma distribution_le1 p x : distribution p -> In x p -> x <= 1.
Proof.
  intros [Hp Ht] Hx. unfold total in Ht. rewrite <- Ht. clear Ht. induction Hp as [|y p Hy Hp IH]; [destruct Hx|]. rewrite Rsum_cons.
  assert (0 <= Rsum p (fun x => x)). { clear IH Hx. induction Hp as [|z p Hz Hp IH]; rewrite ?Rsum_nil, ?Rsum_cons; [lra|]. lra. }
  destruct Hx as [<-|Hx]; [lra|]. specialize (IH Hx). lra.
Qed.
Lemma distribution_support p : distribution p -> support p <> [].
Proof.
  intros [Hp Ht] He. pose proof (support_total p Hp) as H. rewrite He, Rsum_nil in H. lra.
Qed.

(* ---- logarithms ---- *)
Lemma ln_le_minus x : 0 < x -> ln x <= x - 1.
Proof. intros Hx. pose proof (exp_ineq1_le (ln x)) as H. rewrite exp_ln in H by exact Hx. lra. Qed.
Lemma ln_lt_minus x : 0 < x -> x <> 1 -> ln x < x - 1.
Proof.
  intros Hx H1. assert (H : ln x <> 0). { intros H. apply H1. rewrite <- (exp_ln x Hx), H. apply exp_0. }
  pose proof (exp_ineq1 (ln x) H) as H2. rewrite exp_ln in H2 by exact Hx. lra.
Qed.
Lemma ln_1_0 : ln 1 = 0. Proof. apply ln_1. Qed.
Lemma ln_mono x y : 0 < x -> x <= y -> ln x <= ln y.
Proof. intros Hx [H|H]; [left; apply ln_increasing; assumption|right; rewrite H; reflexivity]. Qed.
Lemma ln_neg x : 0 < x <= 1 -> ln x <= 0. Proof. intros H. rewrite <- ln_1. apply ln_mono; lra. Qed.
Lemma Rpower_pos x a : 0 < Rpower x a. Proof. apply exp_pos. Qed.

(* Bernoulli's inequalities *)
Lemma bernoulli_le x a : 0 < x -> 0 < a < 1 -> Rpower x a <= 1 + a * (x - 1).
Proof.
  intros Hx Ha. set (A := 1 + a * (x - 1)). assert (HA : 0 < A). { unfold A. pose proof (Rmult_lt_0_compat a x (proj1 Ha) Hx). lra. }
  pose proof (ln_le_minus (x / A) (Rdiv_lt_0_compat x A Hx HA)) as H1. pose proof (ln_le_minus (/ A) (Rinv_0_lt_compat A HA)) as H2.
  unfold Rdiv in H1. rewrite ln_mult in H1 by (try apply Rinv_0_lt_compat; assumption). rewrite ln_Rinv in H1, H2 by exact HA.
  assert (H3 : a * (ln x + - ln A) + (1 - a) * - ln A <= 0).
  { apply Rle_trans with (a * (x * / A - 1) + (1 - a) * (/ A - 1)); [apply Rplus_le_compat; apply Rmult_le_compat_l; lra|].
    replace (a * (x * / A - 1) + (1 - a) * (/ A - 1)) with (A * / A - 1) by (unfold A; ring). rewrite Rinv_r by lra. lra. }
  unfold Rpower. rewrite <- (exp_ln A HA). destruct (Rle_lt_or_eq_dec (a * ln x) (ln A)) as [Hl|Hl]; [lra|left; apply exp_increasing; exact Hl|rewrite Hl; lra].
Qed.
Lemma bernoulli_ge x a : 0 < x -> 1 < a -> 1 + a * (x - 1) <= Rpower x a.
Proof.
  intros Hx Ha. set (A := 1 + a * (x - 1)). destruct (Rlt_dec 0 A) as [HA|HA]; [|pose proof (Rpower_pos x a); lra].
  assert (Hi : 0 < / a < 1). { split; [apply Rinv_0_lt_compat; lra|]. rewrite <- Rinv_1. apply Rinv_lt_contravar; lra. }
  pose proof (bernoulli_le A (/ a) HA Hi) as H. replace (1 + / a * (A - 1)) with x in H by (unfold A; field; lra).
  assert (Hl : ln A <= a * ln x).
  { assert (Hl : / a * ln A <= ln x). { rewrite <- (ln_exp (/ a * ln A)). apply ln_mono; [apply exp_pos|exact H]. }
    apply (Rmult_le_compat_l a) in Hl; [|lra]. rewrite <- Rmult_assoc, Rinv_r, Rmult_1_l in Hl by lra. exact Hl. }
  unfold Rpower. rewrite <- (exp_ln A HA). destruct Hl as [Hl|Hl]; [left; apply exp_increasing; exact Hl|right; rewrite Hl; reflexivity].
Qed.

(* ---- bounds of the entropies ---- *)
Lemma shannon_nonneg p : distribution p -> 0 <= shannon p.
Proof.
  intros H. unfold shannon. assert (Hs : Rsum (support p) (fun x => x * ln x) <= Rsum (support p) (fun x => 0 * x)).
  { apply Rsum_le. intros x Hx. apply support_in in Hx. destruct Hx as [Hx H0]. pose proof (distribution_le1 p x H Hx).
    pose proof (ln_neg x (conj H0 H1)). rewrite Rmult_0_l. rewrite <- (Rmult_0_r x). apply Rmult_le_compat_l; lra. }
  rewrite Rsum_scal in Hs. lra.
Qed.
Lemma shannon_le p : distribution p -> shannon p <= ln (INR (length p)).
Proof.
  intros H. unfold shannon. pose proof (distribution_support p H) as Hne. set (n := INR (length p)).
  assert (Hn : 0 < n). { unfold n. apply lt_0_INR. pose proof (support_length p). destruct (support p); [destruct (Hne eq_refl)|cbn [length] in *; lia]. }
  assert (Hs : Rsum (support p) (fun x => -1 * (x * ln x) + (- ln n) * x) <= Rsum (support p) (fun x => / n * 1 + (-1) * x)).
  { apply Rsum_le. intros x Hx. apply support_in in Hx. destruct Hx as [_ H0]. pose proof (ln_le_minus (/ (x * n)) (Rinv_0_lt_compat _ (Rmult_lt_0_compat _ _ H0 Hn))) as Hl.
    rewrite ln_Rinv, ln_mult in Hl by (try apply Rmult_lt_0_compat; assumption). apply (Rmult_le_compat_l x) in Hl; [|lra].
    replace (x * (/ (x * n) - 1)) with (/ n * 1 + -1 * x) in Hl by (field; lra). lra. }
  rewrite !Rsum_add, !Rsum_scal, Rsum_one, (support_total p (proj1 H)), (proj2 H) in Hs.
  assert (Hk : / n * INR (length (support p)) <= 1).
  { rewrite <- (Rinv_l n) by lra. apply Rmult_le_compat_l; [left; apply Rinv_0_lt_compat; exact Hn|]. apply le_INR, support_length. }
  lra.
Qed.
Definition moment (a : R) (p : list R) : R := Rsum (support p) (fun x => Rpower x a).
Lemma moment_pos a p : support p <> [] -> 0 < moment a p.
Proof. intros H. apply Rsum_pos; [exact H|]. intros x _. apply Rpower_pos. Qed.
Lemma moment_1 p : Forall (fun x => 0 <= x) p -> moment 1 p = total p.
Proof. intros H. rewrite <- (support_total p H). apply Rsum_ext. intros x Hx. apply Rpower_1. apply support_in in Hx. tauto. Qed.
Lemma Rpower_le_exponent x a b : 0 < x <= 1 -> a <= b -> Rpower x b <= Rpower x a.
Proof.
  intros Hx Hab. unfold Rpower. pose proof (ln_neg x Hx) as Hl. assert (Hm : b * ln x <= a * ln x) by (apply Rmult_le_compat_neg_l with (r := ln x) in Hab; lra).
  destruct Hm as [Hm|Hm]; [left; apply exp_increasing; exact Hm|right; rewrite Hm; reflexivity].
Qed.
Lemma moment_ge1 a p : distribution p -> a <= 1 -> 1 <= moment a p.
Proof.
  intros H Ha. rewrite <- (proj2 H), <- (moment_1 p (proj1 H)). apply Rsum_le. intros x Hx. apply support_in in Hx. destruct Hx as [Hx H0].
  apply Rpower_le_exponent; [|exact Ha]. split; [exact H0|apply (distribution_le1 p x H Hx)].
Qed.
Lemma moment_le1 a p : distribution p -> 1 <= a -> moment a p <= 1.
Proof.
  intros H Ha. rewrite <- (proj2 H), <- (moment_1 p (proj1 H)). apply Rsum_le. intros x Hx. apply support_in in Hx. destruct Hx as [Hx H0].
  apply Rpower_le_exponent; [|exact Ha]. split; [exact H0|apply (distribution_le1 p x H Hx)].
Qed.
Section Bound.
Context (p : list R) (Hp : distribution p).
Let n := INR (length p).
Lemma length_pos : 0 < n.
Proof. unfold n. apply lt_0_INR. pose proof (support_length p). pose proof (distribution_support p Hp) as Hne. destruct (support p); [destruct (Hne eq_refl)|cbn [length] in *; lia]. Qed.
Lemma moment_scaled a : Rsum (support p) (fun x => Rpower (x * n) a) = Rpower n a * moment a p.
Proof.
  unfold moment. rewrite <- Rsum_scal. apply Rsum_ext. intros x Hx. apply support_in in Hx. destruct Hx as [_ H0]. pose proof length_pos as Hn.
  rewrite <- Rpower_mult_distr by assumption. ring.
Qed.
Lemma bernoulli_sum a : Rsum (support p) (fun x => (1 - a) * 1 + (a * n) * x) = (1 - a) * INR (length (support p)) + a * n.
Proof. rewrite Rsum_add, !Rsum_scal, Rsum_one, (support_total p (proj1 Hp)), (proj2 Hp). ring. Qed.
Lemma support_INR : INR (length (support p)) <= n. Proof. apply le_INR, support_length. Qed.
Lemma moment_upper a : 0 < a < 1 -> Rpower n a * moment a p <= n.
Proof.
  intros Ha. rewrite <- moment_scaled. pose proof length_pos as Hn. pose proof support_INR as Hk.
  apply Rle_trans with (Rsum (support p) (fun x => (1 - a) * 1 + (a * n) * x)).
  - apply Rsum_le. intros x Hx. apply support_in in Hx. destruct Hx as [_ H0]. pose proof (bernoulli_le (x * n) a (Rmult_lt_0_compat _ _ H0 Hn) Ha). lra.
  - rewrite bernoulli_sum. assert ((1 - a) * INR (length (support p)) <= (1 - a) * n) by (apply Rmult_le_compat_l; lra). lra.
Qed.
Lemma moment_lower a : 1 < a -> n <= Rpower n a * moment a p.
Proof.
  intros Ha. rewrite <- moment_scaled. pose proof length_pos as Hn. pose proof support_INR as Hk.
  apply Rle_trans with (Rsum (support p) (fun x => (1 - a) * 1 + (a * n) * x)).
  - rewrite bernoulli_sum. assert ((1 - a) * n <= (1 - a) * INR (length (support p))) by (apply Rmult_le_compat_neg_l; lra). lra.
  - apply Rsum_le. intros x Hx. apply support_in in Hx. destruct Hx as [_ H0]. pose proof (bernoulli_ge (x * n) a (Rmult_lt_0_compat _ _ H0 Hn) Ha). lra.
Qed.
Lemma renyi_bounds a : 0 < a -> a <> 1 -> 0 <= renyi a p <= ln n.
Proof.
  intros Ha H1. unfold renyi. change (Rsum (support p) (fun x => Rpower x a)) with (moment a p).
  pose proof length_pos as Hn. pose proof (moment_pos a p (distribution_support p Hp)) as Hm.
  destruct (Rlt_dec a 1) as [Hl|Hl].
  - pose proof (ln_mono 1 (moment a p) Rlt_0_1 (moment_ge1 a p Hp (Rlt_le _ _ Hl))) as L1. rewrite ln_1 in L1.
    pose proof (ln_mono _ _ (Rmult_lt_0_compat _ _ (Rpower_pos n a) Hm) (moment_upper a (conj Ha Hl))) as L2. rewrite ln_mult in L2 by (try apply Rpower_pos; assumption).
    unfold Rpower in L2. rewrite ln_exp in L2. split; [apply Rmult_le_pos; [exact L1|left; apply Rinv_0_lt_compat; lra]|].
    apply (Rmult_le_reg_r (1 - a)); [lra|]. unfold Rdiv. rewrite Rmult_assoc, Rinv_l by lra. lra.
  - assert (Hg : 1 < a) by lra. pose proof (ln_mono (moment a p) 1 Hm (moment_le1 a p Hp (Rlt_le _ _ Hg))) as L1. rewrite ln_1 in L1.
    pose proof (ln_mono _ _ Hn (moment_lower a Hg)) as L2. rewrite ln_mult in L2 by (try apply Rpower_pos; assumption).
    unfold Rpower in L2. rewrite ln_exp in L2. replace (ln (moment a p) / (1 - a)) with (- ln (moment a p) / (a - 1)) by (field; lra).
    split; [apply Rmult_le_pos; [lra|left; apply Rinv_0_lt_compat; lra]|].
    apply (Rmult_le_reg_r (a - 1)); [lra|]. unfold Rdiv. rewrite Rmult_assoc, Rinv_l by lra. lra.
Qed.
End Bound.

(* ---- the limit alpha -> 1 ---- *)
Lemma moment_derivative l a : Forall (fun x => 0 < x) l -> derivable_pt_lim (fun a => Rsum l (fun x => Rpower x a)) a (Rsum l (fun x => Rpower x a * ln x)).
Proof.
  induction 1 as [|x l Hx Hl IH]; [apply derivable_pt_lim_const|].
  change (derivable_pt_lim (plus_fct (fun a => Rpower x a) (fun a => Rsum l (fun x => Rpower x a))) a (Rpower x a * ln x + Rsum l (fun x => Rpower x a * ln x))).
  apply derivable_pt_lim_plus; [|exact IH]. unfold Rpower.
  change (derivable_pt_lim (comp exp (mult_fct id (fct_cte (ln x)))) a (exp (a * ln x) * ln x)).
  apply derivable_pt_lim_comp; [|apply derivable_pt_lim_exp]. replace (ln x) with (1 * fct_cte (ln x) a + id a * 0) at 2 by (unfold fct_cte; ring).
  apply derivable_pt_lim_mult; [apply derivable_pt_lim_id|apply derivable_pt_lim_const].
Qed.
Lemma renyi_limit p : distribution p -> forall e, 0 < e -> exists d, 0 < d /\ forall a, a <> 1 -> Rabs (a - 1) < d -> Rabs (renyi a p - shannon p) < e.
Proof.
  intros H e He. assert (Hs : Forall (fun x => 0 < x) (support p)) by (apply Forall_forall; intros x Hx; apply support_in in Hx; tauto).
  pose proof (moment_derivative (support p) 1 Hs) as D. fold (moment 1 p) in D. pose proof (moment_1 p (proj1 H)) as M1. rewrite (proj2 H) in M1.
  assert (D2 : derivable_pt_lim (fun a => ln (moment a p)) 1 (/ 1 * Rsum (support p) (fun x => Rpower x 1 * ln x))).
  { change (derivable_pt_lim (comp ln (fun a => moment a p)) 1 (/ 1 * Rsum (support p) (fun x => Rpower x 1 * ln x))).
    apply derivable_pt_lim_comp; [exact D|]. rewrite M1. apply derivable_pt_lim_ln. lra. }
  destruct (D2 e He) as [d Hd]. exists d. split; [apply cond_pos|]. intros a Ha Had. specialize (Hd (a - 1)). 
  replace (1 + (a - 1)) with a in Hd by ring. rewrite M1, ln_1 in Hd. specialize (Hd ltac:(lra) Had).
  replace (renyi a p - shannon p) with (- ((ln (moment a p) - 0) / (a - 1) - / 1 * Rsum (support p) (fun x => Rpower x 1 * ln x))).
  - rewrite Rabs_Ropp. exact Hd.
  - unfold renyi, shannon. change (Rsum (support p) (fun x => Rpower x a)) with (moment a p).
    rewrite (Rsum_ext (support p) (fun x => Rpower x 1 * ln x) (fun x => x * ln x)).
    + field. lra.
    + intros x Hx. rewrite Rpower_1; [reflexivity|]. apply support_in in Hx. tauto.
Qed.

(* ---- nansum ---- *)
Lemma fold_fin l : forall acc, fold_left np_add (map Fin l) (Fin acc) = Fin (acc + Rsum l (fun x => x)).
Proof. induction l as [|x l IH]; intros acc; cbn [map fold_left np_add]; [rewrite Rsum_nil, Rplus_0_r; reflexivity|]. rewrite IH, Rsum_cons. f_equal. ring. Qed.
Lemma nansum_fin {T} (l : list T) (f : T -> num) (g : T -> bool) (h : T -> R) :
  (forall x, In x l -> f x = if g x then Fin (h x) else Nan) -> nansum (map f l) = Fin (Rsum (filter g l) h).
Proof.
  intros H. assert (E : filter (fun x => negb (is_nan x)) (map f l) = map Fin (map h (filter g l))).
  { induction l as [|x l IH]; [reflexivity|]. cbn [map filter]. rewrite (H x (or_introl eq_refl)). destruct (g x); cbn [is_nan negb map]; rewrite IH by (intros y Hy; apply H; right; exact Hy); reflexivity. }
  unfold nansum. rewrite E, fold_fin, Rplus_0_l. f_equal. clear E H. induction (filter g l) as [|x m IH]; [reflexivity|]. cbn [map]. rewrite !Rsum_cons, IH. reflexivity.
Qed.
Lemma shannon_num p : np_neg (nansum (map (fun x => np_mul x (np_log (Fin x))) p)) = Fin (shannon p).
Proof.
  rewrite (nansum_fin p _ (fun x => if Rlt_dec 0 x then true else false) (fun x => x * ln x)); [reflexivity|].
  intros x _. unfold np_log. destruct (Rlt_dec 0 x) as [H|H]; destruct (Rlt_dec x 0) as [H'|H']; destruct (Req_EM_T x 0) as [H0|H0]; try lra; cbn [np_mul]; try reflexivity.
  destruct (Req_EM_T x 0); [reflexivity|contradiction].
Qed.
Lemma moment_num a p : 0 < a -> Forall (fun x => 0 <= x) p -> nansum (map (fun x => np_power x a) p) = Fin (moment a p).
Proof.
  intros Ha Hp. rewrite (nansum_fin p _ (fun _ => true) (fun x => if Rlt_dec 0 x then Rpower x a else 0)).
  - f_equal. unfold moment. induction Hp as [|x p Hx Hp IH]; [reflexivity|]. cbn [filter]. rewrite support_cons, Rsum_cons. destruct (Rlt_dec 0 x); [rewrite Rsum_cons, IH; reflexivity|rewrite IH; ring].
  - intros x Hx. rewrite Forall_forall in Hp. specialize (Hp x Hx). unfold np_power. destruct (Rlt_dec 0 x) as [H|H]; [reflexivity|]. destruct (Req_EM_T x 0); [|lra]. destruct (Req_EM_T a 0); [lra|reflexivity].
Qed.
Lemma np_log_pos x : 0 < x -> np_log (Fin x) = Fin (ln x).
Proof. intros H. unfold np_log. destruct (Rlt_dec x 0); [lra|]. destruct (Req_EM_T x 0); [lra|reflexivity]. Qed.
Lemma np_div_fin x c : c <> 0 -> np_div (Fin x) c = Fin (x / c).
Proof. intros H. unfold np_div. destruct (Req_EM_T c 0); [contradiction|reflexivity]. Qed.

(* ---- KL_div ---- *)
Lemma any_le0 l : existsb (fun x => if Rle_dec x 0 then true else false) l = false -> Forall (fun x => 0 < x) l.
Proof. induction l as [|x l IH]; intros H; [constructor|]. cbn [existsb] in H. apply orb_false_iff in H. destruct H as [H1 H2]. constructor; [destruct (Rle_dec x 0); [discriminate H1|lra]|exact (IH H2)]. Qed.
Lemma any_le0_conv l : Forall (fun x => 0 < x) l -> existsb (fun x => if Rle_dec x 0 then true else false) l = false.
Proof. induction 1 as [|x l Hx Hl IH]; [reflexivity|]. cbn [existsb]. rewrite IH. destruct (Rle_dec x 0); [lra|reflexivity]. Qed.
Lemma KL_div_some tol p q r : KL_div tol p q = Some r ->
  length p = length q /\ Forall (fun x => 0 < x) p /\ Forall (fun x => 0 < x) q /\ Rabs (total p - 1) <= tol /\ Rabs (total q - 1) <= tol /\ r = divergence p q.
Proof.
  unfold KL_div. fold (total p) (total q). destruct (length p =? length q)%nat eqn:El; cbn [negb]; [|discriminate]. apply Nat.eqb_eq in El.
  destruct (existsb _ p) eqn:E1; [discriminate|]. destruct (existsb _ q) eqn:E2; [discriminate|].
  destruct (Rlt_dec tol (Rabs (total p - 1))); [discriminate|]. destruct (Rlt_dec tol (Rabs (total q - 1))); [discriminate|]. intros H. injection H as <-.
  split; [exact El|]. split; [exact (any_le0 _ E1)|]. split; [exact (any_le0 _ E2)|]. split; [lra|]. split; [lra|reflexivity].
Qed.
Lemma KL_div_accepts tol p q : length p = length q -> Forall (fun x => 0 < x) p -> Forall (fun x => 0 < x) q -> Rabs (total p - 1) <= tol -> Rabs (total q - 1) <= tol ->
  KL_div tol p q = Some (divergence p q).
Proof.
  intros El H1 H2 T1 T2. unfold KL_div. fold (total p) (total q). rewrite (proj2 (Nat.eqb_eq _ _) El). cbn [negb]. rewrite (any_le0_conv p H1), (any_le0_conv q H2).
  destruct (Rlt_dec tol (Rabs (total p - 1))); [lra|]. destruct (Rlt_dec tol (Rabs (total q - 1))); [lra|]. reflexivity.
Qed.
Lemma combine_total p q : length p = length q -> Rsum (combine p q) fst = total p /\ Rsum (combine p q) snd = total q.
Proof.
  unfold total. revert q. induction p as [|x p IH]; intros [|y q] H; cbn [length] in H; try discriminate H; [split; reflexivity|].
  injection H as H. destruct (IH q H) as [I1 I2]. cbn [combine]. rewrite !Rsum_cons, I1, I2. split; reflexivity.
Qed.
Lemma combine_pos p q x : Forall (fun x => 0 < x) p -> Forall (fun x => 0 < x) q -> In x (combine p q) -> 0 < fst x /\ 0 < snd x.
Proof. intros H1 H2 Hx. destruct x as [a b]. rewrite Forall_forall in H1, H2. split; [apply H1, (in_combine_l _ _ _ _ Hx)|apply H2, (in_combine_r _ _ _ _ Hx)]. Qed.
Lemma divergence_term a b : 0 < a -> 0 < b -> a - b <= a * ln (a / b).
Proof.
  intros Ha Hb. pose proof (ln_le_minus (b / a) (Rdiv_lt_0_compat _ _ Hb Ha)) as H. replace (b / a) with (/ (a / b)) in H at 1 by (field; lra).
  rewrite ln_Rinv in H by (apply Rdiv_lt_0_compat; assumption). apply (Rmult_le_compat_l a) in H; [|lra]. replace (a * (b / a - 1)) with (b - a) in H by (field; lra). lra.
Qed.
Lemma divergence_term_eq a b : 0 < a -> 0 < b -> a - b = a * ln (a / b) -> a = b.
Proof.
  intros Ha Hb E. destruct (Req_dec (b / a) 1) as [H1|H1]; [apply (Rmult_eq_compat_r a) in H1; unfold Rdiv in H1; rewrite Rmult_assoc, Rinv_l in H1 by lra; lra|].
  pose proof (ln_lt_minus (b / a) (Rdiv_lt_0_compat _ _ Hb Ha) H1) as H. replace (b / a) with (/ (a / b)) in H at 1 by (field; lra).
  rewrite ln_Rinv in H by (apply Rdiv_lt_0_compat; assumption). apply (Rmult_lt_compat_l a) in H; [|lra]. replace (a * (b / a - 1)) with (b - a) in H by (field; lra). lra.
Qed.
Lemma divergence_ge p q : length p = length q -> Forall (fun x => 0 < x) p -> Forall (fun x => 0 < x) q -> total p - total q <= divergence p q.
Proof.
  intros El H1 H2. destruct (combine_total p q El) as [T1 T2]. rewrite <- T1, <- T2.
  apply Rle_trans with (Rsum (combine p q) (fun x => fst x + (-1) * snd x)); [rewrite Rsum_add, Rsum_scal; lra|].
  apply Rsum_le. intros x Hx. destruct (combine_pos p q x H1 H2 Hx) as [Ha Hb]. pose proof (divergence_term _ _ Ha Hb). lra.
Qed.
Lemma divergence_eq p q : length p = length q -> Forall (fun x => 0 < x) p -> Forall (fun x => 0 < x) q -> total p = total q -> divergence p q = 0 -> p = q.
Proof.
  intros El H1 H2 Ht Hd. destruct (combine_total p q El) as [T1 T2].
  assert (Hall : forall x, In x (combine p q) -> fst x = snd x).
  { intros x Hx. destruct (combine_pos p q x H1 H2 Hx) as [Ha Hb]. apply (divergence_term_eq _ _ Ha Hb).
    assert (E : fst x + (-1) * snd x = fst x * ln (fst x / snd x)).
    { apply (Rsum_le0_eq (combine p q) (fun x => fst x + (-1) * snd x) (fun x => fst x * ln (fst x / snd x))); [| |exact Hx].
      - intros y Hy. destruct (combine_pos p q y H1 H2 Hy) as [Ha' Hb']. pose proof (divergence_term _ _ Ha' Hb'). lra.
      - rewrite Rsum_add, Rsum_scal. fold (divergence p q). rewrite Hd. change (fun x : R * R => fst x) with (@fst R R). change (fun x : R * R => snd x) with (@snd R R). rewrite T1, T2. lra. }
    lra. }
  clear -El Hall. revert q El Hall. induction p as [|x p IH]; intros [|y q] El Hall; cbn [length] in El; try discriminate El; [reflexivity|]. f_equal.
  - apply (Hall (x, y)). left. reflexivity.
  - apply IH; [injection El as El; exact El|]. intros z Hz. apply Hall. right. exact Hz.
Qed.
Lemma divergence_self p : Forall (fun x => 0 < x) p -> divergence p p = 0.
Proof.
  unfold divergence. induction 1 as [|x p Hx Hp IH]; [reflexivity|]. cbn [combine]. rewrite Rsum_cons, IH. cbn [fst snd]. unfold Rdiv. rewrite Rinv_r, ln_1 by lra. ring.
Qed.

(* ---- mean_level_spacing ---- *)
Lemma diff_length E : length (diff E) = (length E - 1)%nat.
Proof. induction E as [|a E IH]; [reflexivity|]. destruct E as [|b E]; [reflexivity|]. cbn [diff length] in *. rewrite IH. lia. Qed.
Lemma diff_nth E : forall n, (S n < length E)%nat -> nth n (diff E) 0 = spacing E n.
Proof.
  unfold spacing. induction E as [|a E IH]; intros n H; [cbn in H; lia|]. destruct E as [|b E]; [cbn in H; lia|]. cbn [diff]. destruct n as [|n]; [reflexivity|].
  cbn [nth]. cbn [nth] in IH. rewrite IH by (cbn [length] in *; lia). reflexivity.
Qed.
Lemma unsorted_false E : unsorted E = false <-> (forall n, (S n < length E)%nat -> nth n E 0 <= nth (S n) E 0).
Proof.
  induction E as [|a E IH]; [split; [intros _ n H; cbn in H; lia|reflexivity]|]. destruct E as [|b E]; [split; [intros _ n H; cbn in H; lia|reflexivity]|].
  cbn [unsorted]. rewrite orb_false_iff, IH. split.
  - intros [H1 H2] n Hn. destruct n as [|n]; [cbn [nth]; destruct (Rlt_dec b a); [discriminate H1|lra]|]. apply (H2 n). cbn [length] in *. lia.
  - intros H. split; [destruct (Rlt_dec b a) as [Hl|Hl]; [|reflexivity]; pose proof (H 0%nat ltac:(cbn [length]; lia)) as H0; cbn [nth] in H0; lra|].
    intros n Hn. apply (H (S n)). cbn [length] in *. lia.
Qed.
Lemma repeated_false E : repeated E = false <-> (forall n, (S n < length E)%nat -> nth n E 0 <> nth (S n) E 0).
Proof.
  induction E as [|a E IH]; [split; [intros _ n H; cbn in H; lia|reflexivity]|]. destruct E as [|b E]; [split; [intros _ n H; cbn in H; lia|reflexivity]|].
  cbn [repeated]. rewrite orb_false_iff, IH. split.
  - intros [H1 H2] n Hn. destruct n as [|n]; [cbn [nth]; destruct (Req_EM_T a b); [discriminate H1|assumption]|]. apply (H2 n). cbn [length] in *. lia.
  - intros H. split; [destruct (Req_EM_T a b) as [Hl|Hl]; [|reflexivity]; pose proof (H 0%nat ltac:(cbn [length]; lia)) as H0; cbn [nth] in H0; contradiction|].
    intros n Hn. apply (H (S n)). cbn [length] in *. lia.
Qed.
Lemma removelast_cons {T} (a : T) m : m <> [] -> removelast (a :: m) = a :: removelast m. Proof. destruct m; [intros H; destruct (H eq_refl)|reflexivity]. Qed.
Lemma ratios_spec E : (2 <= length E)%nat ->
  removelast (map (fun x => Rmin (fst x) (snd x) / Rmax (fst x) (snd x)) (combine (diff E) (roll (diff E)))) =
  map (fun n => Rmin (spacing E n) (spacing E (S n)) / Rmax (spacing E n) (spacing E (S n))) (seq 0 (length E - 2)).
Proof.
  intros H. pose proof (diff_length E) as Hd. assert (Hn : forall n, (n < length (diff E))%nat -> nth n (diff E) 0 = spacing E n) by (intros n Hn; apply diff_nth; lia).
  destruct (diff E) as [|x l] eqn:ED; [cbn [length] in Hd; lia|]. unfold roll.
  assert (G : forall (l : list R) x y k, (forall n, (n < S (length l))%nat -> nth n (x :: l) 0 = spacing E (k + n)) ->
    removelast (map (fun x => Rmin (fst x) (snd x) / Rmax (fst x) (snd x)) (combine (x :: l) (l ++ [y]))) =
    map (fun n => Rmin (spacing E n) (spacing E (S n)) / Rmax (spacing E n) (spacing E (S n))) (seq k (length l))).
  { clear. induction l as [|z l IH]; intros x y k Hk; [reflexivity|]. cbn [app combine map length seq].
    rewrite removelast_cons by (destruct l; discriminate). cbn [fst snd]. f_equal.
    - pose proof (Hk 0%nat ltac:(lia)) as H0. pose proof (Hk 1%nat ltac:(cbn [length]; lia)) as H1. cbn [nth] in H0, H1. rewrite Nat.add_0_r in H0. replace (k + 1)%nat with (S k) in H1 by lia. rewrite H0, H1. reflexivity.
    - apply IH. intros n Hn. pose proof (Hk (S n) ltac:(cbn [length]; lia)) as H1. change (nth (S n) (x :: z :: l) 0) with (nth n (z :: l) 0) in H1. rewrite H1. f_equal. lia. }
  rewrite (G l x x 0%nat); [f_equal; f_equal; cbn [length] in Hd; lia|]. intros n Hl. rewrite Hn by (cbn [length]; lia). reflexivity.
Qed.
Lemma Rsum_map {T U} (g : T -> U) (l : list T) f : Rsum (map g l) f = Rsum l (fun x => f (g x)).
Proof. induction l as [|x l IH]; [reflexivity|]. cbn [map]. rewrite !Rsum_cons, IH. reflexivity. Qed.
Lemma increasing_unsorted E : increasing E -> unsorted E = false. Proof. intros H. apply unsorted_false. intros n Hn. left. apply H, Hn. Qed.
Lemma increasing_repeated E : increasing E -> repeated E = false. Proof. intros H. apply repeated_false. intros n Hn. apply Rlt_not_eq, H, Hn. Qed.
Lemma mean_level_spacing_value E : increasing E -> (3 <= length E)%nat -> mean_level_spacing E = Some (Fin (mean_ratio E)).
Proof.
  intros H Hl. unfold mean_level_spacing. rewrite (increasing_unsorted E H), (increasing_repeated E H). rewrite ratios_spec by lia.
  destruct E as [|e E]; [cbn in Hl; lia|]. unfold mean, mean_ratio. set (l := seq 0 (length (e :: E) - 2)).
  assert (Hne : l <> []). { unfold l. intros He. apply (f_equal (@length nat)) in He. rewrite seq_length in He. cbn [length] in He, Hl. lia. }
  set (g := fun n => _). destruct (map g l) as [|z m] eqn:Em; [destruct l; [destruct (Hne eq_refl)|discriminate Em]|]. rewrite <- Em, Rsum_map, map_length. unfold l at 2. rewrite seq_length. reflexivity.
Qed.
Lemma spacing_pos E n : increasing E -> (S n < length E)%nat -> 0 < spacing E n. Proof. intros H Hn. unfold spacing. specialize (H n Hn). lra. Qed.
Lemma ratio_bounds a b : 0 < a -> 0 < b -> 0 < Rmin a b / Rmax a b <= 1.
Proof.
  intros Ha Hb. assert (H1 : 0 < Rmin a b) by (apply Rmin_glb_lt; assumption). assert (H2 : 0 < Rmax a b) by (apply Rlt_le_trans with a; [exact Ha|apply Rmax_l]).
  split; [apply Rdiv_lt_0_compat; assumption|]. apply (Rmult_le_reg_r (Rmax a b)); [exact H2|]. unfold Rdiv. rewrite Rmult_assoc, Rinv_l, Rmult_1_r, Rmult_1_l by lra. apply Rle_trans with a; [apply Rmin_l|apply Rmax_l].
Qed.
Lemma mean_ratio_bounds E : increasing E -> (3 <= length E)%nat -> 0 < mean_ratio E <= 1.
Proof.
  intros H Hl. unfold mean_ratio. set (l := seq 0 (length E - 2)). assert (Hk : length l = (length E - 2)%nat) by (unfold l; apply seq_length).
  assert (Hi : forall n, In n l -> 0 < Rmin (spacing E n) (spacing E (S n)) / Rmax (spacing E n) (spacing E (S n)) <= 1).
  { intros n Hn. unfold l in Hn. apply in_seq in Hn. apply ratio_bounds; apply spacing_pos; [exact H|lia|exact H|lia]. }
  assert (Hp : 0 < INR (length E - 2)) by (apply lt_0_INR; lia). split.
  - apply Rdiv_lt_0_compat; [|exact Hp]. apply Rsum_pos; [intros He; rewrite He in Hk; cbn in Hk; lia|]. intros n Hn. apply Hi, Hn.
  - apply (Rmult_le_reg_r (INR (length E - 2))); [exact Hp|]. unfold Rdiv. rewrite Rmult_assoc, Rinv_l, Rmult_1_r, Rmult_1_l by lra. rewrite <- Hk, <- Rsum_one. apply Rsum_le. intros n Hn. apply Hi, Hn.
Qed.
Lemma nth_affine a b E n : (n < length E)%nat -> nth n (map (fun e => a * e + b) E) 0 = a * nth n E 0 + b.
Proof. intros Hn. rewrite (nth_indep _ 0 (a * 0 + b)) by (rewrite map_length; exact Hn). apply (map_nth (fun e => a * e + b)). Qed.
Lemma Rmin_scale a x y : 0 < a -> Rmin (a * x) (a * y) = a * Rmin x y.
Proof. intros Ha. unfold Rmin. destruct (Rle_dec (a * x) (a * y)) as [H|H]; destruct (Rle_dec x y) as [H'|H']; try reflexivity; [apply Rmult_le_reg_l in H; [contradiction|exact Ha]|destruct H; apply Rmult_le_compat_l; lra]. Qed.
Lemma Rmax_scale a x y : 0 < a -> Rmax (a * x) (a * y) = a * Rmax x y.
Proof. intros Ha. unfold Rmax. destruct (Rle_dec (a * x) (a * y)) as [H|H]; destruct (Rle_dec x y) as [H'|H']; try reflexivity; [apply Rmult_le_reg_l in H; [contradiction|exact Ha]|destruct H; apply Rmult_le_compat_l; lra]. Qed.
Lemma mean_ratio_affine a b E : 0 < a -> increasing E -> mean_ratio (map (fun e => a * e + b) E) = mean_ratio E.
Proof.
  intros Ha H. unfold mean_ratio. rewrite map_length. f_equal. apply Rsum_ext. intros n Hn. apply in_seq in Hn.
  assert (Hs : forall k, (S k < length E)%nat -> spacing (map (fun e => a * e + b) E) k = a * spacing E k) by (intros k Hk; unfold spacing; rewrite !nth_affine by lia; ring).
  rewrite !Hs by lia. rewrite Rmin_scale, Rmax_scale by exact Ha. pose proof (spacing_pos E n H ltac:(lia)) as H1.
  assert (0 < Rmax (spacing E n) (spacing E (S n))) by (apply Rlt_le_trans with (spacing E n); [exact H1|apply Rmax_l]). field. lra.
Qed.
Lemma increasing_affine a b E : 0 < a -> increasing E -> increasing (map (fun e => a * e + b) E).
Proof. intros Ha H n Hn. rewrite map_length in Hn. rewrite !nth_affine by lia. specialize (H n Hn). apply (Rmult_lt_compat_l a) in H; [|exact Ha]. lra. Qed.
