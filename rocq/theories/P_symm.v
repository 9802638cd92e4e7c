From Verif Require Import AuxN SpecC SpecSymm M_symm.
Local Open Scope nat_scope.

Lemma nth_set_nth {X} (l : list X) i v j d : nth j (set_nth l i v) d = if (j =? i) && (i <? length l) then v else nth j l d.
Proof.
  revert i j. induction l as [|x l IH]; intros i j; cbn [set_nth length].
  - rewrite andb_false_r. reflexivity.
  - destruct i, j; cbn [nth]; try reflexivity. rewrite IH. reflexivity.
Qed.
Lemma len_set_nth {X} (l : list X) i v : length (set_nth l i v) = length l.
Proof. revert i. induction l as [|x l IH]; intros [|i]; cbn [set_nth length]; [reflexivity..|]. rewrite IH. reflexivity. Qed.

Lemma iter_S {X} p (f : X -> X) x : Nat.iter (S p) f x = f (Nat.iter p f x). Proof. reflexivity. Qed.
Lemma iter_S_r {X} p (f : X -> X) x : Nat.iter (S p) f x = Nat.iter p f (f x).
Proof. induction p as [|p IH]; [reflexivity|]. rewrite iter_S, IH. reflexivity. Qed.
Lemma iter_add {X} a b (f : X -> X) x : Nat.iter (a + b) f x = Nat.iter a f (Nat.iter b f x).
Proof. induction a as [|a IH]; [reflexivity|]. cbn [Nat.add]. rewrite !iter_S, IH. reflexivity. Qed.

Fixpoint sumf (c : nat) (f : nat -> nat) : nat := match c with O => 0 | S c' => sumf c' f + f c' end.
Fixpoint prodp (pers : list nat) (c : nat) : nat := match c with O => 1 | S c' => prodp pers c' * nth c' pers 0 end.
Fixpoint valp (pers : list nat) (c : nat) (g : list nat) : nat :=
  match c with O => 0 | S c' => valp pers c' g * nth c' pers 0 + nth c' g 0 end.

Lemma fold_add_sumf (l : list nat) (f : nat -> nat) a : fold_left (fun a p => a + f p) l a = a + sumf (length l) (fun i => f (nth i l 0)).
Proof.
  induction l as [|x l IH] using rev_ind; [cbn; lia|].
  rewrite fold_left_app, IH, app_length. cbn [length fold_left]. rewrite Nat.add_1_r. cbn [sumf].
  rewrite app_nth2 by lia. rewrite Nat.sub_diag. cbn [nth].
  assert (E : sumf (length l) (fun i => f (nth i l 0)) = sumf (length l) (fun i => f (nth i (l ++ [x]) 0))).
  { clear IH. assert (G : forall c, c <= length l -> sumf c (fun i => f (nth i l 0)) = sumf c (fun i => f (nth i (l ++ [x]) 0))).
    { induction c as [|c IH]; intros Hc; [reflexivity|]. cbn [sumf]. rewrite IH by lia. rewrite app_nth1 by lia. reflexivity. }
    apply G. lia. }
  rewrite E. lia.
Qed.
Lemma sumf_le c f h : (forall d, d < c -> f d <= h d) -> sumf c f <= sumf c h.
Proof. induction c as [|c IH]; intros H; cbn [sumf]; [lia|]. pose proof (H c ltac:(lia)). specialize (IH ltac:(intros; apply H; lia)). lia. Qed.
Lemma sumf_eq c f h : (forall d, d < c -> f d <= h d) -> sumf c h <= sumf c f -> forall d, d < c -> f d = h d.
Proof.
  induction c as [|c IH]; intros H E d Hd; [lia|]. cbn [sumf] in E. pose proof (H c ltac:(lia)).
  pose proof (sumf_le c f h ltac:(intros; apply H; lia)).
  destruct (Nat.eq_dec d c) as [->|]; [lia|]. apply IH; try lia. intros; apply H; lia.
Qed.

Lemma sumf_ext c f h : (forall d, d < c -> f d = h d) -> sumf c f = sumf c h.
Proof. induction c as [|c IH]; intros H; [reflexivity|]. cbn [sumf]. rewrite H by lia. rewrite IH by (intros; apply H; lia). reflexivity. Qed.

Section G.
Variables (D : N -> Prop) (nt : nat) (pers : list nat) (ms : smap).
Hypothesis HG : good_maps D nt pers ms.
Let T d := sact ms d.
Let P d := nth d pers 0.

Definition valid (g : list nat) : Prop := length g = nt /\ forall d, d < nt -> nth d g 0 < nth d pers 0.
Lemma valid_elem g : valid g <-> group_elem pers g.
Proof. unfold valid, group_elem. rewrite (gm_len _ _ _ _ HG). tauto. Qed.

Lemma T_dom d x : d < nt -> D (fst x) -> D (fst (T d x)).
Proof. intros Hd Hx. apply (gm_dom _ _ _ _ HG); assumption. Qed.
Definition scale (z : Z) (x : N * Z) : N * Z := (fst x, z * snd x)%Z.
Lemma T_scale d z x : T d (scale z x) = scale z (T d x).
Proof. unfold T, sact, scale. cbn [fst snd]. f_equal. ring. Qed.
Lemma iterT_scale d p z x : Nat.iter p (T d) (scale z x) = scale z (Nat.iter p (T d) x).
Proof. induction p as [|p IH]; [reflexivity|]. rewrite !iter_S, IH. apply T_scale. Qed.
Lemma as_scale (x : N * Z) : x = scale (snd x) (fst x, 1%Z).
Proof. destruct x. unfold scale. cbn [fst snd]. f_equal. ring. Qed.
Lemma T_period d x : d < nt -> D (fst x) -> Nat.iter (P d) (T d) x = x.
Proof.
  intros Hd Hx. rewrite (as_scale x) at 1. rewrite iterT_scale. unfold T, P. rewrite (gm_period _ _ _ _ HG) by assumption.
  symmetry. apply as_scale.
Qed.
Lemma T_comm d e x : d < nt -> e < nt -> D (fst x) -> T d (T e x) = T e (T d x).
Proof.
  intros Hd He Hx. rewrite (as_scale x). rewrite !T_scale. unfold T. rewrite (gm_comm _ _ _ _ HG) by assumption. reflexivity.
Qed.
Lemma iterT_dom d p x : d < nt -> D (fst x) -> D (fst (Nat.iter p (T d) x)).
Proof. intros Hd Hx. induction p as [|p IH]; [assumption|]. rewrite iter_S. apply T_dom; assumption. Qed.
Lemma T_iter_comm d e p x : d < nt -> e < nt -> D (fst x) -> T d (Nat.iter p (T e) x) = Nat.iter p (T e) (T d x).
Proof.
  intros Hd He Hx. induction p as [|p IH]; [reflexivity|]. rewrite !iter_S, <- IH.
  apply T_comm; try assumption. apply iterT_dom; assumption.
Qed.
Lemma T_iter_mod d p x : d < nt -> D (fst x) -> Nat.iter (p mod P d) (T d) x = Nat.iter p (T d) x.
Proof.
  intros Hd Hx. pose proof (gm_pos _ _ _ _ HG d Hd) as Hp. fold (P d) in Hp.
  assert (M : forall q, Nat.iter (P d * q) (T d) x = x).
  { induction q as [|q IH]; [rewrite Nat.mul_0_r; reflexivity|].
    rewrite Nat.mul_succ_r, iter_add. rewrite T_period by assumption. exact IH. }
  assert (E : p = p mod P d + P d * (p / P d)) by (rewrite Nat.add_comm; apply Nat.div_mod; lia).
  transitivity (Nat.iter (p mod P d + P d * (p / P d)) (T d) x); [rewrite iter_add, M; reflexivity|]. rewrite <- E. reflexivity.
Qed.

(* ---- words ---- *)
Fixpoint W (c : nat) (g : list nat) (x : N * Z) : N * Z :=
  match c with O => x | S c' => Nat.iter (nth c' g 0) (T c') (W c' g x) end.

Lemma sapply_app l l' x : sapply ms (l ++ l') x = sapply ms l' (sapply ms l x).
Proof. apply fold_left_app. Qed.
Lemma sapply_repeat d k x : sapply ms (repeat d k) x = Nat.iter k (T d) x.
Proof.
  revert x. induction k as [|k IH]; intros x; [reflexivity|]. rewrite iter_S_r. cbn [repeat]. rewrite <- IH. reflexivity.
Qed.
Lemma W_word c g x : W c g x = sapply ms (flat_map (fun d => repeat d (nth d g 0)) (seq 0 c)) x.
Proof.
  induction c as [|c IH]; [reflexivity|]. rewrite seq_S. cbn [Nat.add W].
  rewrite flat_map_app, sapply_app. cbn [flat_map]. rewrite app_nil_r, sapply_repeat, IH. reflexivity.
Qed.
Lemma gact_W g s : length g = nt -> gact ms g s = W nt g (s, 1%Z).
Proof. intros L. unfold gact, word. rewrite L, W_word. reflexivity. Qed.
Lemma W_dom c g x : c <= nt -> D (fst x) -> D (fst (W c g x)).
Proof. intros Hc Hx. induction c as [|c IH]; [assumption|]. cbn [W]. apply iterT_dom; [lia|]. apply IH. lia. Qed.
Lemma W_ext c g h x : (forall d, d < c -> nth d g 0 = nth d h 0) -> W c g x = W c h x.
Proof. induction c as [|c IH]; intros H; [reflexivity|]. cbn [W]. rewrite (H c) by lia. rewrite IH by (intros; apply H; lia). reflexivity. Qed.
Lemma W_zeros c e g x : c <= e -> (forall d, c <= d -> d < e -> nth d g 0 = 0) -> W e g x = W c g x.
Proof.
  intros Hce H. induction e as [|e IH]; [replace c with 0 by lia; reflexivity|].
  destruct (Nat.eq_dec c (S e)) as [->|]; [reflexivity|]. cbn [W]. rewrite (H e) by lia. cbn [Nat.iter nat_rect].
  apply IH; [lia|]. intros; apply H; lia.
Qed.
Lemma W_scale c g z x : W c g (scale z x) = scale z (W c g x).
Proof. induction c as [|c IH]; [reflexivity|]. cbn [W]. rewrite IH. apply iterT_scale. Qed.

(* applying one more map *)
Lemma T_W c d g x : d < c -> c <= nt -> length g = nt -> D (fst x) ->
  T d (W c g x) = W c (set_nth g d (S (nth d g 0) mod P d)) x.
Proof.
  intros Hd Hc Lg Hx. induction c as [|c IH]; [lia|]. cbn [W].
  assert (Hn : nth c (set_nth g d (S (nth d g 0) mod P d)) 0 = if c =? d then S (nth d g 0) mod P d else nth c g 0).
  { rewrite nth_set_nth, Lg. replace (d <? nt) with true by (symmetry; apply Nat.ltb_lt; lia). rewrite andb_true_r. reflexivity. }
  rewrite Hn. destruct (Nat.eqb_spec c d) as [->|Ne].
  - rewrite T_iter_mod by first [lia | apply W_dom; [lia|assumption]]. rewrite iter_S. do 2 f_equal.
    apply W_ext. intros e He. rewrite nth_set_nth. destruct (Nat.eqb_spec e d); [lia|reflexivity].
  - rewrite T_iter_comm by first [lia | apply W_dom; [lia|assumption]]. rewrite IH by lia. reflexivity.
Qed.

Lemma valid_bump g d : d < nt -> valid g -> valid (set_nth g d (S (nth d g 0) mod P d)).
Proof.
  intros Hd [L H]. split; [rewrite len_set_nth; assumption|]. intros e He. rewrite nth_set_nth.
  destruct (Nat.eqb_spec e d) as [->|]; cbn [andb]; [|apply H; assumption].
  pose proof (gm_pos _ _ _ _ HG d Hd) as Hp. destruct (d <? length g); [|apply H; assumption].
  apply Nat.mod_upper_bound. unfold P. lia.
Qed.
Lemma valid_zero : valid (repeat 0 nt).
Proof.
  split; [apply repeat_length|]. intros d Hd. rewrite nth_repeat. apply (gm_pos _ _ _ _ HG d Hd).
Qed.
Lemma W_zero c x : W c (repeat 0 nt) x = x.
Proof. rewrite (W_zeros 0 c) by (try lia; intros; apply nth_repeat). reflexivity. Qed.

(* every sequence of maps acts as a group element *)
Lemma sapply_elem ds x : Forall (fun d => d < nt) ds -> D (fst x) -> exists g, valid g /\ sapply ms ds x = W nt g x.
Proof.
  intros Hds Hx. induction ds as [|d ds IH] using rev_ind.
  - exists (repeat 0 nt). split; [apply valid_zero|]. rewrite W_zero. reflexivity.
  - apply Forall_app in Hds. destruct Hds as [Hds Hd]. inversion Hd; subst. destruct (IH Hds) as (g & Vg & E).
    exists (set_nth g d (S (nth d g 0) mod P d)). split; [apply valid_bump; assumption|].
    rewrite sapply_app, E. cbn [sapply fold_left]. fold (T d (W nt g x)). apply T_W; try assumption; try lia. apply Vg.
Qed.
Lemma word_lt c g : c <= nt -> Forall (fun d => d < nt) (flat_map (fun d => repeat d (nth d g 0)) (seq 0 c)).
Proof.
  intros Hc. apply Forall_forall. intros d Hd. apply in_flat_map in Hd. destruct Hd as (e & He & Hr).
  apply repeat_spec in Hr. apply in_seq in He. lia.
Qed.
Lemma reach_elem s t : D s -> (reach nt ms s t <-> exists g, valid g /\ fst (W nt g (s, 1%Z)) = t).
Proof.
  intros Hs. split.
  - intros (ds & Hds & E). destruct (sapply_elem ds (s, 1%Z) Hds Hs) as (g & Vg & Eg). exists g. split; [assumption|]. congruence.
  - intros (g & Vg & E). exists (flat_map (fun d => repeat d (nth d g 0)) (seq 0 nt)). split; [apply word_lt; lia|].
    rewrite <- W_word. assumption.
Qed.

(* ---- group structure ---- *)
Definition gadd (g h : list nat) : list nat := map (fun d => (nth d g 0 + nth d h 0) mod nth d pers 0) (seq 0 nt).
Lemma nth_gadd g h d : d < nt -> nth d (gadd g h) 0 = (nth d g 0 + nth d h 0) mod P d.
Proof.
  intros Hd. unfold gadd. rewrite (nth_indep _ 0 ((fun d => (nth d g 0 + nth d h 0) mod nth d pers 0) 0)) by (rewrite map_length, seq_length; assumption).
  rewrite (map_nth (fun d => (nth d g 0 + nth d h 0) mod nth d pers 0)). rewrite seq_nth by assumption. reflexivity.
Qed.
Lemma valid_gadd g h : valid (gadd g h).
Proof.
  split; [unfold gadd; rewrite map_length, seq_length; reflexivity|]. intros d Hd. rewrite nth_gadd by assumption.
  apply Nat.mod_upper_bound. pose proof (gm_pos _ _ _ _ HG d Hd). unfold P. lia.
Qed.
Lemma W_iter_comm c d p g x : c <= nt -> d < nt -> D (fst x) -> Nat.iter p (T d) (W c g x) = W c g (Nat.iter p (T d) x).
Proof.
  intros Hc Hd Hx.
  assert (One : forall x, D (fst x) -> T d (W c g x) = W c g (T d x)).
  { clear x Hx. induction c as [|c IH]; intros x Hx; [reflexivity|]. cbn [W].
    rewrite T_iter_comm by first [lia | apply W_dom; [lia|assumption]]. rewrite IH by (lia || assumption). reflexivity. }
  induction p as [|p IH]; [reflexivity|]. rewrite !iter_S, IH. apply One. apply iterT_dom; assumption.
Qed.
Lemma W_gadd c g h x : c <= nt -> D (fst x) -> W c (gadd g h) x = W c g (W c h x).
Proof.
  intros Hc Hx. induction c as [|c IH]; [reflexivity|]. cbn [W]. rewrite nth_gadd by lia.
  rewrite T_iter_mod by first [lia | apply W_dom; [lia|assumption]]. rewrite iter_add. rewrite IH by lia. f_equal.
  apply W_iter_comm; [lia|lia|]. apply W_dom; [lia|assumption].
Qed.
Definition ginv (g : list nat) : list nat := map (fun d => (nth d pers 0 - nth d g 0) mod nth d pers 0) (seq 0 nt).
Lemma nth_ginv g d : d < nt -> nth d (ginv g) 0 = (P d - nth d g 0) mod P d.
Proof.
  intros Hd. unfold ginv. rewrite (nth_indep _ 0 ((fun d => (nth d pers 0 - nth d g 0) mod nth d pers 0) 0)) by (rewrite map_length, seq_length; assumption).
  rewrite (map_nth (fun d => (nth d pers 0 - nth d g 0) mod nth d pers 0)). rewrite seq_nth by assumption. reflexivity.
Qed.
Lemma valid_ginv g : valid (ginv g).
Proof.
  split; [unfold ginv; rewrite map_length, seq_length; reflexivity|]. intros d Hd. rewrite nth_ginv by assumption.
  apply Nat.mod_upper_bound. pose proof (gm_pos _ _ _ _ HG d Hd). unfold P. lia.
Qed.
Lemma valid_ext g h : valid g -> valid h -> (forall d, d < nt -> nth d g 0 = nth d h 0) -> g = h.
Proof. intros [L1 _] [L2 _] H. apply (nth_ext _ _ 0 0); [congruence|]. intros d Hd. apply H. lia. Qed.
Lemma gadd_ginv g : valid g -> gadd (ginv g) g = repeat 0 nt.
Proof.
  intros Vg. apply valid_ext; [apply valid_gadd|apply valid_zero|]. intros d Hd. rewrite nth_gadd, nth_ginv, nth_repeat by assumption.
  destruct Vg as [_ Vg]. specialize (Vg d Hd). fold (P d) in Vg. rewrite Nat.add_mod_idemp_l by lia.
  replace (P d - nth d g 0 + nth d g 0) with (P d) by lia. apply Nat.mod_same. lia.
Qed.
Lemma gadd_comm g h : gadd g h = gadd h g.
Proof. unfold gadd. apply map_ext. intros d. rewrite Nat.add_comm. reflexivity. Qed.
Lemma gadd_assoc g h k : gadd (gadd g h) k = gadd g (gadd h k).
Proof.
  apply valid_ext; [apply valid_gadd|apply valid_gadd|]. intros d Hd. rewrite !nth_gadd by assumption.
  pose proof (gm_pos _ _ _ _ HG d Hd) as Hp. fold (P d) in Hp.
  rewrite Nat.add_mod_idemp_l, Nat.add_mod_idemp_r by lia. f_equal. lia.
Qed.
Lemma gadd_zero g : valid g -> gadd (repeat 0 nt) g = g.
Proof.
  intros Vg. apply valid_ext; [apply valid_gadd|assumption|]. intros d Hd. rewrite nth_gadd, nth_repeat by assumption.
  cbn [Nat.add]. apply Nat.mod_small. apply Vg. assumption.
Qed.
Lemma gadd_cancel g h k : valid h -> valid k -> gadd g h = gadd g k -> valid g -> h = k.
Proof.
  intros Vh Vk E Vg. apply (f_equal (gadd (ginv g))) in E. rewrite <- !gadd_assoc, gadd_ginv, !gadd_zero in E by assumption. exact E.
Qed.

(* W ginv undoes W *)
Lemma W_inv g x : valid g -> D (fst x) -> W nt (ginv g) (W nt g x) = x.
Proof. intros Vg Hx. rewrite <- W_gadd by (lia || assumption). rewrite gadd_ginv by assumption. apply W_zero. Qed.

(* the list [group] *)
Lemma group_in ps g : In g (group ps) <-> length g = length ps /\ forall d, d < length ps -> nth d g 0 < nth d ps 0.
Proof.
  revert g. induction ps as [|p ps IH]; intros g; cbn [group].
  - split.
    + intros [<-|[]]. split; [reflexivity|]. intros; cbn in *; lia.
    + intros [L _]. destruct g; [left; reflexivity|discriminate].
  - rewrite in_flat_map. split.
    + intros (i & Hi & Hg). apply in_map_iff in Hg. destruct Hg as (g' & <- & Hg). apply IH in Hg. destruct Hg as [L H].
      apply in_seq in Hi. split; [cbn [length]; congruence|]. intros [|d] Hd; cbn [nth]; [lia|]. apply H. cbn [length] in Hd. lia.
    + intros [L H]. destruct g as [|i g]; [discriminate|]. exists i. split.
      * apply in_seq. specialize (H 0 ltac:(cbn; lia)). cbn in H. lia.
      * apply in_map, IH. split; [cbn in L; lia|]. intros d Hd. apply (H (S d)). cbn [length]. lia.
Qed.
Lemma NoDup_app_intro {X} (l1 l2 : list X) : NoDup l1 -> NoDup l2 -> (forall x, In x l1 -> ~ In x l2) -> NoDup (l1 ++ l2).
Proof.
  intros H1 H2 H. induction l1 as [|x l1 IH]; [assumption|]. cbn [app]. inversion H1; subst. constructor.
  - rewrite in_app_iff. intros [?|?]; [contradiction|]. apply (H x); [left; reflexivity|assumption].
  - apply IH; [assumption|]. intros y Hy. apply H. right; assumption.
Qed.
Lemma group_NoDup ps : NoDup (group ps).
Proof.
  induction ps as [|p ps IH]; cbn [group]; [constructor; [intros []|constructor]|].
  generalize 0 at 1. induction p as [|p IHp]; intros a; cbn [seq flat_map]; [constructor|].
  apply NoDup_app_intro.
  - apply FinFun.Injective_map_NoDup; [|assumption]. intros u v E. congruence.
  - apply IHp.
  - intros x Hx Hy. apply in_map_iff in Hx. destruct Hx as (g & <- & _). apply in_flat_map in Hy.
    destruct Hy as (i & Hi & Hy). apply in_map_iff in Hy. destruct Hy as (g' & E & _). apply in_seq in Hi. injection E as -> _. lia.
Qed.
Lemma group_valid g : In g (group pers) <-> valid g.
Proof. rewrite group_in. unfold valid. rewrite (gm_len _ _ _ _ HG). tauto. Qed.
Lemma group_translate h : valid h -> Permutation (map (gadd h) (group pers)) (group pers).
Proof.
  intros Vh. apply NoDup_Permutation.
  - assert (K : forall l, NoDup l -> (forall g, In g l -> valid g) -> NoDup (map (gadd h) l)).
    { induction l as [|g l IH]; intros ND Hl; [constructor|]. inversion ND; subst. cbn [map]. constructor.
      - intros Hi. apply in_map_iff in Hi. destruct Hi as (k & E & Hk).
        apply gadd_cancel in E; [subst; contradiction|apply Hl; right; assumption|apply Hl; left; reflexivity|assumption].
      - apply IH; [assumption|]. intros; apply Hl; right; assumption. }
    apply K; [apply group_NoDup|]. intros g Hg. apply group_valid; assumption.
  - apply group_NoDup.
  - intros g. rewrite in_map_iff, group_valid. split.
    + intros (k & <- & _). apply valid_gadd.
    + intros Vg. exists (gadd (ginv h) g). split; [|apply group_valid, valid_gadd].
      rewrite <- gadd_assoc, (gadd_comm h), gadd_ginv, gadd_zero by assumption. reflexivity.
Qed.

(* ---- odometer ---- *)
Lemma P_pos d : d < nt -> 1 <= P d. Proof. apply (gm_pos _ _ _ _ HG). Qed.
Lemma prodp_pos c : c <= nt -> 1 <= prodp pers c.
Proof. induction c as [|c IH]; intros H; cbn [prodp]; [lia|]. specialize (IH ltac:(lia)). pose proof (P_pos c H). unfold P in *. nia. Qed.
Lemma valp_lt c g : c <= nt -> (forall d, d < c -> nth d g 0 < P d) -> valp pers c g < prodp pers c.
Proof.
  induction c as [|c IH]; intros Hc H; cbn [valp prodp]; [lia|]. specialize (IH ltac:(lia) ltac:(intros; apply H; lia)).
  specialize (H c ltac:(lia)). unfold P in *.
  assert (S (valp pers c g) * nth c pers 0 <= prodp pers c * nth c pers 0) by (apply Nat.mul_le_mono_r; lia). lia.
Qed.
Lemma valp_inj c g h : (forall d, d < c -> nth d g 0 < P d) -> (forall d, d < c -> nth d h 0 < P d) ->
  valp pers c g = valp pers c h -> forall d, d < c -> nth d g 0 = nth d h 0.
Proof.
  induction c as [|c IH]; intros Hg Hh E d Hd; [lia|]. cbn [valp] in E.
  pose proof (Hg c ltac:(lia)) as G1. pose proof (Hh c ltac:(lia)) as H1. unfold P in G1, H1.
  assert (E1 : nth c g 0 = nth c h 0).
  { apply (f_equal (fun v => v mod nth c pers 0)) in E. rewrite !(Nat.add_comm (_ * _)) in E. rewrite !Nat.mod_add in E by lia.
    rewrite !Nat.mod_small in E by assumption. exact E. }
  destruct (Nat.eq_dec d c) as [->|]; [assumption|]. apply IH; try lia.
  - intros; apply Hg; lia.
  - intros; apply Hh; lia.
  - apply (Nat.mul_cancel_r _ _ (nth c pers 0)); lia.
Qed.
Lemma valp_max c g : c <= nt -> (forall d, d < c -> nth d g 0 < P d) ->
  (valp pers c g = prodp pers c - 1 <-> forall d, d < c -> nth d g 0 = P d - 1).
Proof.
  intros Hc Hg. induction c as [|c IH]; [split; intros; [lia|reflexivity]|].
  specialize (IH ltac:(lia) ltac:(intros; apply Hg; lia)). cbn [valp prodp].
  pose proof (valp_lt c g ltac:(lia) ltac:(intros; apply Hg; lia)) as L. pose proof (Hg c ltac:(lia)) as L2. unfold P in *.
  pose proof (prodp_pos c ltac:(lia)) as Pp. split.
  - intros E.
    assert (E1 : valp pers c g = prodp pers c - 1).
    { destruct (Nat.eq_dec (valp pers c g) (prodp pers c - 1)); [assumption|]. exfalso.
      assert (S (S (valp pers c g)) * nth c pers 0 <= prodp pers c * nth c pers 0) by (apply Nat.mul_le_mono_r; lia). lia. }
    intros d Hd. destruct (Nat.eq_dec d c) as [->|]; [|apply IH; [assumption|lia]].
    rewrite E1 in E. rewrite Nat.mul_sub_distr_r in E.
    assert (1 * nth c pers 0 <= prodp pers c * nth c pers 0) by (apply Nat.mul_le_mono_r; lia). lia.
  - intros H. rewrite (proj2 IH) by (intros; apply H; lia). rewrite (H c) by lia. rewrite Nat.mul_sub_distr_r.
    assert (1 * nth c pers 0 <= prodp pers c * nth c pers 0) by (apply Nat.mul_le_mono_r; lia). lia.
Qed.
Lemma valp_ext c g h : (forall d, d < c -> nth d g 0 = nth d h 0) -> valp pers c g = valp pers c h.
Proof. induction c as [|c IH]; intros H; [reflexivity|]. cbn [valp]. rewrite (H c) by lia. rewrite IH by (intros; apply H; lia). reflexivity. Qed.

Lemma status_spec g : valid g -> (max_vals_sum pers <=? total g) = (S (valp pers nt g) =? prodp pers nt).
Proof.
  intros [L V]. unfold max_vals_sum, total.
  rewrite (fold_add_sumf pers (fun p => p - 1)). rewrite (fold_add_sumf g (fun x => x)).
  rewrite L, (gm_len _ _ _ _ HG), !Nat.add_0_l.
  pose proof (valp_lt nt g (Nat.le_refl _) V) as Lt. pose proof (valp_max nt g (Nat.le_refl _) V) as Mx.
  assert (Le : forall d, d < nt -> nth d g 0 <= nth d pers 0 - 1) by (intros d Hd; specialize (V d Hd); lia).
  destruct (Nat.leb_spec (sumf nt (fun i => nth i pers 0 - 1)) (sumf nt (fun i => nth i g 0))) as [H|H].
  - pose proof (sumf_eq nt _ _ Le H) as E. symmetry. apply Nat.eqb_eq. rewrite (proj2 Mx) by exact E. lia.
  - symmetry. apply Nat.eqb_neq. intros E. assert (E2 : valp pers nt g = prodp pers nt - 1) by lia.
    rewrite Mx in E2. assert (E3 : sumf nt (fun i => nth i g 0) = sumf nt (fun i => nth i pers 0 - 1)).
    { apply sumf_ext. exact E2. }
    lia.
Qed.

(* effect of one increment at depth c *)
Lemma step_wrap g c : valid g -> c < nt -> nth c g 0 = P c - 1 ->
  valid (set_nth g c 0).
Proof.
  intros [L V] Hc E. split; [rewrite len_set_nth; assumption|]. intros d Hd. rewrite nth_set_nth.
  destruct ((d =? c) && (c <? length g)); [|apply V; assumption]. pose proof (P_pos d Hd). unfold P in *. lia.
Qed.
Lemma step_inc g c v : valid g -> c < nt -> v < P c -> valid (set_nth g c v).
Proof.
  intros [L V] Hc E. split; [rewrite len_set_nth; assumption|]. intros d Hd. rewrite nth_set_nth.
  destruct (Nat.eqb_spec d c) as [->|]; cbn [andb]; [|apply V; assumption]. destruct (c <? length g); [assumption|apply V; assumption].
Qed.
Lemma nth_step g c v d : length g = nt -> c < nt -> nth d (set_nth g c v) 0 = if d =? c then v else nth d g 0.
Proof. intros L Hc. rewrite nth_set_nth, L. replace (c <? nt) with true by (symmetry; apply Nat.ltb_lt; assumption). rewrite andb_true_r. reflexivity. Qed.

Section Ref.
Variables (s : N) (g0 : list nat) (ph0 : Z).
Hypothesis Hs : D s.
Let x0 : N * Z := (s, 1%Z).

Definition Rok (st : rstate) : Prop :=
  (r_r st = s /\ r_g st = g0 /\ r_ph st = ph0) \/ ((s < r_r st)%N /\ valid (r_g st) /\ W nt (r_g st) x0 = (r_r st, r_ph st)).

Lemma ref_inner_spec c : forall st, c <= nt -> valid (r_gg st) -> (r_t st, r_tp st) = W c (r_gg st) x0 ->
  (forall e, c <= e -> e < nt -> nth e (r_gg st) 0 = 0) -> Rok st ->
  let st' := ref_inner pers ms c st in
  valid (r_gg st') /\ (forall e, c <= e -> nth e (r_gg st') 0 = nth e (r_gg st) 0) /\
  valp pers c (r_gg st') = (S (valp pers c (r_gg st))) mod prodp pers c /\
  (r_t st', r_tp st') = W c (r_gg st') x0 /\ Rok st' /\ (r_r st <= r_r st')%N /\ (0 < c -> (r_t st <= r_r st')%N).
Proof.
  induction c as [|c IH]; intros st Hc Vg Et Hz Hr.
  - cbn. split; [assumption|]. split; [reflexivity|]. split; [reflexivity|]. split; [assumption|]. split; [assumption|]. split; [lia|lia].
  - cbn [ref_inner].
    set (st1 := if (r_r st <? r_t st)%N then _ else st).
    assert (S1 : r_gg st1 = r_gg st /\ r_t st1 = r_t st /\ r_tp st1 = r_tp st /\ Rok st1 /\ (r_r st <= r_r st1)%N /\ (r_t st <= r_r st1)%N).
    { unfold st1. destruct (N.ltb_spec (r_r st) (r_t st)) as [L|L].
      - cbn [r_gg r_t r_tp r_r r_g r_ph]. repeat split; try lia. right. cbn [r_r r_g r_ph]. split.
        + destruct Hr as [(E & _)|(H & _)]; [rewrite <- E; assumption|lia].
        + split; [assumption|]. rewrite (W_zeros (S c) nt) by assumption. symmetry. exact Et.
      - repeat split; try lia. assumption. }
    destruct S1 as (Eg & Ett & Etp & Hr1 & Hm1 & Hm2). rewrite Eg, Ett, Etp. clearbody st1.
    set (gc := nth c (r_gg st) 0). set (m := ms c (r_t st)).
    pose proof Vg as [Lg Vg']. pose proof (Vg' c Hc) as Vc. fold gc in Vc. fold (P c) in Vc |- *.
    (* the mapped signed state *)
    assert (Em : (fst m, r_tp st * snd m)%Z = Nat.iter (S gc) (T c) (W c (r_gg st) x0)).
    { rewrite iter_S. change (Nat.iter gc (T c) (W c (r_gg st) x0)) with (W (S c) (r_gg st) x0). rewrite <- Et. reflexivity. }
    destruct (Nat.ltb_spec (P c - 1) (S gc)) as [L|L].
    + (* wrap *)
      assert (Egc : S gc = P c) by lia.
      set (st2 := mkR _ _ _ _ _ _).
      destruct (IH st2) as (V2 & Z2 & Val2 & E2 & R2 & M2 & _).
      * lia.
      * cbn [st2 r_gg]. apply step_wrap; [assumption|assumption|unfold gc in *; lia].
      * cbn [st2 r_gg r_t r_tp]. rewrite Em, Egc, T_period by first [lia | apply W_dom; [lia|assumption]].
        apply W_ext. intros d Hd. rewrite nth_step by assumption. destruct (Nat.eqb_spec d c); [lia|reflexivity].
      * cbn [st2 r_gg]. intros e He Hent. rewrite nth_step by assumption. destruct (Nat.eqb_spec e c); [reflexivity|]. apply Hz; lia.
      * destruct Hr1 as [(A1 & A2 & A3)|(A1 & A2 & A3)]; [left|right]; unfold st2; cbn; auto.
      * set (st' := ref_inner pers ms c st2) in *.
        assert (Nc : nth c (r_gg st') 0 = 0). { rewrite Z2 by lia. cbn [st2 r_gg]. rewrite nth_step by assumption. rewrite Nat.eqb_refl. reflexivity. }
        split; [assumption|]. split; [|split; [|split; [|split; [assumption|]]]].
        -- intros e He. rewrite Z2 by lia. cbn [st2 r_gg]. rewrite nth_step by assumption. destruct (Nat.eqb_spec e c); [lia|reflexivity].
        -- cbn [valp prodp]. rewrite Nc, Val2, Nat.add_0_r.
           assert (E0 : valp pers c (r_gg st2) = valp pers c (r_gg st)).
           { apply valp_ext. intros d Hd. cbn [st2 r_gg]. rewrite nth_step by assumption. destruct (Nat.eqb_spec d c); [lia|reflexivity]. }
           rewrite E0. fold gc. fold (P c). replace (S (valp pers c (r_gg st) * P c + gc)) with (S (valp pers c (r_gg st)) * P c) by lia.
           rewrite Nat.mul_mod_distr_r; [reflexivity|pose proof (prodp_pos c ltac:(lia)); lia|lia].
        -- cbn [W]. rewrite Nc. exact E2.
        -- split; [cbn [st2 r_r] in M2; lia|]. intros _. cbn [st2 r_r] in M2. lia.
    + (* no wrap *)
      set (st2 := mkR _ _ _ _ _ _).
      assert (Nc : nth c (r_gg st2) 0 = S gc) by (cbn [st2 r_gg]; rewrite nth_step, Nat.eqb_refl by assumption; reflexivity).
      assert (Ne : forall d, d <> c -> nth d (r_gg st2) 0 = nth d (r_gg st) 0).
      { intros d Hd. cbn [st2 r_gg]. rewrite nth_step by assumption. destruct (Nat.eqb_spec d c); [lia|reflexivity]. }
      split; [|split; [|split; [|split; [|split; [|split]]]]].
      * cbn [st2 r_gg]. apply step_inc; [assumption|assumption|lia].
      * intros e He. apply Ne. lia.
      * cbn [valp prodp]. rewrite Nc. rewrite (valp_ext c _ (r_gg st)) by (intros; apply Ne; lia). fold gc. fold (P c).
        pose proof (valp_lt c (r_gg st) ltac:(lia) ltac:(intros; apply Vg'; lia)) as Lt.
        rewrite Nat.mod_small; [lia|].
        assert (S (valp pers c (r_gg st)) * P c <= prodp pers c * P c) by (apply Nat.mul_le_mono_r; lia). lia.
      * cbn [W]. rewrite Nc. rewrite (W_ext c _ (r_gg st)) by (intros; apply Ne; lia). cbn [st2 r_t r_tp]. exact Em.
      * destruct Hr1 as [(A1 & A2 & A3)|(A1 & A2 & A3)]; [left|right]; unfold st2; cbn; auto.
      * cbn [st2 r_r]. assumption.
      * intros _. cbn [st2 r_r]. assumption.
Qed.

Lemma ref_outer_spec : 0 < nt -> forall fuel st, valid (r_gg st) -> (r_t st, r_tp st) = W nt (r_gg st) x0 -> Rok st ->
  (forall g, valid g -> valp pers nt g < valp pers nt (r_gg st) -> (fst (W nt g x0) <= r_r st)%N) ->
  prodp pers nt - valp pers nt (r_gg st) <= fuel ->
  exists st', ref_outer fuel pers ms nt st = Some st' /\ Rok st' /\ forall g, valid g -> (fst (W nt g x0) <= r_r st')%N.
Proof.
  intros Hnt. induction fuel as [|fuel IH]; intros st Vg Et Hr Hb Hf.
  - pose proof (valp_lt nt (r_gg st) (Nat.le_refl _) (proj2 Vg)). lia.
  - cbn [ref_outer]. rewrite status_spec by assumption.
    destruct (ref_inner_spec nt st (Nat.le_refl _) Vg Et ltac:(intros; lia) Hr) as (V2 & _ & Val2 & E2 & R2 & M2 & M3).
    set (st' := ref_inner pers ms nt st) in *. specialize (M3 Hnt).
    assert (Hb' : forall g, valid g -> valp pers nt g < S (valp pers nt (r_gg st)) -> (fst (W nt g x0) <= r_r st')%N).
    { intros g Hg Hv. destruct (Nat.eq_dec (valp pers nt g) (valp pers nt (r_gg st))) as [E|E].
      - assert (g = r_gg st) as ->.
        { apply valid_ext; try assumption. apply valp_inj; [apply Hg|apply Vg|assumption]. }
        rewrite <- Et. cbn [fst]. assumption.
      - specialize (Hb g Hg ltac:(lia)). lia. }
    pose proof (valp_lt nt (r_gg st) (Nat.le_refl _) (proj2 Vg)) as Lt.
    destruct (Nat.eqb_spec (S (valp pers nt (r_gg st))) (prodp pers nt)) as [E|E].
    + exists st'. split; [reflexivity|]. split; [assumption|]. intros g Hg. apply Hb'; [assumption|].
      rewrite E. apply valp_lt; [lia|apply Hg].
    + rewrite Nat.mod_small in Val2 by lia. apply IH; try assumption; rewrite Val2; [assumption|lia].
Qed.
End Ref.

Lemma ref_state_spec s g0 ph0 fuel : D s -> 0 < nt <= max_nt -> prodp pers nt <= fuel -> exists r g ph,
  ref_state fuel pers ms nt s g0 ph0 = Some (r, g, ph) /\
  (forall h, valid h -> (fst (W nt h (s, 1%Z)) <= r)%N) /\
  ((r = s /\ g = g0 /\ ph = ph0) \/ ((s < r)%N /\ valid g /\ W nt g (s, 1%Z) = (r, ph))).
Proof.
  intros Hs Hnt Hf. unfold ref_state.
  replace (nt =? 0) with false by (symmetry; apply Nat.eqb_neq; lia).
  replace (max_nt <? nt) with false by (symmetry; apply Nat.ltb_ge; lia). cbn [orb].
  destruct (ref_outer_spec s g0 ph0 Hs ltac:(lia) fuel (mkR (repeat 0 nt) s 1 s g0 ph0)) as (st & E & R & Hm).
  - apply valid_zero.
  - cbn [r_t r_tp r_gg]. rewrite W_zero. reflexivity.
  - left. cbn. auto.
  - cbn [r_gg]. intros g _ Hv. exfalso. assert (valp pers nt (repeat 0 nt) = 0); [|lia].
    clear. generalize nt at 1. intros c. induction c as [|c IH]; [reflexivity|]. cbn [valp]. rewrite IH, nth_repeat. reflexivity.
  - cbn [r_gg]. lia.
  - exists (r_r st), (r_g st), (r_ph st). rewrite E. split; [reflexivity|]. split; [assumption|]. exact R.
Qed.
End G.
