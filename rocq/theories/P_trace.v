(* Reordering of sites: grouping of consecutive sites, transposition of the grouped array, and the stride loop. *)
From Verif Require Import AuxN SpecC SpecTrace M_trace.
From Coq Require Import Sorted.
Local Open Scope nat_scope.

(* ---- numbers of configurations ---- *)
Lemma enc_acc sps c : forall a, fold_left (fun acc d => acc * sps + d) c a = a * sps ^ length c + enc sps c.
Proof.
  unfold enc. induction c as [|d c IH]; intros a; cbn [fold_left length Nat.pow]; [lia|]. rewrite IH, (IH (0 * sps + d)). cbn [Nat.mul]. nia.
Qed.
Lemma enc_app sps a b : enc sps (a ++ b) = enc sps a * sps ^ length b + enc sps b.
Proof. unfold enc at 1. rewrite fold_left_app. apply enc_acc. Qed.
Lemma enc_cons sps d c : enc sps (d :: c) = d * sps ^ length c + enc sps c.
Proof. change (d :: c) with ([d] ++ c). rewrite enc_app. unfold enc at 1. cbn [fold_left]. lia. Qed.
Lemma enc_lt sps c : Forall (fun d => d < sps) c -> enc sps c < sps ^ length c.
Proof.
  induction 1 as [|d c Hd _ IH]; [cbn; lia|]. rewrite enc_cons. cbn [length Nat.pow]. nia.
Qed.
Lemma enc_inj sps c c' : Forall (fun d => d < sps) c -> Forall (fun d => d < sps) c' -> length c = length c' -> enc sps c = enc sps c' -> c = c'.
Proof.
  intros H. revert c'. induction H as [|d c Hd Hc IH]; intros [|d' c'] H' Ln E; try discriminate; [reflexivity|].
  inversion H' as [|? ? Hd' Hc']; subst. injection Ln as Ln. rewrite !enc_cons, Ln in E. pose proof (enc_lt sps c Hc) as B. pose proof (enc_lt sps c' Hc') as B'. rewrite Ln in B.
  assert (d = d') by nia. subst d'. f_equal. apply IH; [exact Hc'|exact Ln|lia].
Qed.
Lemma configs_iff sps L c : In c (configs sps L) <-> config sps L c.
Proof.
  revert c. induction L as [|L IH]; intros c; cbn [configs].
  - split; [intros [<-|[]]; split; [reflexivity|constructor]|]. intros [H _]. destruct c; [left; reflexivity|discriminate].
  - rewrite in_flat_map. split.
    + intros (d & Hd & Hc). apply in_seq in Hd. apply in_map_iff in Hc. destruct Hc as (x & <- & Hx). apply IH in Hx. destruct Hx as [H1 H2]. split; [cbn; lia|constructor; [lia|exact H2]].
    + intros [H1 H2]. destruct c as [|d c]; [discriminate|]. inversion H2; subst. exists d. split; [apply in_seq; lia|]. apply in_map, IH. split; [cbn in H1; lia|assumption].
Qed.
Lemma enc_configs sps L : map (enc sps) (configs sps L) = seq 0 (sps ^ L).
Proof.
  induction L as [|L IH]; [reflexivity|]. cbn [configs Nat.pow].
  assert (X : forall n s, map (enc sps) (flat_map (fun d => map (cons d) (configs sps L)) (seq s n)) = seq (s * sps ^ L) (n * sps ^ L)); [|apply (X sps 0)].
  induction n as [|n IHn]; intros s; [reflexivity|]. cbn [seq flat_map]. rewrite map_app, IHn, map_map. replace (S n * sps ^ L) with (sps ^ L + n * sps ^ L) by lia. rewrite seq_app. f_equal; [|f_equal; lia].
  rewrite (map_ext_in _ (fun c => s * sps ^ L + enc sps c)) by (intros c Hc; apply configs_iff in Hc; destruct Hc as [H _]; rewrite enc_cons, H; reflexivity).
  rewrite <- (map_map (enc sps) (fun x => s * sps ^ L + x)), IH. clear. generalize (s * sps ^ L). intros m. assert (Y : forall n k, map (fun x => m + x) (seq k n) = seq (m + k) n) by (induction n as [|n IH]; intros k; [reflexivity|]; cbn; f_equal; rewrite IH; f_equal; lia). rewrite Y. f_equal. lia.
Qed.
Lemma levels_len c s : length (levels_at c s) = length s. Proof. apply map_length. Qed.
Lemma levels_app c s t : levels_at c (s ++ t) = levels_at c s ++ levels_at c t. Proof. apply map_app. Qed.
Lemma levels_all c L : length c = L -> levels_at c (seq 0 L) = c.
Proof.
  intros <-. unfold levels_at. apply (nth_ext _ _ 0 0); [rewrite map_length, seq_length; reflexivity|]. intros n Hn. rewrite map_length, seq_length in Hn.
  rewrite (nth_indep _ 0 (nth 0 c 0)) by (rewrite map_length, seq_length; exact Hn). rewrite (map_nth (fun i => nth i c 0)), seq_nth by exact Hn. reflexivity.
Qed.
Lemma levels_ok sps L c s : 0 < sps -> config sps L c -> Forall (fun d => d < sps) (levels_at c s).
Proof.
  intros Hp [Ln H]. apply Forall_forall. intros d Hd. apply in_map_iff in Hd. destruct Hd as (i & <- & _). destruct (Nat.lt_ge_cases i (length c)) as [Q|Q]; [|rewrite nth_overflow by exact Q; exact Hp]. rewrite Forall_forall in H. apply H, nth_In, Q.
Qed.
Lemma levels_inj sps L c c' T : config sps L c -> config sps L c' -> Permutation T (seq 0 L) -> levels_at c T = levels_at c' T -> c = c'.
Proof.
  intros [H _] [H' _] P E. apply (nth_ext _ _ 0 0); [congruence|]. intros n Hn. assert (In n T) by (apply (Permutation_in n (Permutation_sym P)), in_seq; lia).
  clear - H0 E. induction T as [|t T IH]; [destruct H0|]. cbn in E. injection E as E1 E2. destruct H0 as [->|H0]; [exact E1|apply IH; assumption].
Qed.
Lemma config_pos sps L c i : config sps L c -> i < L -> 0 < sps.
Proof. intros [H F] Hi. destruct c as [|d c]; [cbn in H; lia|]. inversion F; subst; lia. Qed.

(* ---- runs ---- *)
Definition is_run (x : list nat) : Prop := x <> [] /\ x = seq (hd 0 x) (length x).
Lemma run_front_spec rest : forall t0, is_run (run_front t0 rest) /\ hd 0 (run_front t0 rest) = t0 /\ exists tail, t0 :: rest = run_front t0 rest ++ tail.
Proof.
  induction rest as [|t1 rest IH]; intros t0; cbn [run_front].
  - split; [split; [discriminate|reflexivity]|]. split; [reflexivity|exists []; reflexivity].
  - destruct (Nat.eqb_spec (t0 + 1) t1) as [E|E].
    + destruct (IH t1) as ([H1 H2] & H3 & tl & H4). split; [split; [discriminate|]|split; [reflexivity|]].
      * cbn [hd length seq]. f_equal. rewrite H3 in H2. rewrite H2 at 1. f_equal. lia.
      * exists tl. cbn [app]. f_equal. exact H4.
    + split; [split; [discriminate|reflexivity]|]. split; [reflexivity|]. exists (t1 :: rest). reflexivity.
Qed.
Lemma remove_front x tail : fold_left (fun l s => remove_first s l) x (x ++ tail) = tail.
Proof. induction x as [|a x IH]; [reflexivity|]. cbn [fold_left app remove_first]. rewrite Nat.eqb_refl. exact IH. Qed.
Lemma sub_lists_spec fuel : forall T, length T <= fuel -> concat (sub_lists fuel T) = T /\ Forall is_run (sub_lists fuel T).
Proof.
  induction fuel as [|f IH]; intros [|t0 T] Hl; try (split; [reflexivity|constructor]); [cbn in Hl; lia|].
  cbn [sub_lists]. destruct (run_front_spec T t0) as (Hr & _ & tail & E). cbn zeta. remember (run_front t0 T) as x eqn:Ex. rewrite E. rewrite remove_front.
  assert (Lt : length tail <= f). { assert (X : length (t0 :: T) = length (x ++ tail)) by congruence. rewrite app_length in X. destruct Hr as [Hr _]. destruct x as [|a x]; [congruence|]. cbn in X, Hl. lia. }
  destruct (IH tail Lt) as [I1 I2]. cbn [concat]. rewrite I1. split; [reflexivity|constructor; assumption].
Qed.
Lemma insert_perm x l : Permutation (insert_sl x l) (x :: l).
Proof. induction l as [|y l IH]; [reflexivity|]. cbn [insert_sl]. destruct (_ <=? _); [reflexivity|]. rewrite IH. apply perm_swap. Qed.
Lemma sort_perm l : Permutation (sort_sl l) l.
Proof. induction l as [|x l IH]; [reflexivity|]. cbn [sort_sl fold_right]. rewrite insert_perm. constructor. exact IH. Qed.
Notation le_hd := (fun x y => hd 0 x <= hd 0 y).
Lemma insert_sorted x l : StronglySorted le_hd l -> StronglySorted le_hd (insert_sl x l).
Proof.
  induction 1 as [|y l Hl IH Hy]; cbn [insert_sl]; [repeat constructor|]. destruct (Nat.leb_spec (hd 0 x) (hd 0 y)) as [G|G].
  - constructor; [constructor; assumption|]. constructor; [exact G|]. revert Hy. apply Forall_impl. intros a Ha. cbn beta in Ha. lia.
  - constructor; [exact IH|]. apply Forall_forall. intros a Ha. apply (Permutation_in a (insert_perm x l)) in Ha. rewrite Forall_forall in Hy. destruct Ha as [<-|Ha]; [lia|apply Hy, Ha].
Qed.
Lemma sort_sorted l : StronglySorted le_hd (sort_sl l).
Proof. induction l as [|x l IH]; [constructor|apply insert_sorted, IH]. Qed.
Lemma sorted_seq n : forall s l, StronglySorted lt l -> Permutation l (seq s n) -> l = seq s n.
Proof.
  induction n as [|n IH]; intros s l Hs P; [apply Permutation_sym, Permutation_nil in P; exact P|].
  destruct l as [|x l]; [apply Permutation_nil in P; discriminate|]. inversion Hs as [|? ? Hl Hx]; subst.
  assert (E : x = s). { assert (H1 : In s (x :: l)) by (apply (Permutation_in s (Permutation_sym P)); left; reflexivity). assert (H2 : In x (seq s (S n))) by (apply (Permutation_in x P); left; reflexivity). apply in_seq in H2. destruct H1 as [H1|H1]; [exact H1|]. rewrite Forall_forall in Hx. specialize (Hx s H1). lia. }
  subst x. cbn [seq]. f_equal. apply IH; [exact Hl|]. cbn [seq] in P. apply Permutation_cons_inv in P. exact P.
Qed.
Lemma sorted_app (l l' : list nat) : StronglySorted lt l -> StronglySorted lt l' -> (forall a b, In a l -> In b l' -> a < b) -> StronglySorted lt (l ++ l').
Proof.
  intros H H' Hab. induction H as [|x l Hl IH Hx]; [exact H'|]. cbn [app]. constructor; [apply IH; intros a b Ha; apply Hab; right; exact Ha|]. apply Forall_app. split; [exact Hx|]. apply Forall_forall. intros b Hb. apply Hab; [left; reflexivity|exact Hb].
Qed.
Lemma seq_sorted n : forall s, StronglySorted lt (seq s n).
Proof. induction n as [|n IH]; intros s; cbn [seq]; constructor; [apply IH|]. apply Forall_forall. intros a Ha. apply in_seq in Ha. lia. Qed.
Lemma NoDup_app_r {X} (l l' : list X) : NoDup (l ++ l') -> NoDup l'.
Proof. induction l as [|x l IH]; [auto|]. intros H. inversion H; subst. auto. Qed.
Lemma runs_sorted l : StronglySorted le_hd l -> Forall is_run l -> NoDup (concat l) -> StronglySorted lt (concat l).
Proof.
  induction 1 as [|x l Hl IH Hx]; intros Hr Hn; [constructor|]. inversion Hr as [|? ? Rx Rl]; subst. cbn [concat] in *. apply NoDup_app_r in Hn as Hn2.
  apply sorted_app; [destruct Rx as [_ ->]; apply seq_sorted|apply IH; assumption|]. intros a b Ha Hb. apply in_concat in Hb as Hb'. destruct Hb' as (y & Hy & Hby).
  rewrite Forall_forall in Hx, Rl. specialize (Hx y Hy). destruct (Rl y Hy) as [Ny Ey]. destruct Rx as [Nx Ex]. rewrite Ex in Ha. apply in_seq in Ha. rewrite Ey in Hby. apply in_seq in Hby.
  destruct (Nat.lt_ge_cases a (hd 0 y)) as [G|G]; [lia|]. exfalso.
  assert (D : forall z, In z x -> In z (concat l) -> False). { clear - Hn. intros z H1 H2. apply in_split in H1. destruct H1 as (u & v & ->). rewrite <- app_assoc in Hn. cbn in Hn. apply NoDup_remove_2 in Hn. apply Hn. rewrite !in_app_iff. auto. }
  apply (D (hd 0 y)); [rewrite Ex; apply in_seq; lia|]. apply in_concat. exists y. split; [exact Hy|]. destruct y; [congruence|left; reflexivity].
Qed.
Lemma concat_perm {X} (l l' : list (list X)) : Permutation l l' -> Permutation (concat l) (concat l').
Proof. induction 1; cbn [concat]; [constructor|apply Permutation_app_head; assumption|rewrite !app_assoc; apply Permutation_app_tail, Permutation_app_comm|etransitivity; eassumption]. Qed.
Section Groups.
Variables (T : list nat) (L : nat).
Hypothesis P : Permutation T (seq 0 L).
Notation sl := (sub_lists (length T) T).
Notation so := (sort_sl sl).
Lemma sl_concat : concat sl = T. Proof. apply sub_lists_spec. reflexivity. Qed.
Lemma so_concat : concat so = seq 0 L.
Proof.
  assert (Q : Permutation (concat so) T) by (eapply Permutation_trans; [apply concat_perm, sort_perm|rewrite sl_concat; reflexivity]).
  apply sorted_seq; [|rewrite Q; exact P]. apply runs_sorted; [apply sort_sorted| |].
  - apply (Permutation_Forall (Permutation_sym (sort_perm sl))). apply sub_lists_spec. reflexivity.
  - apply (Permutation_NoDup (Permutation_sym (Permutation_trans Q P))), seq_NoDup.
Qed.
Lemma so_nodup : NoDup so.
Proof.
  assert (R : Forall is_run so) by (apply (Permutation_Forall (Permutation_sym (sort_perm sl))); apply sub_lists_spec; reflexivity).
  assert (N : NoDup (concat so)) by (rewrite so_concat; apply seq_NoDup). revert R N. generalize so. intros l. induction l as [|x l IH]; intros R N; [constructor|]. inversion R as [|? ? [Nx _] Rl]; subst. cbn [concat] in N. constructor; [|apply IH; [exact Rl|apply NoDup_app_r in N; exact N]].
  intros Hx. destruct x as [|a x]; [congruence|]. cbn [app] in N. inversion N as [|? ? Na _]; subst. apply Na. apply in_or_app. right. apply in_concat. exists (a :: x). split; [exact Hx|left; reflexivity].
Qed.
Lemma index_nth x (l : list (list nat)) : In x l -> nth (index_sl x l) l [] = x /\ index_sl x l < length l.
Proof.
  induction l as [|y l IH]; [intros []|]. intros H. cbn [index_sl]. destruct (list_eq_dec _ y x) as [E|E]; [split; [exact E|cbn; lia]|]. destruct H as [H|H]; [congruence|]. destruct (IH H). split; [assumption|cbn; lia].
Qed.
Lemma nth_index (l : list (list nat)) : NoDup l -> forall p, p < length l -> index_sl (nth p l []) l = p.
Proof.
  induction 1 as [|y l Hy Hl IH]; intros p Hp; [cbn in Hp; lia|]. destruct p as [|p]; cbn [nth index_sl]; [destruct (list_eq_dec _ y y); congruence|].
  cbn in Hp. destruct (list_eq_dec _ y _) as [E|E]; [exfalso; apply Hy; rewrite E; apply nth_In; lia|]. f_equal. apply IH. lia.
Qed.
Notation Tr := (map (fun x => index_sl x so) sl).
Lemma pos_spec x l : In x l -> pos x l < length l /\ nth (pos x l) l 0 = x.
Proof. induction l as [|y l IH]; [intros []|]. intros H. cbn [pos]. destruct (Nat.eqb_spec y x) as [E|E]; [split; [cbn; lia|exact E]|]. destruct H as [H|H]; [congruence|]. destruct (IH H). split; [cbn; lia|assumption]. Qed.
(* the group that ends up at position pos p of the transposed array is the p-th group of the sorted list *)
Lemma group_pos p : p < length so -> pos p Tr < length sl /\ nth (pos p Tr) sl [] = nth p so [].
Proof.
  intros Hp. assert (Hi : In p Tr). { apply in_map_iff. exists (nth p so []). split; [apply nth_index; [apply so_nodup|exact Hp]|]. apply (Permutation_in _ (sort_perm sl)), nth_In, Hp. }
  destruct (pos_spec p Tr Hi) as [H1 H2]. rewrite map_length in H1. split; [exact H1|]. set (k := pos p Tr) in *. rewrite (nth_indep _ 0 (index_sl [] so)) in H2 by (rewrite map_length; exact H1). rewrite (map_nth (fun x => index_sl x so)) in H2.
  rewrite <- H2. symmetry. apply index_nth. apply (Permutation_in _ (Permutation_sym (sort_perm sl))), nth_In, H1.
Qed.
Lemma shape_T sps : map (fun t => nth t (map (fun x => sps ^ length x) so) 1) Tr = map (fun x => sps ^ length x) sl.
Proof.
  rewrite map_map. apply map_ext_in. intros x Hx. destruct (index_nth x so) as [H1 H2]; [apply (Permutation_in _ (Permutation_sym (sort_perm sl))), Hx|].
  rewrite (nth_indep _ 1 (sps ^ @length nat [])) by (rewrite map_length; exact H2). rewrite (map_nth (fun x => sps ^ length x)), H1. reflexivity.
Qed.
End Groups.

(* ---- mixed radix ---- *)
Lemma prod_groups sps (gs : list (list nat)) : prod_l (map (fun x => sps ^ length x) gs) = sps ^ length (concat gs).
Proof. unfold prod_l. induction gs as [|x gs IH]; [reflexivity|]. cbn [map fold_right concat]. rewrite IH, app_length, Nat.pow_add_r. reflexivity. Qed.
Lemma flat_groups sps (c : list nat) (gs : list (list nat)) : flat (map (fun x => sps ^ length x) gs) (map (fun x => enc sps (levels_at c x)) gs) = enc sps (levels_at c (concat gs)).
Proof. induction gs as [|x gs IH]; [reflexivity|]. cbn [map flat concat]. rewrite IH, prod_groups, levels_app, enc_app, levels_len. reflexivity. Qed.
Lemma flat_lt sh : forall ix, Forall2 (fun i d => i < d) ix sh -> flat sh ix < prod_l sh.
Proof. induction sh as [|d sh IH]; intros ix H; inversion H as [|i ? ix' ? Hi Hx]; subst; [cbn; lia|]. cbn [flat]. specialize (IH ix' Hx). unfold prod_l in *. cbn [fold_right]. nia. Qed.
Lemma unflat_flat sh : forall ix, Forall2 (fun i d => i < d) ix sh -> forall m, unflat sh (m * prod_l sh + flat sh ix) = ix.
Proof.
  induction sh as [|d sh IH]; intros ix H m; inversion H as [|i ? ix' ? Hi Hx]; subst; [reflexivity|]. cbn [flat unflat]. pose proof (flat_lt sh ix' Hx) as B. change (prod_l (d :: sh)) with (d * prod_l sh).
  replace (m * (d * prod_l sh) + (i * prod_l sh + flat sh ix')) with ((m * d + i) * prod_l sh + flat sh ix') by nia. rewrite IH by exact Hx. f_equal.
  rewrite Nat.div_add_l by lia. rewrite Nat.div_small by exact B. rewrite Nat.add_0_r, Nat.add_comm, Nat.mod_add by lia. apply Nat.mod_small, Hi.
Qed.
Lemma flat_digit sh : forall ix, Forall2 (fun i d => i < d) ix sh -> forall p m, p < length sh -> ((m * prod_l sh + flat sh ix) / prod_l (skipn (S p) sh)) mod nth p sh 1 = nth p ix 0.
Proof.
  induction sh as [|d sh IH]; intros ix H p m Hp; inversion H as [|i ? ix' ? Hi Hx]; subst; [cbn in Hp; lia|]. cbn [flat]. pose proof (flat_lt sh ix' Hx) as B. change (prod_l (d :: sh)) with (d * prod_l sh).
  replace (m * (d * prod_l sh) + (i * prod_l sh + flat sh ix')) with ((m * d + i) * prod_l sh + flat sh ix') by nia. destruct p as [|p].
  - change (skipn 1 (d :: sh)) with sh. cbn [nth]. rewrite Nat.div_add_l by lia. rewrite Nat.div_small by exact B. rewrite Nat.add_0_r, Nat.add_comm, Nat.mod_add by lia. apply Nat.mod_small, Hi.
  - cbn [nth]. change (skipn (S (S p)) (d :: sh)) with (skipn (S p) sh). apply IH; [exact Hx|cbn in Hp; lia].
Qed.
Lemma fold_add {X} (f : X -> nat) l : forall a, fold_left (fun j k => j + f k) l a = a + list_sum (map f l).
Proof. induction l as [|x l IH]; intros a; cbn [fold_left map list_sum fold_right]; [lia|]. rewrite IH. unfold list_sum. cbn [fold_right]. lia. Qed.
Lemma strides_nth sh k : k < length sh -> nth k (strides sh) 1 = prod_l (skipn (S k) sh).
Proof. intros H. unfold strides. rewrite (nth_indep _ 1 (prod_l (skipn (S 0) sh))) by (rewrite map_length, seq_length; exact H). rewrite (map_nth (fun k => prod_l (skipn (S k) sh))), seq_nth by exact H. reflexivity. Qed.
Lemma flat_sum sh : forall ix, length ix = length sh -> flat sh ix = list_sum (map (fun k => nth k ix 0 * nth k (strides sh) 1) (seq 0 (length sh))).
Proof.
  induction sh as [|d sh IH]; intros [|i ix] H; try discriminate; [reflexivity|]. cbn [flat length seq map]. rewrite <- seq_shift, map_map. unfold list_sum. cbn [fold_right nth]. rewrite strides_nth by (cbn; lia). change (skipn 1 (d :: sh)) with sh. f_equal.
  rewrite IH by (cbn in H; lia). unfold list_sum. f_equal. apply map_ext_in. intros k Hk. apply in_seq in Hk. rewrite !strides_nth by (cbn; lia). reflexivity.
Qed.

Lemma nth_map {X Y} (f : X -> Y) l p d d' : p < length l -> nth p (map f l) d = f (nth p l d').
Proof. intros H. rewrite (nth_indep _ d (f d')) by (rewrite map_length; exact H). apply map_nth. Qed.

(* ---- the loops ---- *)
Lemma scatter {X} (A : nat -> X) (g : nat -> nat) : forall n (Z0 : nat -> X), (forall i i', i < n -> i' < n -> g i = g i' -> i = i') -> forall i, i < n -> fold_left (fun AT i => fun j => if j =? g i then A i else AT j) (seq 0 n) Z0 (g i) = A i.
Proof.
  induction n as [|n IH]; intros Z0 Inj i Hi; [lia|]. rewrite seq_S, fold_left_app. cbn [fold_left Nat.add]. destruct (Nat.eqb_spec (g i) (g n)) as [E|E].
  - f_equal. symmetry. apply Inj; [lia|lia|exact E].
  - apply IH; [intros a b Ha Hb; apply Inj; lia|]. destruct (Nat.eq_dec i n) as [->|]; [congruence|lia].
Qed.
Lemma groups_ok sps L c (gs : list (list nat)) : 0 < sps -> config sps L c -> Forall2 (fun i d => i < d) (map (fun x => enc sps (levels_at c x)) gs) (map (fun x => sps ^ length x) gs).
Proof. intros Hp Hc. induction gs as [|x gs IH]; constructor; [|exact IH]. rewrite <- (levels_len c x). apply enc_lt, (levels_ok sps L); assumption. Qed.
Section Shuffle.
Variables (sps L : nat) (T : list nat).
Hypothesis Hp : 0 < sps.
Hypothesis P : Permutation T (seq 0 L).
Notation sl := (sub_lists (length T) T).
Notation so := (sort_sl sl).
Notation Tr := (map (fun x => index_sl x so) sl).
Notation Rr := (map (fun x => sps ^ length x) so).
Lemma flat_sl c : flat (map (fun x => sps ^ length x) sl) (map (fun x => enc sps (levels_at c x)) sl) = enc sps (levels_at c T).
Proof. rewrite flat_groups, sl_concat. reflexivity. Qed.
Lemma flat_so c : config sps L c -> flat Rr (map (fun x => enc sps (levels_at c x)) so) = enc sps c.
Proof. intros Hc. rewrite flat_groups, (so_concat T L P), (levels_all c L (proj1 Hc)). reflexivity. Qed.
Lemma np_spec {X} (A : nat -> X) c : config sps L c -> np_transpose Rr Tr A (enc sps (levels_at c T)) = A (enc sps c).
Proof.
  intros Hc. unfold np_transpose. rewrite (shape_T T sps). f_equal. pose proof (groups_ok sps L c sl Hp Hc) as F. rewrite <- flat_sl.
  pose proof (unflat_flat _ _ F 0) as U. cbn [Nat.mul Nat.add] in U. rewrite U. rewrite <- (flat_so c Hc). f_equal.
  rewrite map_length. apply (nth_ext _ _ 0 0); [rewrite !map_length, seq_length; reflexivity|]. intros p Hpp. rewrite map_length, seq_length in Hpp.
  rewrite (nth_map _ (seq 0 (length so)) p 0 0) by (rewrite seq_length; exact Hpp). rewrite seq_nth by exact Hpp. cbn [Nat.add].
  destruct (group_pos T L P p Hpp) as [G1 G2]. rewrite (nth_map _ sl _ 0 []) by exact G1. rewrite G2, (nth_map _ so p 0 []) by exact Hpp. reflexivity.
Qed.
Lemma target_spec c : config sps L c -> shuffle_target Rr Tr (enc sps c) = enc sps (levels_at c T).
Proof.
  intros Hc. unfold shuffle_target. rewrite (shape_T T sps). rewrite fold_add. cbn [Nat.add]. rewrite <- flat_sl. rewrite flat_sum by (rewrite !map_length; reflexivity). rewrite !map_length. f_equal. apply map_ext_in. intros k Hk. apply in_seq in Hk. cbn [Nat.add] in Hk. f_equal.
  pose proof (groups_ok sps L c so Hp Hc) as F. assert (Hs : In (nth k sl []) so) by (apply (Permutation_in _ (Permutation_sym (sort_perm sl))), nth_In; lia). destruct (index_nth _ _ Hs) as [I1 I2].
  rewrite (nth_map _ Tr k 1 0) by (rewrite map_length; lia). rewrite (nth_map _ sl k 0 []) by lia. rewrite strides_nth by (rewrite map_length; exact I2).
  rewrite (nth_map _ sl k 1 []) by lia. rewrite (nth_map _ sl k 0 []) by lia.
  pose proof (flat_digit _ _ F (index_sl (nth k sl []) so) 0 ltac:(rewrite map_length; exact I2)) as D. cbn [Nat.mul Nat.add] in D. rewrite (flat_so c Hc) in D.
  rewrite (nth_map _ so _ 1 []), (nth_map _ so _ 0 []), I1 in D by exact I2. exact D.
Qed.
Lemma number_config i : i < sps ^ L -> exists c, config sps L c /\ enc sps c = i.
Proof. intros Hi. assert (H : In i (map (enc sps) (configs sps L))) by (rewrite enc_configs; apply in_seq; lia). apply in_map_iff in H. destruct H as (c & E & Hc). exists c. split; [apply configs_iff, Hc|exact E]. Qed.
Lemma strid_spec {X} (z : X) (A : nat -> X) c : config sps L c -> shuffle_strid z Rr Tr (sps ^ L) A (enc sps (levels_at c T)) = A (enc sps c).
Proof.
  intros Hc. unfold shuffle_strid. rewrite <- (target_spec c Hc). apply (scatter A (shuffle_target Rr Tr)).
  - intros i i' Hi Hi' E. destruct (number_config i Hi) as (d & Hd & <-). destruct (number_config i' Hi') as (d' & Hd' & <-). rewrite !target_spec in E by assumption.
    apply enc_inj in E; [|apply (levels_ok sps L); assumption|apply (levels_ok sps L); assumption|rewrite !levels_len; reflexivity]. rewrite (levels_inj sps L d d' T Hd Hd' P E). reflexivity.
  - rewrite <- (proj1 Hc). apply enc_lt, Hc.
Qed.
Lemma groups_le : forall fuel (U : list nat), length (sub_lists fuel U) <= fuel.
Proof. induction fuel as [|f IH]; intros [|u U]; cbn [sub_lists length]; try lia. specialize (IH (fold_left (fun l s => remove_first s l) (run_front u U) (u :: U))). cbn zeta. lia. Qed.
(* the amplitude of every configuration moves to the number of its levels in the order T *)
Lemma shuffle_spec {X} (z : X) (A : nat -> X) v : shuffle_sites z sps T (sps ^ L) A = Some v -> forall c, config sps L c -> v (enc sps (levels_at c T)) = A (enc sps c).
Proof.
  unfold shuffle_sites, reduce_transpose. cbn zeta. rewrite map_length. intros E c Hc. destruct (Nat.ltb_spec 1 (length sl)) as [G|G]; [destruct (_ <? 32); [|destruct (64 <? _); [discriminate|]]|]; injection E as <-; [apply np_spec, Hc|apply strid_spec, Hc|].
  assert (Q : T = seq 0 L). { pose proof (so_concat T L P) as Q1. pose proof (sl_concat T) as Q2. destruct sl as [|x [|y l]]; [cbn in Q1, Q2; congruence|cbn in Q1, Q2; congruence|cbn in G; lia]. }
  rewrite Q, (levels_all c L (proj1 Hc)). reflexivity.
Qed.
Lemma shuffle_total {X} (z : X) (A : nat -> X) : L <= 64 -> exists v, shuffle_sites z sps T (sps ^ L) A = Some v.
Proof.
  intros HL. unfold shuffle_sites, reduce_transpose. cbn zeta. rewrite map_length. destruct (1 <? _); [|eauto]. destruct (_ <? 32); [eauto|]. pose proof (groups_le (length T) T) as G. assert (length T = L) by (rewrite (Permutation_length P), seq_length; reflexivity). destruct (Nat.ltb_spec 64 (length sl)); [lia|eauto].
Qed.
End Shuffle.
