From Verif Require Import AuxN SpecC SpecSymm SpecSector SpecBasis M_symm M_next M_make P_symm P_norm P_symminst.
Local Open Scope nat_scope.

(* ---- which states are kept ---- *)
Lemma int_norm_INR k : int_norm (INR k) = Z.of_nat k.
Proof. apply Int_part_INR. Qed.

Lemma reach_nil ms s t : reach 0 ms s t <-> t = s.
Proof.
  split.
  - intros (l & Hl & <-). destruct l as [|d l]; [reflexivity|]. inversion Hl; lia.
  - intros ->. exists []. split; [constructor|reflexivity].
Qed.

Lemma keep_spec D nt pers ms qs s n : good_maps D nt pers ms -> D s -> nt <= 32 ->
  (keep pers qs ms nt s = Some n <->
   (forall t, reach nt ms s t -> (t <= s)%N) /\ compatible pers qs ms s /\
   n = Z.of_nat (length (filter (fun g => (fst (gact ms g s) =? s)%N) (group pers)))).
Proof.
  intros HG Hs Hnt. unfold keep. destruct (Nat.eq_dec nt 0) as [E0|E0].
  - unfold check_state. rewrite E0. cbn [Nat.eqb orb].
    replace 1%R with (INR 1) by reflexivity. rewrite int_norm_INR. cbn [Z.of_nat Z.ltb Z.compare Pos.compare].
    assert (E : pers = []) by (destruct pers; [reflexivity|pose proof (gm_len _ _ _ _ HG); cbn in *; lia]). subst pers.
    assert (C : compatible [] qs ms s).
    { intros g [L _] _. destruct g; [|cbn in L; lia]. unfold theta. cbn. rewrite cis_0. unfold C1. apply C_eq; cbn; ring. }
    cbn [group filter gact word length seq flat_map sapply fold_left fst]. rewrite N.eqb_refl. cbn [length Z.of_nat].
    split; [intros H; injection H as <-|intros (_ & _ & ->); reflexivity].
    split; [|split; [assumption|reflexivity]]. intros t Ht. apply reach_nil in Ht. lia.
  - destruct (norm_full D nt pers ms HG qs s (group_order pers) Hs ltac:(unfold max_nt; lia) (Nat.le_refl _))
      as [[E (t & R & L)]|[M [[Cp E]|[Cp E]]]]; rewrite E.
    + split; [discriminate|intros [H _]; specialize (H t R); lia].
    + rewrite int_norm_INR. pose proof (stab_pos D nt pers ms HG s Hs) as P.
      destruct (Z.ltb_spec 0 (Z.of_nat (length (filter (fun g => (fst (gact ms g s) =? s)%N) (group pers))))) as [L|L]; [|lia].
      split; [intros H; injection H as <-; auto|intros (_ & _ & ->); reflexivity].
    + change 0%R with (INR 0). rewrite int_norm_INR. split; [discriminate|intros (_ & H & _); contradiction].
Qed.

(* ---- lists ---- *)
Definition kept_list (kp : N -> option Z) (l : list N) : list (N * Z) :=
  flat_map (fun s => match kp s with Some n => [(s, n)] | None => [] end) l.
Lemma kept_app kp l l' : kept_list kp (l ++ l') = kept_list kp l ++ kept_list kp l'.
Proof. unfold kept_list. apply flat_map_app. Qed.
Lemma push_kept kp s l : push kp s l = l ++ kept_list kp [s].
Proof. unfold push, kept_list. cbn. destruct (kp s); rewrite ?app_nil_r; reflexivity. Qed.
Lemma kept_in kp l s n : In (s, n) (kept_list kp l) <-> In s l /\ kp s = Some n.
Proof.
  unfold kept_list. rewrite in_flat_map. split.
  - intros (x & Hx & H). destruct (kp x) eqn:E; [|destruct H]. destruct H as [H|[]]. injection H as <- <-. auto.
  - intros [Hs E]. exists s. split; [assumption|]. rewrite E. left; reflexivity.
Qed.
Lemma kept_sorted kp l : StronglySorted N.lt l -> StronglySorted (fun a b => (fst a < fst b)%N) (kept_list kp l).
Proof.
  induction 1 as [|s l Hl IH Hs]; [constructor|]. change (s :: l) with ([s] ++ l). rewrite kept_app.
  unfold kept_list at 1. cbn. destruct (kp s) as [n|]; [|assumption]. cbn. constructor; [assumption|].
  apply Forall_forall. intros [x z] Hx. cbn. apply kept_in in Hx. rewrite Forall_forall in Hs. apply Hs. apply Hx.
Qed.
Lemma sorted_app_l {A} (R : A -> A -> Prop) l l' : (forall x y, In x l -> In y l' -> R x y) -> StronglySorted R l -> StronglySorted R l' -> StronglySorted R (l ++ l').
Proof.
  intros H S1 S2. induction S1 as [|x l S1 IH F]; [assumption|]. cbn. constructor.
  - apply IH. intros a b Ha Hb. apply H; [right; assumption|assumption].
  - apply Forall_app. split; [assumption|]. apply Forall_forall. intros y Hy. apply H; [left; reflexivity|assumption].
Qed.
Lemma sorted_rev {A} (R R' : A -> A -> Prop) l : (forall x y, R x y -> R' y x) -> StronglySorted R l -> StronglySorted R' (rev l).
Proof.
  intros H S. induction S as [|x l S IH F]; [constructor|]. cbn. apply sorted_app_l; [|assumption|repeat constructor].
  intros a b Ha [<-|[]]. apply H. rewrite Forall_forall in F. apply F. apply in_rev. assumption.
Qed.

Section Seq.
Variables (kp : N -> option Z) (next : N -> N).
Lemma seq_loop_spec mem MAX : forall s acc,
  match seq_loop kp next mem MAX s acc with
  | Some L => L = rev (acc ++ kept_list kp (visited next MAX s)) /\ (MAX = 0 \/ length (acc ++ kept_list kp (visited next MAX s)) <= mem)
  | None => mem <= length (acc ++ kept_list kp (visited next MAX s))
  end.
Proof.
  induction MAX as [|MAX IH]; intros s acc; cbn [seq_loop visited].
  - rewrite app_nil_r. split; [reflexivity|left; reflexivity].
  - destruct (Nat.leb_spec mem (length acc)) as [L|L]; [rewrite app_length; lia|].
    specialize (IH (next s) (push kp s acc)). rewrite push_kept, <- app_assoc in IH.
    change (s :: visited next MAX (next s)) with ([s] ++ visited next MAX (next s)). rewrite kept_app.
    destruct (seq_loop kp next mem MAX (next s) (push kp s acc)) as [L'|] eqn:E; rewrite push_kept in E; rewrite E in IH; [|assumption].
    destruct IH as [-> [->|IH]]; (split; [reflexivity|]); right; [|assumption].
    cbn [visited]. rewrite app_nil_r, app_length. assert (length (kept_list kp [s]) <= 1) by (unfold kept_list; cbn; destruct (kp s); cbn; lia). lia.
Qed.
Lemma make_seq_some mem MAX s0 L : make_seq kp next mem MAX s0 = Some L -> L = rev (kept_list kp (visited next MAX s0)) /\ length L <= mem.
Proof.
  intros E. pose proof (seq_loop_spec mem MAX s0 []) as H. unfold make_seq in E. rewrite E in H. cbn [app] in H. destruct H as [-> H].
  split; [reflexivity|]. rewrite rev_length. destruct H as [->|H]; [cbn; lia|assumption].
Qed.
Lemma make_seq_room mem MAX s0 : length (kept_list kp (visited next MAX s0)) < mem ->
  make_seq kp next mem MAX s0 = Some (rev (kept_list kp (visited next MAX s0))).
Proof.
  intros H. pose proof (seq_loop_spec mem MAX s0 []) as H1. unfold make_seq. cbn [app] in H1.
  destruct (seq_loop kp next mem MAX s0 []); [destruct H1 as [-> _]; reflexivity|lia].
Qed.
Lemma make_seq_small mem MAX s0 : mem < length (kept_list kp (visited next MAX s0)) -> make_seq kp next mem MAX s0 = None.
Proof.
  intros H. destruct (make_seq kp next mem MAX s0) as [L|] eqn:E; [|reflexivity]. apply make_seq_some in E. destruct E as [-> E].
  rewrite rev_length in E. lia.
Qed.
End Seq.

Lemma kept_lists_block (S : N -> Prop) D nt pers ms qs l : good_maps D nt pers ms -> nt <= 32 -> (forall s, S s -> D s) -> lists_increasing S l ->
  lists_decreasing (in_block S nt pers qs ms) (rev (kept_list (keep pers qs ms nt) l)).
Proof.
  intros HG Hnt SD [Hs Hin]. split.
  - eapply sorted_rev; [|apply kept_sorted; assumption]. auto.
  - intros s n. rewrite <- in_rev, kept_in, Hin. unfold in_block. split.
    + intros [H1 H2]. split; [assumption|]. apply (keep_spec D nt pers ms qs s n HG (SD s H1) Hnt). assumption.
    + intros [H1 H2]. split; [assumption|]. apply (keep_spec D nt pers ms qs s n HG (SD s H1) Hnt). assumption.
Qed.

Lemma sorted_perm_unique {A} (R : A -> A -> Prop) : (forall x, ~ R x x) -> (forall x y, R x y -> R y x -> False) ->
  forall l l' : list A, StronglySorted R l -> StronglySorted R l' -> Permutation l l' -> l = l'.
Proof.
  intros Irr Asym. induction l as [|x l IH]; intros l' S S' P.
  - apply Permutation_nil in P. auto.
  - destruct l' as [|y l']; [apply Permutation_sym, Permutation_nil in P; discriminate|].
    inversion S as [|? ? S1 F]; subst. inversion S' as [|? ? S1' F']; subst.
    assert (x = y).
    { assert (Hx : In x (y :: l')) by (eapply Permutation_in; [eassumption|left; reflexivity]).
      assert (Hy : In y (x :: l)) by (eapply Permutation_in; [apply Permutation_sym; eassumption|left; reflexivity]).
      destruct Hx as [->|Hx]; [reflexivity|]. destruct Hy as [->|Hy]; [reflexivity|].
      rewrite Forall_forall in F, F'. exfalso. exact (Asym _ _ (F _ Hy) (F' _ Hx)). }
    subst y. f_equal. apply IH; [assumption|assumption|]. eapply Permutation_cons_inv. eassumption.
Qed.

Lemma lists_decreasing_unique P l l' : lists_decreasing P l -> lists_decreasing P l' -> l = l'.
Proof.
  intros [S H] [S' H']. eapply (sorted_perm_unique (fun a b => (fst b < fst a)%N)); try assumption; [intros; lia|intros; lia|].
  assert (ND : forall m, StronglySorted (fun a b : N * Z => (fst b < fst a)%N) m -> NoDup m).
  { induction 1 as [|x m Sm IH F]; constructor; [|assumption]. rewrite Forall_forall in F. intros Hx. specialize (F x Hx). lia. }
  apply NoDup_Permutation; [apply ND; assumption|apply ND; assumption|]. intros [s n]. rewrite H, H'. reflexivity.
Qed.

(* ---- parallel construction ---- *)
Lemma interleave_perm {A} (ls : list (list A)) r : interleave ls r -> Permutation r (concat ls).
Proof.
  induction 1 as [ls F|pre a l post r H IH].
  - assert (concat ls = []) as ->; [|constructor]. induction F as [|x l E F IH]; [reflexivity|]. subst. exact IH.
  - rewrite concat_app in *. cbn [concat] in *. rewrite <- app_comm_cons. apply Permutation_cons_app. exact IH.
Qed.
Lemma interleave_concat {A} (ls : list (list A)) : interleave ls (concat ls).
Proof.
  assert (G : forall rest done, Forall (fun l : list A => l = []) done -> interleave (done ++ rest) (concat rest)).
  { induction rest as [|l rest IH]; intros done F; [rewrite app_nil_r; constructor; assumption|].
    cbn [concat]. induction l as [|a l IHl].
    - cbn [app]. replace (done ++ [] :: rest) with ((done ++ [[]]) ++ rest) by (rewrite <- app_assoc; reflexivity).
      apply IH. apply Forall_app. split; [assumption|repeat constructor].
    - cbn [app]. apply il_step. exact IHl. }
  apply (G ls []). constructor.
Qed.

Lemma stores_app {A} (w w' : list (nat * A)) m : stores (w ++ w') m = stores w' (stores w m).
Proof. unfold stores. apply fold_left_app. Qed.
Lemma stores_out {A} (w : list (nat * A)) a : forall m, ~ In a (map fst w) -> stores w m a = m a.
Proof.
  induction w as [|[b v] w IH]; intros m H; [reflexivity|]. cbn in H. change (stores ((b, v) :: w) m a) with (stores w (fun x => if x =? b then v else m x) a).
  rewrite IH by tauto. destruct (Nat.eqb_spec a b); [subst; tauto|reflexivity].
Qed.
Lemma stores_in {A} (w : list (nat * A)) a v : forall m, NoDup (map fst w) -> In (a, v) w -> stores w m a = v.
Proof.
  induction w as [|[b u] w IH]; intros m ND H; [destruct H|]. cbn in ND. inversion ND as [|? ? Hb ND']; subst.
  change (stores ((b, u) :: w) m a) with (stores w (fun x => if x =? b then u else m x) a). destruct H as [H|H].
  - injection H as -> ->. rewrite stores_out by assumption. rewrite Nat.eqb_refl. reflexivity.
  - apply IH; assumption.
Qed.
(* stores of (i, nth i L) for the i of a permutation of 0..len-1, in any order *)
Lemma stores_fill {A} (d : A) (L : list A) (w : list (nat * A)) m :
  Permutation w (map (fun i => (i, nth i L d)) (seq 0 (length L))) -> map (stores w m) (seq 0 (length L)) = L.
Proof.
  intros P. assert (ND : NoDup (map fst w)).
  { eapply Permutation_NoDup; [apply Permutation_sym, Permutation_map; exact P|]. rewrite map_map. cbn [fst]. rewrite map_id. apply seq_NoDup. }
  assert (V : forall i, i < length L -> stores w m i = nth i L d).
  { intros i Hi. apply stores_in; [assumption|]. eapply Permutation_in; [apply Permutation_sym; exact P|].
    apply in_map_iff. exists i. split; [reflexivity|]. apply in_seq. lia. }
  apply (nth_ext _ _ d d); [rewrite map_length, seq_length; reflexivity|]. intros i Hi. rewrite map_length, seq_length in Hi.
  rewrite (nth_indep _ d (stores w m 0)) by (rewrite map_length, seq_length; assumption). rewrite map_nth, seq_nth by assumption. apply V. assumption.
Qed.

Fixpoint lens {A} (block : nat -> list A) (n : nat) : nat := match n with O => 0 | S n' => lens block n' + length (block n') end.

Lemma prefix_sums_spec {A} (block : nat -> list A) n (p : nat -> nat) : p 0 = 0 -> (forall t, t < n -> p (S t) = length (block t)) ->
  (forall t, t <= n -> prefix_sums n p t = lens block t).
Proof.
  intros H0 H. unfold prefix_sums.
  assert (G : forall k, k <= n -> (forall t, t <= k -> fold_left (fun p i a => if a =? S i then p (S i) + p i else p a) (seq 0 k) p t = lens block t)
     /\ (forall t, k < t -> fold_left (fun p i a => if a =? S i then p (S i) + p i else p a) (seq 0 k) p t = p t)).
  { induction k as [|k IH]; intros Hk.
    - split; [intros t Ht; replace t with 0 by lia; exact H0|reflexivity].
    - destruct (IH ltac:(lia)) as [I1 I2]. rewrite seq_S, fold_left_app. cbn [fold_left Nat.add]. split; intros t Ht.
      + destruct (Nat.eqb_spec t (S k)) as [->|]; [|apply I1; lia]. rewrite I2, I1, H by lia. cbn [lens]. lia.
      + destruct (Nat.eqb_spec t (S k)); [lia|]. apply I2; lia. }
  apply G. lia.
Qed.

Lemma pos_spec {A} (block : nat -> list A) n pw : interleave (map (fun t => [(S t, length (block t))]) (seq 0 n)) pw ->
  forall t, t <= n -> prefix_sums n (stores pw (fun _ => 0)) t = lens block t.
Proof.
  intros I. apply interleave_perm in I.
  assert (E : concat (map (fun t => [(S t, length (block t))]) (seq 0 n)) = map (fun t => (S t, length (block t))) (seq 0 n)).
  { generalize (seq 0 n). intros l. induction l as [|x l IH]; [reflexivity|]. cbn. rewrite IH. reflexivity. }
  rewrite E in I.
  assert (ND : NoDup (map fst pw)).
  { eapply Permutation_NoDup; [apply Permutation_sym, Permutation_map; exact I|]. rewrite map_map. cbn [fst]. rewrite seq_shift. apply seq_NoDup. }
  apply prefix_sums_spec.
  - apply stores_out. intros H. apply (Permutation_in _ (Permutation_map fst I)) in H. rewrite map_map in H. cbn in H.
    apply in_map_iff in H. destruct H as (x & H & _). discriminate.
  - intros t Ht. apply stores_in; [assumption|]. eapply Permutation_in; [apply Permutation_sym; exact I|].
    apply in_map_iff. exists t. split; [reflexivity|]. apply in_seq. lia.
Qed.

Lemma lens_concat {A} (block : nat -> list A) n : lens block n = length (concat (map block (seq 0 n))).
Proof.
  induction n as [|n IH]; [reflexivity|]. rewrite seq_S, map_app, concat_app, app_length. cbn [lens map concat Nat.add]. rewrite IH, app_nil_r. reflexivity.
Qed.

Lemma copy_all (block : nat -> list (N * Z)) (pos : nat -> nat) n : (forall t, t <= n -> pos t = lens block t) ->
  concat (map (fun t => copy_writes (block t) (pos t) (pos (S t) - pos t)) (seq 0 n)) =
  map (fun i => (i, nth i (concat (map block (seq 0 n))) (0%N, 0%Z))) (seq 0 (lens block n)).
Proof.
  induction n as [|n IH]; intros H; [reflexivity|].
  rewrite seq_S, !map_app, !concat_app. rewrite IH by (intros; apply H; lia). cbn [map concat Nat.add lens]. rewrite !app_nil_r.
  rewrite seq_app, map_app. cbn [Nat.add]. f_equal.
  - apply map_ext_in. intros i Hi. apply in_seq in Hi. rewrite app_nth1; [reflexivity|]. rewrite <- lens_concat. lia.
  - unfold copy_writes. rewrite !H by lia. cbn [lens]. replace (lens block n + length (block n) - lens block n) with (length (block n)) by lia.
    assert (G : forall k a, map (fun i => (a + i, nth i (block n) (0%N, 0%Z))) (seq 0 k) = map (fun i => (i, nth (i - a) (block n) (0%N, 0%Z))) (seq a k)).
    { intros k a. replace (seq a k) with (map (fun i => a + i) (seq 0 k)).
      - rewrite map_map. apply map_ext. intros i. f_equal. f_equal. lia.
      - clear. revert a. induction k as [|k IH]; intros a; [reflexivity|]. cbn. rewrite Nat.add_0_r. f_equal. rewrite <- seq_shift, map_map.
        rewrite <- (IH (S a)). apply map_ext. intros; lia. }
    rewrite G. apply map_ext_in. intros i Hi. apply in_seq in Hi. rewrite app_nth2; [rewrite <- lens_concat; reflexivity|rewrite <- lens_concat; lia].
Qed.

Section Par.
Variables (kp : N -> option Z) (next : N -> N) (nthread MAX : nat) (s0 : N).
Hypothesis Hth : 1 <= nthread.

Fixpoint idx (f t : nat) : list nat := match f with O => [] | S f' => if t <? MAX then t :: idx f' (t + nthread) else [] end.

Lemma thread_loop_idx f : forall t block, thread_loop kp next nthread f (Z.of_nat MAX - Z.of_nat t) (Nat.iter t next s0) block =
  block ++ kept_list kp (map (fun k => Nat.iter k next s0) (idx f t)).
Proof.
  induction f as [|f IH]; intros t block; cbn [thread_loop idx].
  - rewrite app_nil_r. reflexivity.
  - destruct (Nat.ltb_spec t MAX) as [L|L]; destruct (Z.ltb_spec 0 (Z.of_nat MAX - Z.of_nat t)) as [L'|L']; try lia.
    + replace (Z.of_nat MAX - Z.of_nat t - Z.of_nat nthread)%Z with (Z.of_nat MAX - Z.of_nat (t + nthread))%Z by lia.
      rewrite <- iter_add. replace (nthread + t) with (t + nthread) by lia. rewrite IH, push_kept, <- app_assoc.
      change (map (fun k => Nat.iter k next s0) (t :: idx f (t + nthread))) with ([Nat.iter t next s0] ++ map (fun k => Nat.iter k next s0) (idx f (t + nthread))).
      rewrite kept_app. reflexivity.
    + cbn. rewrite app_nil_r. reflexivity.
Qed.
Lemma idx_in f : forall t k, MAX <= t + f -> (In k (idx f t) <-> t <= k < MAX /\ exists q, k = t + q * nthread).
Proof.
  induction f as [|f IH]; intros t k Hf; cbn [idx].
  - split; [intros []|intros [H _]; lia].
  - destruct (Nat.ltb_spec t MAX) as [L|L].
    + cbn [In]. rewrite IH by lia. split.
      * intros [<-|[H (q & ->)]]; [split; [lia|exists 0; lia]|split; [lia|exists (S q); lia]].
      * intros [H ([|q] & ->)]; [left; lia|right]. split; [split; [|lia]|exists q; lia]. cbn. lia.
    + split; [intros []|intros [H _]; lia].
Qed.
Lemma idx_NoDup f : forall t, NoDup (idx f t).
Proof.
  assert (G : forall f' t k, In k (idx f' t) -> t <= k).
  { clear f. intros f. induction f as [|f IH]; intros t k H; [destruct H|]. cbn [idx] in H. destruct (t <? MAX); [|destruct H]. destruct H as [<-|H]; [lia|]. apply IH in H. lia. }
  induction f as [|f IH]; intros t; cbn [idx]; [constructor|]. destruct (t <? MAX); [|constructor]. constructor; [|apply IH].
  intros H. apply G in H. lia.
Qed.
Lemma idx_all : Permutation (concat (map (idx MAX) (seq 0 nthread))) (seq 0 MAX).
Proof.
  apply NoDup_Permutation.
  - assert (G : forall n, n <= nthread -> NoDup (concat (map (idx MAX) (seq 0 n)))).
    { induction n as [|n IH]; intros Hn; [constructor|]. rewrite seq_S, map_app, concat_app. cbn [map concat Nat.add]. rewrite app_nil_r.
      apply NoDup_app_intro; try exact []; [apply IH; lia|apply idx_NoDup|].
      intros k H1 H2. apply in_concat in H1. destruct H1 as (l & Hl & Hk). apply in_map_iff in Hl. destruct Hl as (t & <- & Ht). apply in_seq in Ht.
      apply idx_in in Hk; [|lia]. apply idx_in in H2; [|lia]. destruct Hk as [_ (q & ->)], H2 as [_ (q' & E)].
      assert (X : (t + q * nthread) mod nthread = (n + q' * nthread) mod nthread) by (rewrite E; reflexivity).
      rewrite !Nat.mod_add in X by lia. rewrite !Nat.mod_small in X by lia. lia. }
    apply G. lia.
  - apply seq_NoDup.
  - intros k. rewrite in_concat, in_seq. split.
    + intros (l & Hl & Hk). apply in_map_iff in Hl. destruct Hl as (t & <- & Ht). apply idx_in in Hk; lia.
    + intros Hk. exists (idx MAX (k mod nthread)). split.
      * apply in_map_iff. exists (k mod nthread). split; [reflexivity|]. apply in_seq. pose proof (Nat.mod_upper_bound k nthread ltac:(lia)). lia.
      * apply idx_in; [lia|]. pose proof (Nat.mod_le k nthread ltac:(lia)). split; [lia|]. exists (k / nthread).
        rewrite (Nat.div_mod k nthread) at 1 by lia. lia.
Qed.

Lemma visited_map n : forall s, visited next n s = map (fun k => Nat.iter k next s) (seq 0 n).
Proof.
  induction n as [|n IH]; intros s; [reflexivity|]. cbn [visited seq map]. rewrite IH. f_equal. rewrite <- seq_shift, map_map.
  apply map_ext. intros k. symmetry. apply iter_S_r.
Qed.
Lemma blocks_perm : Permutation (concat (map (thread_block kp next nthread MAX s0) (seq 0 nthread))) (kept_list kp (visited next MAX s0)).
Proof.
  assert (E : concat (map (thread_block kp next nthread MAX s0) (seq 0 nthread)) =
    kept_list kp (map (fun k => Nat.iter k next s0) (concat (map (idx MAX) (seq 0 nthread))))).
  { generalize (seq 0 nthread). intros l. induction l as [|t l IH]; [reflexivity|]. cbn [map concat]. rewrite IH, map_app, kept_app. f_equal.
    unfold thread_block. apply thread_loop_idx. }
  rewrite E, visited_map. unfold kept_list. apply Permutation_flat_map. apply Permutation_map. apply idx_all.
Qed.

Definition blk := thread_block kp next nthread MAX s0.
Lemma Ns_count : lens blk nthread = length (kept_list kp (visited next MAX s0)).
Proof. rewrite lens_concat. apply Permutation_length, blocks_perm. Qed.

Hypothesis Hsorted : StronglySorted N.lt (visited next MAX s0).

Lemma sorted_unique inp out : Permutation inp (kept_list kp (visited next MAX s0)) -> sorts_descending inp out ->
  out = rev (kept_list kp (visited next MAX s0)).
Proof.
  intros P [P' S]. set (K := kept_list kp (visited next MAX s0)) in *.
  assert (SK : StronglySorted (fun a b : N * Z => (fst b < fst a)%N) (rev K)).
  { eapply sorted_rev; [|apply kept_sorted; exact Hsorted]. auto. }
  assert (PK : Permutation out (rev K)).
  { eapply Permutation_trans; [apply Permutation_sym; exact P'|]. eapply Permutation_trans; [exact P|apply Permutation_rev]. }
  assert (NDK : NoDup (map fst (rev K))).
  { revert SK. generalize (rev K). induction 1 as [|x m Sm IH F]; cbn; constructor; [|assumption]. rewrite Forall_forall in F.
    intros Hx. apply in_map_iff in Hx. destruct Hx as (y & E & Hy). specialize (F y Hy). lia. }
  assert (ND : NoDup (map fst out)) by (eapply Permutation_NoDup; [apply Permutation_sym, Permutation_map; exact PK|exact NDK]).
  eapply (sorted_perm_unique (fun a b : N * Z => (fst b < fst a)%N)); [intros; lia|intros; lia| |exact SK|exact PK].
  clear - S ND. induction S as [|x m Sm IH F]; cbn in ND; constructor; inversion ND as [|? ? Hx ND']; subst.
  - apply IH; assumption.
  - rewrite Forall_forall in *. intros y Hy. specialize (F y Hy). assert (fst y <> fst x); [|lia].
    intros E. apply Hx. rewrite <- E. apply in_map. assumption.
Qed.

Lemma par_run_result mem res : par_run kp next nthread mem MAX s0 res ->
  res = if length (kept_list kp (visited next MAX s0)) <=? mem then Some (rev (kept_list kp (visited next MAX s0))) else None.
Proof.
  intros R. destruct R as [pw pos junk mw master srt shares ow out block Hpw Hpos Ns Hmem Hmw Hmaster Hsrt Hsh How Hout | pw pos block Hpw Hpos Hmem].
  - assert (Hp : forall t, t <= nthread -> pos t = lens blk t) by (intros t Ht; rewrite Hpos; apply pos_spec; assumption).
    assert (HN : Ns = lens blk nthread) by (apply Hp; lia).
    rewrite <- Ns_count, <- HN. destruct (Nat.leb_spec Ns mem) as [L|L]; [|lia]. f_equal.
    apply interleave_perm in Hmw. subst block; change (thread_block kp next nthread MAX s0) with blk in Hmw; rewrite (copy_all blk pos nthread Hp) in Hmw.
    assert (Hm : map master (seq 0 Ns) = concat (map blk (seq 0 nthread))).
    { rewrite Hmaster, HN, lens_concat. apply (stores_fill (0%N, 0%Z)). rewrite <- lens_concat. exact Hmw. }
    rewrite Hm in Hsrt. assert (Hl : length srt = Ns).
    { rewrite <- (Permutation_length (proj1 Hsrt)), <- lens_concat. symmetry. exact HN. }
    assert (Es : srt = rev (kept_list kp (visited next MAX s0))) by (eapply sorted_unique; [apply blocks_perm|exact Hsrt]).
    rewrite <- Es. rewrite <- Hl, Hout. apply (stores_fill (0%N, 0%Z)). apply interleave_perm in How.
    eapply Permutation_trans; [exact How|]. rewrite Hl. rewrite <- concat_map. apply Permutation_map. exact Hsh.
  - assert (Hp : forall t, t <= nthread -> pos t = lens blk t) by (intros t Ht; rewrite Hpos; apply pos_spec; assumption).
    rewrite Hp in Hmem by lia. rewrite Ns_count in Hmem. destruct (Nat.leb_spec (length (kept_list kp (visited next MAX s0))) mem); [lia|reflexivity].
Qed.

Lemma par_run_exists mem : exists res, par_run kp next nthread mem MAX s0 res.
Proof.
  set (pw := concat (map (fun t => [(S t, length (blk t))]) (seq 0 nthread))).
  assert (I : interleave (map (fun t => [(S t, length (blk t))]) (seq 0 nthread)) pw) by apply interleave_concat.
  set (pos := prefix_sums nthread (stores pw (fun _ => 0))).
  assert (Hp : forall t, t <= nthread -> pos t = lens blk t) by (intros t Ht; apply pos_spec; assumption).
  destruct (Nat.le_gt_cases (pos nthread) mem) as [L|L].
  - eexists. eapply (par kp next nthread mem MAX s0 pw pos (fun _ => (0%N, 0%Z)) _ _ (rev (kept_list kp (visited next MAX s0))) [seq 0 (pos nthread)]).
    + exact I.
    + reflexivity.
    + exact L.
    + apply interleave_concat.
    + reflexivity.
    + fold blk. rewrite (copy_all blk pos nthread Hp). rewrite (Hp nthread), lens_concat by lia. rewrite (stores_fill (0%N, 0%Z)) by apply Permutation_refl.
      split; [eapply Permutation_trans; [apply blocks_perm|apply Permutation_rev]|].
      eapply sorted_rev; [|apply kept_sorted; exact Hsorted]. cbn. intros; lia.
    + cbn. rewrite app_nil_r. apply Permutation_refl.
    + apply interleave_concat.
    + reflexivity.
  - exists None. eapply par_insufficient; [exact I|reflexivity|]. exact L.
Qed.
End Par.

(* ---- several particle sectors ---- *)
Lemma make_sectors_spec {A} (mk : A -> nat -> option (list (N * Z))) nps mem : forall acc L, make_sectors mk nps mem acc = Some L ->
  exists ls, Forall2 (fun np l => exists room, mk np room = Some l) nps ls /\ L = acc ++ concat ls /\ (nps <> [] -> length L <= mem).
Proof.
  induction nps as [|np nps IH]; intros acc L H; cbn [make_sectors] in H.
  - injection H as <-. exists []. split; [constructor|]. split; [cbn; rewrite app_nil_r; reflexivity|contradiction].
  - destruct (mk np (mem - length acc)) as [l|] eqn:E; [|discriminate]. destruct (Nat.ltb_spec mem (length (acc ++ l))) as [L1|L1]; [discriminate|].
    apply IH in H. destruct H as (ls & F & -> & H). exists (l :: ls). split; [constructor; [eauto|assumption]|]. split.
    + cbn. rewrite app_assoc. reflexivity.
    + intros _. destruct nps as [|np' nps]; [inversion F; subst; cbn; rewrite app_nil_r; assumption|]. apply H. discriminate.
Qed.
