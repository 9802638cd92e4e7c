(* C58: the blocks an object holds: those that were asked for, with the keyword arguments of the basis merged in, and no others. *)
From Verif Require Import AuxN SpecC SpecExpm SpecLanczos SpecExpect SpecFloquet SpecBlock M_symop P_floquet M_block P_block C58_block C58_expm C58_cases.
Local Open Scope nat_scope.

Lemma NoDup_snoc' {X} (l : list X) x : NoDup l -> ~ In x l -> NoDup (l ++ [x]).
Proof.
  induction l as [|a l IH]; cbn; intros N Hn; [constructor; [intros []|constructor]|]. inversion_clear N. constructor; [|apply IH; tauto].
  rewrite in_app_iff. cbn. intuition congruence.
Qed.
Lemma existsb_key (b : blk) k : existsb (fun e => fst e =? k) b = true <-> In k (map fst b).
Proof.
  rewrite existsb_exists, in_map_iff. split.
  - intros (e & Hi & He). apply Nat.eqb_eq in He. eauto.
  - intros (e & He & Hi). exists e. split; [exact Hi|now apply Nat.eqb_eq].
Qed.
Lemma update_item_keys b kv : map fst (update_item b kv) = if existsb (fun e => fst e =? fst kv) b then map fst b else map fst b ++ [fst kv].
Proof.
  unfold update_item. destruct (existsb _ b); [|now rewrite map_app].
  rewrite map_map. apply map_ext. intro e. destruct (fst e =? fst kv) eqn:E; [apply Nat.eqb_eq in E; now rewrite E|reflexivity].
Qed.
Lemma update_item_nodup b kv : NoDup (map fst b) -> NoDup (map fst (update_item b kv)).
Proof.
  intro H. rewrite update_item_keys. destruct (existsb _ b) eqn:E; [exact H|].
  apply NoDup_snoc'; [exact H|]. intro Hx. apply existsb_key in Hx. congruence.
Qed.
Lemma update_item_In b k v key z : In (key, z) (update_item b (k, v)) <-> (key = k /\ z = v) \/ (In (key, z) b /\ key <> k).
Proof.
  unfold update_item. cbn [fst]. destruct (existsb _ b) eqn:E.
  - rewrite in_map_iff. split.
    + intros ([a c] & He & Hi). cbn [fst] in He. destruct (a =? k) eqn:EA; injection He as <- <-; [auto|]. apply Nat.eqb_neq in EA. auto.
    + intros [[-> ->]|[Hi Hn]].
      * apply existsb_exists in E. destruct E as ([a c] & Hi & Ha). exists (a, c). cbn [fst] in *. now rewrite Ha.
      * exists (key, z). cbn [fst]. apply Nat.eqb_neq in Hn. now rewrite Hn.
  - rewrite in_app_iff. cbn [In]. split.
    + intros [Hi|[He|[]]]; [|injection He as <- <-; auto]. right. split; [exact Hi|]. intros ->.
      assert (existsb (fun e => fst e =? k) b = true) by (apply existsb_key; apply (in_map fst) in Hi; exact Hi). congruence.
    + intros [[-> ->]|[Hi Hn]]; auto.
Qed.
Lemma update_spec : forall kwargs block, NoDup (map fst block) -> NoDup (map fst kwargs) ->
  NoDup (map fst (update block kwargs)) /\
  (forall key z, In (key, z) (update block kwargs) <-> In (key, z) kwargs \/ (In (key, z) block /\ ~ In key (map fst kwargs))).
Proof.
  unfold update. induction kwargs as [|[k v] l IH]; intros b Hb Hk; cbn [fold_left map In].
  - split; [exact Hb|]. intros. tauto.
  - cbn [map fst] in Hk. inversion_clear Hk as [|? ? Hnin Hl]. destruct (IH (update_item b (k, v)) (update_item_nodup _ _ Hb) Hl) as [I1 I2].
    split; [exact I1|]. intros key z. rewrite I2, update_item_In. cbn [fst]. split.
    + intros [Hi|[[[-> ->]|[Hi Hn]] Hno]]; [now left; right|now left; left|]. right. split; [exact Hi|]. intros [E|Hi2]; [now apply Hn|tauto].
    + intros [[E|Hi]|[Hi Hno]].
      * injection E as <- <-. right. tauto.
      * now left.
      * right. split; [right; split; [exact Hi|]|]; intros E; apply Hno; [left; now rewrite E|now right].
Qed.

(* the merged keyword arguments of a block: those in basis_kwargs, which win, and those of the block.  Each appears once. *)
Theorem C58_kwargs : forall block kwargs, NoDup (map fst block) -> NoDup (map fst kwargs) ->
  NoDup (map fst (update block kwargs)) /\
  forall key z, In (key, z) (update block kwargs) <-> In (key, z) kwargs \/ (In (key, z) block /\ ~ In key (map fst kwargs)).
Proof. intros block kwargs. apply update_spec. Qed.
Print Assumptions C58_kwargs.

Section Ext.
Variable ext : external.
Definition keyed (d : list (blk * basis ext)) : Prop := NoDup (map fst d) /\ forall k b, In (k, b) d -> b = basis_con ext k.
Lemma blk_eq_refl x : blk_eq x x = true.
Proof. unfold blk_eq. destruct (list_eq_dec _ x x); congruence. Qed.
Lemma lookup_none {X} k (d : list (blk * X)) : lookup k d = None -> ~ In k (map fst d).
Proof.
  unfold lookup. destruct (find _ d) as [e|] eqn:E; [discriminate|]. intros _ Hi. apply in_map_iff in Hi. destruct Hi as (e & He & Hi).
  assert (N := find_none _ _ E e Hi). cbn in N. rewrite He, blk_eq_refl in N. discriminate.
Qed.
Lemma store_keys {X} k (x : X) d : map fst (store k x d) = if lookup k d then map fst d else map fst d ++ [k].
Proof.
  unfold store. destruct (lookup k d); [|now rewrite map_app]. rewrite map_map. apply map_ext. intro e.
  destruct (blk_eq (fst e) k) eqn:E; [apply blk_eq_true in E; now rewrite E|reflexivity].
Qed.
Lemma store_keyed k d : keyed d -> keyed (store k (basis_con ext k) d) /\
  forall k', In k' (map fst (store k (basis_con ext k) d)) <-> In k' (map fst d) \/ k' = k.
Proof.
  intros [K1 K2]. split; [split|].
  - rewrite store_keys. destruct (lookup k d) eqn:E; [exact K1|]. apply lookup_none in E. now apply NoDup_snoc'.
  - intros k' b Hi. apply store_In in Hi. destruct Hi as [[-> ->]|Hi]; auto.
  - intro k'. rewrite store_keys. destruct (lookup k d) eqn:E.
    + apply lookup_In in E. apply (in_map fst) in E. cbn in E. split; [tauto|]. intros [H| ->]; assumption.
    + rewrite in_app_iff. cbn. intuition congruence.
Qed.
Lemma keyed_pair d k b : keyed d -> (In (k, b) d <-> In k (map fst d) /\ b = basis_con ext k).
Proof.
  intros [_ K]. split.
  - intro Hi. split; [apply (in_map fst) in Hi; exact Hi|auto].
  - intros [Hi ->]. apply in_map_iff in Hi. destruct Hi as ([k' b'] & E & Hi). cbn in E. subst k'. now rewrite <- (K _ _ Hi).
Qed.
Lemma add_all kwargs : forall blocks d, keyed d -> keyed (fold_left (add_block ext kwargs) blocks d) /\
  forall k, In k (map fst (fold_left (add_block ext kwargs) blocks d)) <->
            In k (map fst d) \/ exists block, In block blocks /\ k = update block kwargs /\ 0 < Ns ext (basis_con ext k).
Proof.
  induction blocks as [|x l IH]; intros d K; cbn [fold_left].
  - split; [exact K|]. intro k. split; [now left|]. intros [H|(? & [] & _)]; exact H.
  - unfold add_block at 2 4. destruct (Nat.ltb_spec 0 (Ns ext (basis_con ext (update x kwargs)))) as [HN|HN].
    + destruct (store_keyed (update x kwargs) d K) as [K' HK]. destruct (IH _ K') as [I1 I2]. split; [exact I1|].
      intro k. rewrite I2, HK. split.
      * intros [[H| ->]|(b & Hb & E)]; [now left| |right; exists b; split; [now right|exact E]]. right. exists x. split; [now left|auto].
      * intros [H|(b & [<-|Hb] & E & HP)]; [now left; left|left; right; exact E|]. right. eauto.
    + destruct (IH _ K) as [I1 I2]. split; [exact I1|]. intro k. rewrite I2. split.
      * intros [H|(b & Hb & E)]; [now left|]. right. exists b. split; [now right|exact E].
      * intros [H|(b & [<-|Hb] & E & HP)]; [now left|subst k; lia|]. right. eauto.
Qed.
Lemma update_all : forall blocks d, keyed d -> (forall k, In k (map fst d) -> 0 < Ns ext (basis_con ext k)) ->
  keyed (fold_left (update_block ext) blocks d) /\
  forall k, In k (map fst (fold_left (update_block ext) blocks d)) <-> In k (map fst d) \/ (In k blocks /\ 0 < Ns ext (basis_con ext k)).
Proof.
  induction blocks as [|x l IH]; intros d K P; cbn [fold_left].
  - split; [exact K|]. intro k. cbn. tauto.
  - unfold update_block at 2 4. destruct (lookup x d) eqn:E.
    + apply lookup_In in E. apply (in_map fst) in E. cbn in E. destruct (IH _ K P) as [I1 I2]. split; [exact I1|].
      intro k. rewrite I2. cbn [In]. split; [tauto|]. intros [H|[[<-|Hi] HP]]; auto.
    + cbn zeta. destruct (Nat.ltb_spec 0 (Ns ext (basis_con ext x))) as [HN|HN].
      * destruct (store_keyed x d K) as [K' HK]. destruct (IH _ K') as [I1 I2].
        { intros k Hk. apply HK in Hk. destruct Hk as [Hk| ->]; auto. }
        split; [exact I1|]. intro k. rewrite I2, HK. cbn [In]. split; [intros [[H| ->]|H]; auto; tauto|]. intros [H|[[<-|Hi] HP]]; auto.
      * destruct (IH _ K P) as [I1 I2]. split; [exact I1|]. intro k. rewrite I2. cbn [In]. split; [tauto|].
        intros [H|[[<-|Hi] HP]]; auto. lia.
Qed.
Lemma reachable_keyed o : reachable ext o -> keyed (basis_dict ext o) /\ forall k, In k (map fst (basis_dict ext o)) -> 0 < Ns ext (basis_con ext k).
Proof.
  assert (N0 : keyed []) by (split; [constructor|intros k b []]).
  induction 1 as [blocks kwargs sp c o H|o blocks c o' HR IH H|o o' HR IH H|o n psi0 t0 ts bd HR IH|o n psi0 te it jobs bd a st sp ep num sh HR IH].
  - assert (G : good ext o) by (apply reachable_good; econstructor; exact H).
    assert (E : basis_dict ext o = fold_left (add_block ext kwargs) blocks []).
    { unfold construct in H. destruct c; [|now injection H as <-]. apply compute_good in H; [exact (proj2 H)| |auto].
      assert (R0 : reachable ext {| basis_dict := fold_left (add_block ext kwargs) blocks []; H_dict := []; P_dict := []; checked := false; save := sp |})
        by (apply (r_new ext blocks kwargs sp false); reflexivity).
      apply reachable_good in R0. exact R0. }
    rewrite E. destruct (add_all kwargs blocks [] N0) as [A1 A2]. split; [exact A1|]. intros k Hk. apply A2 in Hk. destruct Hk as [[]|(b & _ & _ & HP)]; exact HP.
  - destruct IH as [K P]. destruct (update_all blocks _ K P) as [A1 A2].
    assert (E : basis_dict ext o' = fold_left (update_block ext) blocks (basis_dict ext o)).
    { unfold update_blocks in H. destruct c; [|now injection H as <-]. apply compute_good in H; [exact (proj2 H)| |auto].
      assert (R0 : reachable ext {| basis_dict := fold_left (update_block ext) blocks (basis_dict ext o); H_dict := H_dict ext o; P_dict := P_dict ext o; checked := checked ext o; save := save ext o |})
        by (apply (r_update ext o blocks false _ HR); reflexivity).
      apply reachable_good in R0. exact R0. }
    rewrite E. split; [exact A1|]. intros k Hk. apply A2 in Hk. destruct Hk as [Hk|[_ HP]]; auto.
  - apply compute_good in H; [|now apply reachable_good|auto]. now rewrite (proj2 H).
  - apply reachable_good in HR. destruct (collect_good ext n psi0 o HR) as (_ & C2 & _). unfold evolve.
    destruct (collect ext n psi0 o) as [[x|l] o']; cbn [snd] in *; [now rewrite C2|].
    destruct (bd && negb (length l =? 0))%bool; cbn [snd]; [now rewrite C2|]. destruct l; cbn [snd]; now rewrite C2.
  - apply reachable_good in HR. destruct (collect_good ext n psi0 o HR) as (_ & C2 & _). unfold expm.
    destruct (grid it st sp num ep) as [x|g]; cbn [snd]; [exact IH|].
    destruct (collect ext n psi0 o) as [[x|l] o']; cbn [snd] in *; [now rewrite C2|].
    destruct (regroup _ _ _) as [hs|]; cbn [snd]; [|now rewrite C2]. destruct l; cbn [snd]; [now rewrite C2|].
    destruct g as [[[[a0 b0] m] e]|]; cbn [snd]; [|now rewrite C2]. destruct (it || old_scipy ext)%bool; cbn [snd]; now rewrite C2.
Qed.
End Ext.

(* A new object has one entry for each block asked for, with basis_kwargs merged in, whose basis is not empty, and no others. *)
Theorem C58_new_blocks : forall ext blocks kwargs sp c o, construct ext blocks kwargs sp c = Returns o ->
  NoDup (map fst (basis_dict ext o)) /\
  forall k b, In (k, b) (basis_dict ext o) <->
    exists block, In block blocks /\ k = update block kwargs /\ b = basis_con ext k /\ 0 < Ns ext b.
Proof.
  intros ext blocks kwargs sp c o H. assert (HR : reachable ext o) by (econstructor; exact H).
  destruct (reachable_keyed ext o HR) as [K _]. split; [exact (proj1 K)|].
  assert (N0 : keyed ext []) by (split; [constructor|intros k b []]).
  assert (E : basis_dict ext o = fold_left (add_block ext kwargs) blocks []).
  { unfold construct in H. destruct c; [|now injection H as <-]. apply compute_good in H; [exact (proj2 H)| |auto].
    assert (R0 : reachable ext {| basis_dict := fold_left (add_block ext kwargs) blocks []; H_dict := []; P_dict := []; checked := false; save := sp |})
      by (apply (r_new ext blocks kwargs sp false); reflexivity).
    apply reachable_good in R0. exact R0. }
  intros k b. rewrite (keyed_pair ext _ k b K), E, (proj2 (add_all ext kwargs blocks [] N0) k). split.
  - intros [[[]|(x & H1 & H2 & H3)] ->]. eauto.
  - intros (x & H1 & H2 & -> & H3). split; [right; eauto|reflexivity].
Qed.
Print Assumptions C58_new_blocks.

(* update_blocks adds the new blocks whose basis is not empty to those the object has, in any history of calls. *)
Theorem C58_update_blocks : forall ext o blocks c o', reachable ext o -> update_blocks ext o blocks c = Returns o' ->
  NoDup (map fst (basis_dict ext o')) /\
  forall k b, In (k, b) (basis_dict ext o') <->
    In (k, b) (basis_dict ext o) \/ (In k blocks /\ b = basis_con ext k /\ 0 < Ns ext b).
Proof.
  intros ext o blocks c o' HR H. assert (HR' : reachable ext o') by (eapply r_update; eassumption).
  destruct (reachable_keyed ext o HR) as [K P]. destruct (reachable_keyed ext o' HR') as [K' _]. split; [exact (proj1 K')|].
  assert (E : basis_dict ext o' = fold_left (update_block ext) blocks (basis_dict ext o)).
  { unfold update_blocks in H. destruct c; [|now injection H as <-]. apply compute_good in H; [exact (proj2 H)| |auto].
    assert (R0 : reachable ext {| basis_dict := fold_left (update_block ext) blocks (basis_dict ext o); H_dict := H_dict ext o; P_dict := P_dict ext o; checked := checked ext o; save := save ext o |})
      by (apply (r_update ext o blocks false _ HR); reflexivity).
    apply reachable_good in R0. exact R0. }
  intros k b. rewrite (keyed_pair ext _ k b K'), (keyed_pair ext _ k b K), E, (proj2 (update_all ext blocks _ K P) k). split.
  - intros [[H1|[H1 H2]] ->]; auto.
  - intros [[H1 ->]|(H1 & -> & H2)]; auto.
Qed.
Print Assumptions C58_update_blocks.

(* --- an instance: one block out of two is asked for at first, the other one later --- *)
Example kwargs_merged : update [(0, 1%Z); (1, 2%Z)] [(2, 5%Z); (1, 7%Z)] = [(0, 1%Z); (1, 7%Z); (2, 5%Z)].
Proof. reflexivity. Qed.
Example low_then_high : exists o, construct three [[(0, 0%Z)]] [(1, 1%Z)] true false = Returns o /\
  exists o', update_blocks three o [high] false = Returns o' /\ map fst (basis_dict three o') = [low; high].
Proof. eexists. split; [reflexivity|]. eexists. split; reflexivity. Qed.
