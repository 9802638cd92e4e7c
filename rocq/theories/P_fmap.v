(* Proofs about the fermionic maps. *)
From Verif Require Import AuxN SpecC SpecBits SpecDigits SpecMaps SpecSymm SpecOps SpecFermi M_bitcount M_maps M_fmap M_ops P_next P_boson P_maps P_ops P_fermion.
From Coq Require Import Sorted.
Local Open Scope nat_scope.

(* ---- sums of truth values ---- *)
Definition bsum {X} (l : list X) (f : X -> bool) : bool := fold_right (fun x acc => xorb (f x) acc) false l.
Lemma bsum_cons {X} x (l : list X) f : bsum (x :: l) f = xorb (f x) (bsum l f). Proof. reflexivity. Qed.
Lemma bsum_app {X} (l k : list X) f : bsum (l ++ k) f = xorb (bsum l f) (bsum k f).
Proof. induction l as [|x l IH]; cbn [app]; [destruct (bsum k f); reflexivity|]. rewrite !bsum_cons, IH, xorb_assoc. reflexivity. Qed.
Lemma bsum_ext {X} (l : list X) f g : (forall x, In x l -> f x = g x) -> bsum l f = bsum l g.
Proof. induction l as [|x l IH]; intros H; [reflexivity|]. rewrite !bsum_cons, (H x (or_introl eq_refl)), IH; [reflexivity|]. intros y Hy. apply H. right. exact Hy. Qed.
Lemma bsum_xor {X} (l : list X) f g : bsum l (fun x => xorb (f x) (g x)) = xorb (bsum l f) (bsum l g).
Proof. induction l as [|x l IH]; [reflexivity|]. rewrite !bsum_cons, IH. destruct (f x), (g x), (bsum l f), (bsum l g); reflexivity. Qed.
Lemma bsum_false {X} (l : list X) f : (forall x, In x l -> f x = false) -> bsum l f = false.
Proof. induction l as [|x l IH]; intros H; [reflexivity|]. rewrite bsum_cons, (H x (or_introl eq_refl)), IH; [reflexivity|]. intros y Hy. apply H. right. exact Hy. Qed.
Lemma bsum_andl {X} (l : list X) b f : bsum l (fun x => b && f x)%bool = (b && bsum l f)%bool.
Proof. destruct b; cbn [andb]; [reflexivity|]. apply bsum_false. reflexivity. Qed.
Lemma bsum_perm {X} (l k : list X) f : Permutation l k -> bsum l f = bsum k f.
Proof.
  induction 1 as [|x l k _ IH|x y l|l k m _ IH1 _ IH2]; [reflexivity| | |congruence].
  - rewrite !bsum_cons, IH. reflexivity.
  - rewrite !bsum_cons. destruct (f x), (f y), (bsum l f); reflexivity.
Qed.
Lemma bsum_map {X Y} (h : X -> Y) l f : bsum (map h l) f = bsum l (fun x => f (h x)).
Proof. induction l as [|x l IH]; [reflexivity|]. cbn [map]. rewrite !bsum_cons, IH. reflexivity. Qed.
Lemma bsum_filter {X} (l : list X) p f : bsum (filter p l) f = bsum l (fun x => p x && f x)%bool.
Proof. induction l as [|x l IH]; [reflexivity|]. cbn [filter]. rewrite bsum_cons. destruct (p x); cbn [andb xorb]; [rewrite bsum_cons, IH; reflexivity|rewrite IH; destruct (bsum l _); reflexivity]. Qed.
Lemma bsum_odd {X} (l : list X) f : bsum l f = Nat.odd (length (filter f l)).
Proof. induction l as [|x l IH]; [reflexivity|]. rewrite bsum_cons, IH. cbn [filter]. destruct (f x); [|destruct (Nat.odd _); reflexivity]. cbn [length]. rewrite Nat.odd_succ, <- Nat.negb_odd. destruct (Nat.odd _); reflexivity. Qed.
Lemma bsum_true {X} (l : list X) : bsum l (fun _ => true) = Nat.odd (length l).
Proof. rewrite bsum_odd. f_equal. f_equal. induction l; cbn; congruence. Qed.
Lemma bsum_swap {X Y} (l : list X) (k : list Y) f : bsum l (fun x => bsum k (fun y => f x y)) = bsum k (fun y => bsum l (fun x => f x y)).
Proof.
  induction l as [|x l IH]; [symmetry; apply bsum_false; reflexivity|]. rewrite bsum_cons, IH. rewrite <- bsum_xor. reflexivity.
Qed.
Lemma bsum_delta n i f : i < n -> bsum (seq 0 n) (fun k => (k =? i) && f k)%bool = f i.
Proof.
  intros Hi. assert (G : forall a m, bsum (seq a m) (fun k => (k =? i) && f k)%bool = ((a <=? i) && (i <? a + m) && f i)%bool).
  { intros a m. revert a. induction m as [|m IH]; intros a; cbn [seq].
    - destruct (Nat.leb_spec a i), (Nat.ltb_spec i (a + 0)); try lia; reflexivity.
    - rewrite bsum_cons, IH. destruct (Nat.eqb_spec a i) as [<-|Ne].
      + destruct (Nat.leb_spec (S a) a); [lia|]. destruct (Nat.leb_spec a a); [|lia]. destruct (Nat.ltb_spec a (a + S m)); [|lia]. destruct (f a); reflexivity.
      + destruct (Nat.leb_spec (S a) i), (Nat.leb_spec a i), (Nat.ltb_spec i (S a + m)), (Nat.ltb_spec i (a + S m)); try lia; destruct (f i); reflexivity. }
  rewrite G. destruct (Nat.leb_spec 0 i); [|lia]. destruct (Nat.ltb_spec i (0 + n)); [reflexivity|lia].
Qed.
Lemma bsum_prod {X Y} (l : list X) (k : list Y) f : bsum (list_prod l k) f = bsum l (fun x => bsum k (fun y => f (x, y))).
Proof. induction l as [|x l IH]; [reflexivity|]. cbn [list_prod]. rewrite bsum_app, bsum_map, bsum_cons, IH. reflexivity. Qed.
Lemma bsum_seqS n f : bsum (seq 0 (S n)) f = xorb (bsum (seq 0 n) f) (f n).
Proof. rewrite seq_S, bsum_app, Nat.add_0_l, bsum_cons. destruct (f n), (bsum (seq 0 n) f); reflexivity. Qed.

(* ---- merge sort counts inversions ---- *)
Fixpoint inv_par (l : list Z) : bool := match l with [] => false | x :: l' => xorb (bsum l' (fun y => (x <? y)%Z)) (inv_par l') end.
Definition cross (la ra : list Z) : bool := bsum la (fun x => bsum ra (fun y => (x <? y)%Z)).
Definition desc (l : list Z) : Prop := StronglySorted (fun a b => (b <= a)%Z) l.
Lemma inv_par_app l k : inv_par (l ++ k) = xorb (xorb (inv_par l) (inv_par k)) (cross l k).
Proof.
  unfold cross. induction l as [|x l IH]; cbn [app inv_par].
  - change (bsum (@nil Z) _) with false. destruct (inv_par k); reflexivity.
  - rewrite bsum_app, bsum_cons, IH.
    destruct (bsum l (fun y => (x <? y)%Z)), (bsum k (fun y => (x <? y)%Z)), (inv_par l), (inv_par k), (bsum l (fun x => bsum k (fun y => (x <? y)%Z))); reflexivity.
Qed.
Lemma cross_perm l l' k k' : Permutation l l' -> Permutation k k' -> cross l k = cross l' k'.
Proof. intros Hl Hk. unfold cross. rewrite (bsum_perm _ _ _ Hl). apply bsum_ext. intros x _. apply bsum_perm. exact Hk. Qed.
Lemma merge_nil_r la j f : merge_loop la [] j f = (la, if (Nat.odd j && Nat.odd (length la))%bool then negb f else f).
Proof. destruct la; [cbn [merge_loop length]; rewrite andb_false_r; reflexivity|reflexivity]. Qed.
Lemma merge_cons x la y ra j f : merge_loop (x :: la) (y :: ra) j f =
  if (y <=? x)%Z then let (l, f') := merge_loop la (y :: ra) j (if Nat.odd j then negb f else f) in (x :: l, f')
  else let (l, f') := merge_loop (x :: la) ra (S j) f in (y :: l, f').
Proof. reflexivity. Qed.
Lemma merge_spec la : forall ra j f, desc la -> desc ra ->
  desc (fst (merge_loop la ra j f)) /\ Permutation (fst (merge_loop la ra j f)) (la ++ ra) /\
  snd (merge_loop la ra j f) = xorb f (xorb (Nat.odd j && Nat.odd (length la)) (cross la ra)).
Proof.
  induction la as [|x la IHl]; intros ra.
  - intros j f _ Hr. cbn [merge_loop fst snd app length]. change (cross [] ra) with false. split; [exact Hr|]. split; [reflexivity|]. rewrite andb_false_r. destruct f; reflexivity.
  - induction ra as [|y ra IHr]; intros j f Hl Hr.
    + rewrite merge_nil_r. cbn [fst snd]. rewrite app_nil_r. split; [exact Hl|]. split; [reflexivity|].
      replace (cross (x :: la) []) with false by (symmetry; unfold cross; apply bsum_false; reflexivity).
      destruct (Nat.odd j), (Nat.odd (length (x :: la))), f; reflexivity.
    + pose proof (StronglySorted_inv Hl) as [Hl1 Hl2]. pose proof (StronglySorted_inv Hr) as [Hr1 Hr2]. rewrite Forall_forall in Hl2, Hr2.
      rewrite merge_cons. destruct (Z.leb_spec y x) as [Le|Lt].
      * destruct (IHl (y :: ra) j (if Nat.odd j then negb f else f) Hl1 Hr) as (S1 & P1 & F1).
        destruct (merge_loop la (y :: ra) j (if Nat.odd j then negb f else f)) as [l f']. cbn [fst snd] in *. split; [|split].
        -- constructor; [exact S1|]. rewrite Forall_forall. intros z Hz. apply (Permutation_in _ P1) in Hz. apply in_app_or in Hz.
           destruct Hz as [Hz|[<-|Hz]]; [apply Hl2; exact Hz|exact Le|]. specialize (Hr2 z Hz). lia.
        -- cbn [app]. constructor. exact P1.
        -- rewrite F1. cbn [length]. rewrite Nat.odd_succ, <- Nat.negb_odd. unfold cross. rewrite bsum_cons.
           replace (bsum (y :: ra) (fun y0 => (x <? y0)%Z)) with false.
           ++ destruct (Nat.odd j), (Nat.odd (length la)), f, (bsum la (fun x0 => bsum (y :: ra) (fun y0 => (x0 <? y0)%Z))); reflexivity.
           ++ symmetry. apply bsum_false. intros z [<-|Hz]; apply Z.ltb_ge; [lia|]. specialize (Hr2 z Hz). lia.
      * destruct (IHr (S j) f Hl Hr1) as (S1 & P1 & F1).
        destruct (merge_loop (x :: la) ra (S j) f) as [l f']. cbn [fst snd] in *. split; [|split].
        -- constructor; [exact S1|]. rewrite Forall_forall. intros z Hz. apply (Permutation_in _ P1) in Hz. apply in_app_or in Hz.
           destruct Hz as [[<-|Hz]|Hz]; [lia|specialize (Hl2 z Hz); lia|apply Hr2; exact Hz].
        -- eapply perm_trans; [constructor; exact P1|]. apply Permutation_middle.
        -- rewrite F1. rewrite Nat.odd_succ, <- Nat.negb_odd.
           assert (E : cross (x :: la) (y :: ra) = xorb (Nat.odd (length (x :: la))) (cross (x :: la) ra)).
           { unfold cross. rewrite <- bsum_true, <- bsum_xor. apply bsum_ext. intros z Hz. rewrite bsum_cons. f_equal. apply Z.ltb_lt. destruct Hz as [<-|Hz]; [lia|]. specialize (Hl2 z Hz). lia. }
           rewrite E. destruct (Nat.odd j), (Nat.odd (length (x :: la))), f, (cross (x :: la) ra); reflexivity.
Qed.
Lemma getf_spec fuel : forall l f, length l < fuel -> exists l', getf_count fuel l f = Some (l', xorb f (inv_par l)) /\ desc l' /\ Permutation l' l.
Proof.
  induction fuel as [|fuel IH]; intros l f Hf; [lia|]. cbn [getf_count]. destruct (Nat.ltb_spec 1 (length l)) as [H|H].
  - set (k := S ((length l - 1) / 2)). assert (Hk : 0 < k < length l).
    { unfold k. split; [lia|]. pose proof (Nat.div_lt (length l - 1) 2 ltac:(lia) ltac:(lia)). lia. }
    clearbody k. destruct (IH (firstn k l) f) as (la & Ea & Sa & Pa); [rewrite firstn_length; lia|]. rewrite Ea.
    destruct (IH (skipn k l) (xorb f (inv_par (firstn k l)))) as (ra & Er & Sr & Pr); [rewrite skipn_length; lia|]. rewrite Er.
    destruct (merge_spec la ra 0 (xorb (xorb f (inv_par (firstn k l))) (inv_par (skipn k l))) Sa Sr) as (S1 & P1 & F1).
    destruct (merge_loop la ra 0 _) as [l' f']. cbn [fst snd] in *. exists l'. split; [|split; [exact S1|]].
    + f_equal. f_equal. rewrite F1. cbn [Nat.odd andb xorb]. rewrite <- (firstn_skipn k l) at 3. rewrite inv_par_app, (cross_perm _ _ _ _ Pa Pr).
      destruct f, (inv_par (firstn k l)), (inv_par (skipn k l)), (cross (firstn k l) (skipn k l)); reflexivity.
    + rewrite P1, Pa, Pr, firstn_skipn. reflexivity.
  - exists l. destruct l as [|x [|y l]]; [| |cbn in H; lia]; (split; [destruct f; reflexivity|]); (split; [repeat constructor|reflexivity]).
Qed.

(* ---- the loop over the sites ---- *)
Definition occ (n : nat) (s : N) (k : nat) : bool := occupied s (n - 1 - k).
Section Map.
Variables (n : nat) (m : list Z).
Notation tg k := (target (nth k m 0%Z)).
Notation fl k := (flips (nth k m 0%Z)).
Lemma fermion_loop s0 : forall cnt ss pos f, cnt <= n ->
  fermion_map_loop (Z.of_nat n) m cnt ss (N.shiftr s0 (N.of_nat (n - cnt))) pos f =
  (hcb_map_loop (Z.of_nat n) m cnt ss (N.shiftr s0 (N.of_nat (n - cnt))),
   pos ++ map (fun k => Z.of_nat (tg k)) (filter (occ n s0) (rev (seq 0 cnt))),
   xorb f (bsum (seq 0 cnt) (fun k => occ n s0 k && (fl k && Nat.odd k))%bool)).
Proof.
  induction cnt as [|i IH]; intros ss pos f Hc.
  - cbn [fermion_map_loop hcb_map_loop seq rev filter map]. rewrite app_nil_r. change (bsum [] _) with false. destruct f; reflexivity.
  - cbn [fermion_map_loop hcb_map_loop]. cbv zeta. set (j := nth i m 0%Z).
    assert (E1 : N.shiftr (N.shiftr s0 (N.of_nat (n - S i))) 1 = N.shiftr s0 (N.of_nat (n - i))) by (rewrite N.shiftr_shiftr; f_equal; lia).
    assert (E2 : N.land (N.shiftr s0 (N.of_nat (n - S i))) 1 = N.b2n (occ n s0 i)).
    { unfold occ, occupied. replace (n - 1 - i) with (n - S i) by lia. change 1%N with (N.ones 1). rewrite N.land_ones, N.pow_1_r, <- N.bit0_mod, N.shiftr_spec' , N.add_0_l. reflexivity. }
    rewrite E1, IH by lia. rewrite E2. clear IH E1 E2. rewrite seq_S, rev_app_distr, Nat.add_0_l. cbn [rev app filter]. rewrite bsum_app, bsum_cons. change (bsum [] _) with false.
    assert (E3 : (if (j <? 0)%Z then (- (j + 1))%Z else j) = Z.of_nat (tg i)).
    { unfold target. fold j. destruct (Z.ltb_spec j 0); lia. }
    rewrite E3. change (j <? 0)%Z with (fl i). destruct (occ n s0 i); cbn [N.b2n N.eqb negb map andb].
    + rewrite <- app_assoc. cbn [app]. f_equal. set (u := bsum (seq 0 i) _). destruct f, u, (fl i), (Nat.odd i); reflexivity.
    + f_equal. set (u := bsum (seq 0 i) _). destruct f, u; reflexivity.
Qed.
Lemma inv_occ (o : nat -> bool) (t : nat -> nat) c : inv_par (map (fun k => Z.of_nat (t k)) (filter o (rev (seq 0 c)))) =
  bsum (seq 0 c) (fun k => o k && bsum (seq 0 c) (fun l => (l <? k) && (o l && (t k <? t l))))%bool.
Proof.
  induction c as [|c IH]; [reflexivity|]. rewrite bsum_seqS, bsum_seqS, Nat.ltb_irrefl. cbn [andb]. rewrite xorb_false_r.
  replace (bsum (seq 0 c) (fun l => ((l <? c) && (o l && (t c <? t l)))%bool)) with (bsum (seq 0 c) (fun l => (o l && (t c <? t l))%bool)).
  2:{ apply bsum_ext. intros l Hl. apply in_seq in Hl. destruct (Nat.ltb_spec l c); [reflexivity|lia]. }
  replace (bsum (seq 0 c) (fun k => (o k && bsum (seq 0 (S c)) (fun l => (l <? k) && (o l && (t k <? t l))))%bool)) with
    (bsum (seq 0 c) (fun k => (o k && bsum (seq 0 c) (fun l => (l <? k) && (o l && (t k <? t l))))%bool)).
  2:{ apply bsum_ext. intros k Hk. apply in_seq in Hk. rewrite bsum_seqS. destruct (Nat.ltb_spec c k); [lia|]. cbn [andb]. rewrite xorb_false_r. reflexivity. }
  rewrite seq_S, rev_app_distr, Nat.add_0_l. cbn [rev app filter]. destruct (o c); cbn [map inv_par andb]; rewrite IH; [|rewrite xorb_false_r; reflexivity].
  rewrite bsum_map, bsum_filter, <- (bsum_perm (seq 0 c) (rev (seq 0 c)) _ (Permutation_rev _)).
  rewrite xorb_comm. f_equal. apply bsum_ext. intros l _. f_equal.
  destruct (Z.ltb_spec (Z.of_nat (t c)) (Z.of_nat (t l))), (Nat.ltb_spec (t c) (t l)); try lia; reflexivity.
Qed.
Definition sgnb (s : N) : bool :=
  xorb (bsum (seq 0 n) (fun k => occ n s k && (fl k && Nat.odd k)))%bool
       (bsum (seq 0 n) (fun k => occ n s k && bsum (seq 0 n) (fun l => (l <? k) && (occ n s l && (tg k <? tg l))))%bool).
Lemma fermion_map_eq s : fermion_map_bits n m s = (hcb_map_bits n m s, if sgnb s then (-1)%Z else 1%Z).
Proof.
  unfold fermion_map_bits. pose proof (fermion_loop s n 0%N [] false (le_n n)) as E. rewrite Nat.sub_diag in E. change (N.of_nat 0) with 0%N in E. rewrite N.shiftr_0_r in E. rewrite E.
  cbn [app]. set (pos := map _ _). destruct (getf_spec (S (length pos)) pos (xorb false (bsum (seq 0 n) (fun k => (occ n s k && (fl k && Nat.odd k))%bool))) ltac:(lia)) as (l' & -> & _).
  unfold hcb_map_bits. f_equal. unfold pos. rewrite (inv_occ (occ n s) (fun k => tg k) n). unfold sgnb. rewrite xorb_false_l. reflexivity.
Qed.

(* ---- the action on one orbital ---- *)
Hypothesis Hm : signed_perm n m.
Notation U s := (hcb_map_bits n m s).
Definition flipo (i : nat) (s : N) : N := flipp (n - 1 - i) s.
Lemma occ_flip i s k : i < n -> k < n -> occ n (flipo i s) k = xorb (occ n s k) (k =? i).
Proof.
  intros Hi Hk. unfold occ, flipo. rewrite flipp_occ. destruct (Nat.eqb_spec (n - 1 - k) (n - 1 - i)), (Nat.eqb_spec k i); try lia; destruct (occupied s (n - 1 - k)); reflexivity.
Qed.
Lemma occ_val s k : site_val 2 n s k = N.b2n (occ n s k).
Proof. unfold site_val, occ, occupied. apply digit2. Qed.
Lemma occ_U s k : k < n -> occ n (U s) (tg k) = xorb (occ n s k) (fl k).
Proof.
  intros Hk. destruct (hcb_map_bits_moved n m s Hm) as [_ H]. specialize (H k Hk). rewrite !occ_val in H.
  destruct (fl k), (occ n s k), (occ n (U s) (tg k)); cbn in H; try discriminate; reflexivity.
Qed.
Lemma tg_lt' k : k < n -> tg k < n. Proof. apply signed_perm_lt. exact Hm. Qed.
Lemma tg_perm : Permutation (map (fun k => tg k) (seq 0 n)) (seq 0 n).
Proof.
  pose proof (signed_perm_length n m Hm) as L. rewrite <- (map_map (fun k => nth k m 0%Z) target).
  replace (map (fun k => nth k m 0%Z) (seq 0 n)) with m; [exact Hm|]. rewrite <- L. clear. induction m as [|z m' IH]; [reflexivity|]. cbn [length seq map nth]. f_equal.
  rewrite IH at 1. rewrite <- seq_shift, map_map. reflexivity.
Qed.
Lemma tg_inj' i j : i < n -> j < n -> tg i = tg j -> i = j. Proof. apply nth_perm_inj. exact Hm. Qed.
Lemma U_lt s : (U s < 2 ^ N.of_nat n)%N. Proof. apply (hcb_map_bits_moved n m s Hm). Qed.
Lemma occ_ext s t : (s < 2 ^ N.of_nat n)%N -> (t < 2 ^ N.of_nat n)%N -> (forall k, k < n -> occ n s k = occ n t k) -> s = t.
Proof.
  intros Hs Ht H. apply (digit_ext 2 ltac:(lia) n); try assumption. intros i Hi. specialize (H (n - 1 - i) ltac:(lia)). unfold occ, occupied in H.
  replace (n - 1 - (n - 1 - i)) with i in H by lia. rewrite !digit2, H. reflexivity.
Qed.
Lemma U_flip i s : i < n -> (s < 2 ^ N.of_nat n)%N -> U (flipo i s) = flipo (tg i) (U s).
Proof.
  intros Hi Hs. apply occ_ext.
  - apply U_lt.
  - apply flipp_lt; [pose proof (tg_lt' i Hi); lia|apply U_lt].
  - intros k Hk. assert (X : exists j, j < n /\ tg j = k).
    { pose proof (Permutation_in k (Permutation_sym tg_perm)) as Q. rewrite in_seq in Q. specialize (Q ltac:(lia)). apply in_map_iff in Q. destruct Q as (j & E & Hj). apply in_seq in Hj. exists j. split; [lia|exact E]. }
    destruct X as (j & Hj & <-). rewrite (occ_flip (tg i)) by (try exact (tg_lt' i Hi); exact Hk). rewrite !occ_U by exact Hj. rewrite occ_flip by assumption.
    replace (tg j =? tg i) with (j =? i); [destruct (occ n s j), (j =? i), (fl j); reflexivity|].
    destruct (Nat.eqb_spec j i) as [->|Ne]; [symmetry; apply Nat.eqb_refl|]. symmetry. apply Nat.eqb_neq. intros E. apply Ne, tg_inj'; assumption.
Qed.
(* occupied orbitals behind i *)
Definition behind (s : N) (i : nat) : bool := bsum (seq 0 n) (fun k => occ n s k && (i <? k))%bool.
Lemma particles_bsum s p : Nat.odd (particles s p) = bsum (seq 0 p) (occupied s).
Proof.
  unfold particles. induction p as [|p IH]; [reflexivity|]. rewrite bsum_seqS, <- IH. cbn [count_upto]. rewrite Nat.odd_add. destruct (occupied s p), (Nat.odd (count_upto (occupied s) p)); reflexivity.
Qed.
Lemma bsum_seq_ltb p q f : p <= q -> bsum (seq 0 p) f = bsum (seq 0 q) (fun k => (k <? p) && f k)%bool.
Proof.
  intros H. replace q with (p + (q - p)) by lia. rewrite seq_app, bsum_app. rewrite (bsum_false (seq (0 + p) (q - p))).
  - rewrite xorb_false_r. apply bsum_ext. intros k Hk. apply in_seq in Hk. destruct (Nat.ltb_spec k p); [reflexivity|lia].
  - intros k Hk. apply in_seq in Hk. destruct (Nat.ltb_spec k p); [lia|reflexivity].
Qed.
Lemma behind_particles s i : i < n -> Nat.odd (particles s (n - i - 1)) = behind s i.
Proof.
  intros Hi. rewrite particles_bsum, (bsum_seq_ltb (n - i - 1) n) by lia. unfold behind.
  rewrite <- (bsum_perm _ _ (fun k => ((k <? n - i - 1) && occupied s k)%bool) (rev_perm_seq n)), bsum_map. apply bsum_ext. intros k Hk. apply in_seq in Hk.
  unfold occ. rewrite andb_comm. f_equal. destruct (Nat.ltb_spec (n - 1 - k) (n - i - 1)), (Nat.ltb_spec i k); try lia; reflexivity.
Qed.
Definition filled (i : nat) : bool := bsum (seq 0 n) (fun k => fl k && (tg i <? tg k))%bool.
Definition before (s : N) (i : nat) : bool := bsum (seq 0 n) (fun k => occ n s k && (tg i <? tg k))%bool.
Lemma behind_U s i : i < n -> behind (U s) (tg i) = xorb (before s i) (filled i).
Proof.
  intros Hi. unfold behind, before, filled. rewrite <- (bsum_perm _ _ _ tg_perm), bsum_map, <- bsum_xor. apply bsum_ext. intros k Hk. apply in_seq in Hk.
  rewrite occ_U by lia. destruct (occ n s k), (fl k), (tg i <? tg k); reflexivity.
Qed.
Lemma sgnb_flip s i : i < n -> sgnb (flipo i s) = xorb (sgnb s) (xorb (fl i && Nat.odd i) (xorb (behind s i) (before s i))).
Proof.
  intros Hi. unfold sgnb.
  set (G := fun (o1 o2 : nat -> bool) => bsum (seq 0 n) (fun k => bsum (seq 0 n) (fun l => ((o1 k && o2 l) && ((l <? k) && (tg k <? tg l)))%bool))).
  assert (EG : forall t, bsum (seq 0 n) (fun k => (occ n t k && bsum (seq 0 n) (fun l => (l <? k) && (occ n t l && (tg k <? tg l))))%bool) = G (occ n t) (occ n t)).
  { intros t. unfold G. apply bsum_ext. intros k _. rewrite <- bsum_andl. apply bsum_ext. intros l _. destruct (occ n t k), (occ n t l), (l <? k), (tg k <? tg l); reflexivity. }
  rewrite !EG. clear EG.
  assert (X : G (occ n (flipo i s)) (occ n (flipo i s)) = xorb (G (occ n s) (occ n s)) (xorb (behind s i) (before s i))).
  { set (o := occ n s). set (e := fun k => k =? i).
    assert (E1 : G (occ n (flipo i s)) (occ n (flipo i s)) = xorb (xorb (G o o) (G o e)) (xorb (G e o) (G e e))).
    { unfold G. rewrite <- !bsum_xor. apply bsum_ext. intros k Hk. apply in_seq in Hk. rewrite <- !bsum_xor. apply bsum_ext. intros l Hl. apply in_seq in Hl.
      rewrite !occ_flip by lia. unfold e, o. destruct (occ n s k), (occ n s l), (k =? i), (l =? i), ((l <? k) && (tg k <? tg l))%bool; reflexivity. }
    rewrite E1.
    assert (E2 : G e e = false).
    { unfold G, e. apply bsum_false. intros k _. apply bsum_false. intros l _. destruct (Nat.eqb_spec k i), (Nat.eqb_spec l i); try reflexivity. subst. rewrite Nat.ltb_irrefl. reflexivity. }
    assert (E3 : G e o = bsum (seq 0 n) (fun l => (o l && ((l <? i) && (tg i <? tg l)))%bool)).
    { unfold G, e. rewrite <- (bsum_delta n i (fun k => bsum (seq 0 n) (fun l => (o l && ((l <? k) && (tg k <? tg l)))%bool)) Hi). apply bsum_ext. intros k _. rewrite <- bsum_andl. apply bsum_ext. intros l _.
      destruct (k =? i), (o l); reflexivity. }
    assert (E4 : G o e = bsum (seq 0 n) (fun k => (o k && ((i <? k) && (tg k <? tg i)))%bool)).
    { unfold G, e. apply bsum_ext. intros k _. rewrite <- (bsum_delta n i (fun l => (o k && ((l <? k) && (tg k <? tg l)))%bool) Hi). apply bsum_ext. intros l _.
      destruct (l =? i), (o k); reflexivity. }
    rewrite E2, E3, E4. clear E1 E2 E3 E4.
    assert (E5 : xorb (bsum (seq 0 n) (fun k => (o k && ((i <? k) && (tg k <? tg i)))%bool)) (bsum (seq 0 n) (fun l => (o l && ((l <? i) && (tg i <? tg l)))%bool)) = xorb (behind s i) (before s i)).
    { unfold behind, before. fold o. rewrite <- !bsum_xor. apply bsum_ext. intros k Hk. apply in_seq in Hk. destruct (o k); [|reflexivity]. cbn [andb].
      destruct (Nat.eq_dec k i) as [->|Ne]; [rewrite !Nat.ltb_irrefl; reflexivity|].
      assert (tg k <> tg i) by (intros E; apply Ne, tg_inj'; lia || exact E).
      destruct (Nat.ltb_spec i k), (Nat.ltb_spec k i), (Nat.ltb_spec (tg k) (tg i)), (Nat.ltb_spec (tg i) (tg k)); try lia; reflexivity. }
    rewrite <- E5. set (a := G o o). set (b := bsum _ _). set (c := bsum _ _). destruct a, b, c; reflexivity. }
  rewrite X. clear X.
  assert (Y : bsum (seq 0 n) (fun k => (occ n (flipo i s) k && (fl k && Nat.odd k))%bool) = xorb (bsum (seq 0 n) (fun k => (occ n s k && (fl k && Nat.odd k))%bool)) (fl i && Nat.odd i)).
  { rewrite <- (bsum_delta n i (fun k => (fl k && Nat.odd k)%bool) Hi), <- bsum_xor. apply bsum_ext. intros k Hk. apply in_seq in Hk. rewrite occ_flip by lia. destruct (occ n s k), (k =? i), (fl k && Nat.odd k)%bool; reflexivity. }
  rewrite Y. set (a := bsum _ _). set (b := G _ _). destruct a, b, (fl i && Nat.odd i)%bool, (behind s i), (before s i); reflexivity.
Qed.
End Map.
