From Verif Require Import AuxN SpecDigits SpecMaps M_benes M_maps P_benes P_boson P_next M_next P_maps.
Local Open Scope nat_scope.

Lemma list_eqb_spec a b : list_eqb a b = true <-> a = b.
Proof.
  revert b. induction a as [|x a IH]; intros [|y b]; cbn [list_eqb]; split; try discriminate; try reflexivity.
  - intros H. apply andb_true_iff in H. destruct H as [H1 H2]. apply Z.eqb_eq in H1. apply IH in H2. congruence.
  - intros H. injection H as -> ->. rewrite Z.eqb_refl. apply IH. reflexivity.
Qed.

Lemma insertZ_perm x l : Permutation (insertZ x l) (x :: l).
Proof.
  induction l as [|y l IH]; cbn [insertZ]; [apply Permutation_refl|].
  destruct (x <=? y)%Z; [apply Permutation_refl|].
  eapply Permutation_trans; [apply perm_skip, IH|apply perm_swap].
Qed.
Lemma sortZ_perm l : Permutation (sortZ l) l.
Proof.
  induction l as [|x l IH]; cbn [sortZ]; [apply Permutation_refl|].
  eapply Permutation_trans; [apply insertZ_perm|apply perm_skip, IH].
Qed.
Lemma insertZ_comm x y l : insertZ x (insertZ y l) = insertZ y (insertZ x l).
Proof.
  induction l as [|z l IH]; cbn [insertZ].
  - destruct (Z.leb_spec x y), (Z.leb_spec y x); try reflexivity; try lia. replace y with x by lia. reflexivity.
  - destruct (Z.leb_spec y z), (Z.leb_spec x z); cbn [insertZ].
    + destruct (Z.leb_spec x y), (Z.leb_spec y x); try lia.
      * replace y with x by lia. reflexivity.
      * destruct (Z.leb_spec y z); [reflexivity|lia].
      * destruct (Z.leb_spec x z); [reflexivity|lia].
    + destruct (Z.leb_spec x y); [lia|]. destruct (Z.leb_spec x z); [lia|]. destruct (Z.leb_spec y z); [reflexivity|lia].
    + destruct (Z.leb_spec x z); [|lia]. destruct (Z.leb_spec y x); [lia|]. destruct (Z.leb_spec y z); [lia|reflexivity].
    + destruct (Z.leb_spec x z); [lia|]. destruct (Z.leb_spec y z); [lia|]. rewrite IH. reflexivity.
Qed.
Lemma sortZ_ext l l' : Permutation l l' -> sortZ l = sortZ l'.
Proof.
  induction 1 as [|x l l' _ IH|x y l|l1 l2 l3 _ IH1 _ IH2]; cbn [sortZ]; [reflexivity| | |congruence].
  - rewrite IH. reflexivity.
  - apply insertZ_comm.
Qed.
Lemma sortZ_arange_from k : forall a, sortZ (map Z.of_nat (seq a k)) = map Z.of_nat (seq a k).
Proof.
  induction k as [|k IH]; intros a; cbn [seq map sortZ]; [reflexivity|]. rewrite IH.
  destruct k; cbn [seq map insertZ]; [reflexivity|]. destruct (Z.leb_spec (Z.of_nat a) (Z.of_nat (S a))); [reflexivity|lia].
Qed.

Lemma i_map_target m : i_map m = map target m.
Proof. unfold i_map. apply map_ext. intros z. unfold target. destruct (z <? 0)%Z; f_equal; lia. Qed.

Lemma sort_check m : list_eqb (sortZ (map Z.of_nat (i_map m))) (arange (length m)) = true <-> signed_perm (length m) m.
Proof.
  rewrite list_eqb_spec, i_map_target. unfold signed_perm, arange. split; intros H.
  - assert (Permutation (map Z.of_nat (map target m)) (map Z.of_nat (seq 0 (length m)))).
    { rewrite <- H. apply Permutation_sym, sortZ_perm. }
    apply (Permutation_map Z.to_nat) in H0. rewrite !map_map in H0.
    rewrite (map_ext _ (fun x => target x)) in H0 by (intros; apply Nat2Z.id).
    rewrite (map_ext (fun x => Z.to_nat (Z.of_nat x)) (fun x => x)) in H0 by (intros; apply Nat2Z.id).
    rewrite map_id in H0. assumption.
  - rewrite <- (sortZ_arange_from (length m) 0). apply sortZ_ext, Permutation_map, H.
Qed.

(* ---------- the two list actions, for values of any type with an involution ---------- *)
Section Act.
Variables (n : nat) (m : list Z).
Hypothesis Hm : signed_perm n m.
Definition tg (j : nat) : nat := target (nth j m 0%Z).
Definition fl (j : nat) : bool := flips (nth j m 0%Z).

Lemma tg_lt j : j < n -> tg j < n. Proof. apply signed_perm_lt; assumption. Qed.
Lemma tg_inj i j : i < n -> j < n -> tg i = tg j -> i = j. Proof. apply nth_perm_inj; assumption. Qed.
Lemma tg_surj i : i < n -> exists j, j < n /\ tg j = i.
Proof.
  intros Hi. assert (In i (map target m)) by (eapply Permutation_in; [apply Permutation_sym, Hm|]; apply in_seq; lia).
  apply in_map_iff in H. destruct H as (z & Ez & Hz). apply (In_nth _ _ 0%Z) in Hz. destruct Hz as (j & Hj & Ej).
  rewrite (signed_perm_length n m Hm) in Hj. exists j. split; [assumption|]. unfold tg. congruence.
Qed.

Section Gen.
Context {X : Type}.
Variables (inv : X -> X) (d : X).
Definition cond (b : bool) (x : X) := if b then inv x else x.
(* A = gather after flip; U = flip after gather *)
Definition actA (l : list X) : list X := map (fun j => cond (fl (tg j)) (nth (tg j) l d)) (seq 0 n).
Definition actU (l : list X) : list X := map (fun j => cond (fl j) (nth (tg j) l d)) (seq 0 n).
Definition actF (l : list X) : list X := map (fun j => cond (fl j) (nth j l d)) (seq 0 n).

Lemma nth_mapseq (f : nat -> X) j : j < n -> nth j (map f (seq 0 n)) d = f j.
Proof. intros H. rewrite (nth_indep _ d (f 0)) by (rewrite map_length, seq_length; assumption).
  rewrite map_nth, seq_nth by assumption. reflexivity. Qed.
Lemma len_mapseq (f : nat -> X) : length (map f (seq 0 n)) = n.
Proof. rewrite map_length, seq_length. reflexivity. Qed.
Lemma ext_list (l l' : list X) : length l = n -> length l' = n -> (forall j, j < n -> nth j l d = nth j l' d) -> l = l'.
Proof. intros H1 H2 H. apply (nth_ext _ _ d d); [rewrite H1, H2; reflexivity|]. intros j Hj. apply H. rewrite <- H1. exact Hj. Qed.

Lemma nth_actA l j : j < n -> nth j (actA l) d = cond (fl (tg j)) (nth (tg j) l d).
Proof. apply nth_mapseq. Qed.
Lemma nth_actU l j : j < n -> nth j (actU l) d = cond (fl j) (nth (tg j) l d).
Proof. apply nth_mapseq. Qed.
Lemma nth_actF l j : j < n -> nth j (actF l) d = cond (fl j) (nth j l d).
Proof. apply nth_mapseq. Qed.
Lemma len_actA l : length (actA l) = n. Proof. apply len_mapseq. Qed.
Lemma len_actU l : length (actU l) = n. Proof. apply len_mapseq. Qed.
Lemma len_actF l : length (actF l) = n. Proof. apply len_mapseq. Qed.

(* a predicate on values on which inv is an involution *)
Variable P : X -> Prop.
Hypothesis Pinv : forall x, P x -> P (inv x).
Hypothesis invol : forall x, P x -> inv (inv x) = x.
Definition good (l : list X) := length l = n /\ forall j, j < n -> P (nth j l d).
Lemma P_cond b x : P x -> P (cond b x). Proof. destruct b; cbn; auto. Qed.
Lemma cond_invol b x : P x -> cond b (cond b x) = x. Proof. destruct b; cbn; auto. Qed.
Lemma good_A l : good l -> good (actA l).
Proof. intros [_ H]. split; [apply len_actA|]. intros j Hj. rewrite nth_actA by assumption. apply P_cond, H, tg_lt, Hj. Qed.
Lemma good_U l : good l -> good (actU l).
Proof. intros [_ H]. split; [apply len_actU|]. intros j Hj. rewrite nth_actU by assumption. apply P_cond, H, tg_lt, Hj. Qed.
Lemma good_F l : good l -> good (actF l).
Proof. intros [_ H]. split; [apply len_actF|]. intros j Hj. rewrite nth_actF by assumption. apply P_cond, H, Hj. Qed.
Lemma FF l : good l -> actF (actF l) = l.
Proof. intros H. apply ext_list; [apply len_actF|apply H|]. intros j Hj. rewrite !nth_actF by assumption. apply cond_invol, H, Hj. Qed.
Lemma FA_UF l : good l -> actF (actA l) = actU (actF l).
Proof.
  intros H. apply ext_list; [apply len_actF|apply len_actU|]. intros j Hj.
  rewrite nth_actF, nth_actA, nth_actU, nth_actF by (try assumption; apply tg_lt; assumption). reflexivity.
Qed.
Lemma good_iterA p l : good l -> good (Nat.iter p actA l).
Proof. induction p; cbn; auto using good_A. Qed.
Lemma good_iterU p l : good l -> good (Nat.iter p actU l).
Proof. induction p; cbn; auto using good_U. Qed.
Lemma F_iter p l : good l -> actF (Nat.iter p actA l) = Nat.iter p actU (actF l).
Proof. intros H. induction p as [|p IH]; [reflexivity|].
  change (Nat.iter (S p) actA l) with (actA (Nat.iter p actA l)). rewrite FA_UF by (apply good_iterA; assumption). rewrite IH. reflexivity. Qed.
Lemma A_inj l l' : good l -> good l' -> actA l = actA l' -> l = l'.
Proof.
  intros H H' E. apply ext_list; [apply H|apply H'|]. intros i Hi. destruct (tg_surj i Hi) as (j & Hj & <-).
  apply (f_equal (fun q => nth j q d)) in E. rewrite !nth_actA in E by assumption.
  apply (f_equal (cond (fl (tg j)))) in E. rewrite !cond_invol in E by (apply H || apply H'; apply tg_lt; assumption). exact E.
Qed.
Lemma U_inj l l' : good l -> good l' -> actU l = actU l' -> l = l'.
Proof.
  intros H H' E. apply ext_list; [apply H|apply H'|]. intros i Hi. destruct (tg_surj i Hi) as (j & Hj & <-).
  apply (f_equal (fun q => nth j q d)) in E. rewrite !nth_actU in E by assumption.
  apply (f_equal (cond (fl j))) in E. rewrite !cond_invol in E by (apply H || apply H'; apply tg_lt; assumption). exact E.
Qed.
Lemma A_U_id p : (forall l, good l -> Nat.iter p actA l = l) <-> (forall l, good l -> Nat.iter p actU l = l).
Proof.
  split; intros H l Hl.
  - rewrite <- (FF l Hl) at 1. rewrite <- F_iter by (apply good_F; assumption). rewrite H by (apply good_F; assumption). apply FF; assumption.
  - rewrite <- (FF (Nat.iter p actA l)) by (apply good_iterA; assumption). rewrite F_iter by assumption.
    rewrite H by (apply good_F; assumption). apply FF; assumption.
Qed.
End Gen.

(* naturality *)
Lemma actA_map {X Y} (invX : X -> X) (invY : Y -> Y) (dX : X) (dY : Y) (f : X -> Y) (P : X -> Prop) l :
  (forall x, P x -> f (invX x) = invY (f x)) -> good dX P l ->
  map f (actA invX dX l) = actA invY dY (map f l).
Proof.
  intros Hf [L H]. apply (ext_list dY); [rewrite map_length; apply len_actA|apply len_actA|]. intros j Hj.
  pose proof (tg_lt j Hj) as Ht.
  rewrite (nth_indep _ dY (f dX)) by (rewrite map_length, len_actA; assumption).
  rewrite map_nth, !nth_actA by assumption.
  rewrite (nth_indep (map f l) dY (f dX)) by (rewrite map_length, L; assumption). rewrite map_nth.
  destruct (fl (tg j)); cbn [cond]; [apply Hf, H, Ht|reflexivity].
Qed.
End Act.

Lemma nth_map_d {X Y} (f : X -> Y) l j d d' : j < length l -> nth j (map f l) d' = f (nth j l d).
Proof. intros H. rewrite (nth_indep _ d' (f d)) by (rewrite map_length; assumption). apply map_nth. Qed.

Lemma iter_succ_r {X} p (f : X -> X) x : Nat.iter (S p) f x = Nat.iter p f (f x).
Proof. induction p as [|p IH]; [reflexivity|]. change (Nat.iter (S (S p)) f x) with (f (Nat.iter (S p) f x)). rewrite IH. reflexivity. Qed.

(* ---------- labels ---------- *)
Definition ninv (z : Z) : Z := (- z - 1)%Z.
Definition label_ok (n : nat) (z : Z) : Prop := (- Z.of_nat n <= z < Z.of_nat n)%Z.

Lemma one_turn_A n m l : signed_perm n m -> length l = n -> one_turn m l = actA n m ninv 0%Z l.
Proof.
  intros Hm L. pose proof (signed_perm_length n m Hm) as Lm.
  unfold one_turn, gather, i_map.
  apply (ext_list n 0%Z); [rewrite !map_length; assumption|apply len_actA|]. intros j Hj.
  rewrite nth_actA by assumption.
  rewrite (nth_map_d _ _ _ 0) by (rewrite map_length, Lm; assumption).
  rewrite (nth_map_d _ _ _ 0%Z) by (rewrite Lm; assumption).
  replace (Z.to_nat (if (nth j m 0 <? 0)%Z then (- (nth j m 0 + 1))%Z else nth j m 0%Z)) with (tg m j)
    by (unfold tg, target; destruct (nth j m 0 <? 0)%Z; f_equal; lia).
  pose proof (tg_lt n m Hm j Hj) as Ht. generalize dependent (tg m j). clear j Hj. intros i Hi.
  unfold negate_where.
  rewrite (nth_map_d _ _ _ (false, 0%Z)) by (rewrite combine_length; unfold s_map; rewrite map_length; lia).
  rewrite combine_nth by (unfold s_map; rewrite map_length; congruence).
  unfold s_map. rewrite (nth_map_d _ _ _ 0%Z) by (rewrite Lm; assumption).
  unfold fl, flips. destruct (nth i m 0 <? 0)%Z; cbn [cond]; [unfold ninv; lia|reflexivity].
Qed.

Lemma arange_good n : good n 0%Z (label_ok n) (arange n).
Proof.
  split; [unfold arange; rewrite map_length, seq_length; reflexivity|]. intros j Hj. unfold arange.
  rewrite nth_mapseq by assumption. unfold label_ok. lia.
Qed.
Lemma nth_arange n j : j < n -> nth j (arange n) 0%Z = Z.of_nat j.
Proof. intros H. unfold arange. apply nth_mapseq; assumption. Qed.
Lemma ninv_ok n z : label_ok n z -> label_ok n (ninv z). Proof. unfold label_ok, ninv. lia. Qed.
Lemma ninv_invol z : ninv (ninv z) = z. Proof. unfold ninv. lia. Qed.

(* evaluation of labels in a value list *)
Definition eval {X} (inv : X -> X) (d : X) (x : list X) (z : Z) : X := cond inv (flips z) (nth (target z) x d).

Lemma eval_inv {X} (inv : X -> X) d x z : (forall i, i < length x -> inv (inv (nth i x d)) = nth i x d) -> label_ok (length x) z ->
  eval inv d x (ninv z) = inv (eval inv d x z).
Proof.
  intros H Hz. unfold eval, flips, target, ninv, label_ok in *.
  destruct (Z.ltb_spec z 0), (Z.ltb_spec (- z - 1) 0); try lia; cbn [cond].
  - rewrite H; [reflexivity|lia].
  - do 3 f_equal. lia.
Qed.
Lemma eval_arange {X} (inv : X -> X) d x : map (eval inv d x) (arange (length x)) = x.
Proof.
  apply (ext_list (length x) d); [unfold arange; rewrite !map_length, seq_length; reflexivity|reflexivity|].
  intros j Hj. unfold arange. rewrite map_map, nth_mapseq by assumption. unfold eval, flips, target.
  destruct (Z.ltb_spec (Z.of_nat j) 0); [lia|]. rewrite Nat2Z.id. reflexivity.
Qed.

Section Digits.
Variables (B : N) (n : nat).
Hypothesis HB : (2 <= B)%N.
Definition dinv (v : N) : N := (B - 1 - v)%N.
Definition dig (v : N) : Prop := (v < B)%N.
Lemma dinv_dig v : dig v -> dig (dinv v). Proof. unfold dig, dinv. lia. Qed.
Lemma dinv_invol v : dig v -> dinv (dinv v) = v. Proof. unfold dig, dinv. lia. Qed.
Definition vals (s : N) : list N := map (site_val B n s) (seq 0 n).
Lemma vals_good s : good n 0%N dig (vals s).
Proof. split; [apply len_mapseq|]. intros j Hj. unfold vals. rewrite nth_mapseq by assumption. apply digit_lt. assumption. Qed.
Lemma vals_inj s t : (s < B ^ N.of_nat n)%N -> (t < B ^ N.of_nat n)%N -> vals s = vals t -> s = t.
Proof.
  intros Hs Ht E. apply (digit_ext B HB n); try assumption. intros i Hi.
  apply (f_equal (fun l => nth (n - 1 - i) l 0%N)) in E. unfold vals in E. rewrite !nth_mapseq in E by lia.
  unfold site_val in E. replace (n - 1 - (n - 1 - i)) with i in E by lia. exact E.
Qed.
Lemma vals_surj l : good n 0%N dig l -> exists s, (s < B ^ N.of_nat n)%N /\ vals s = l.
Proof.
  intros [L H].
  set (e := map (fun j => (n - 1 - j, nth j l 0%N)) (seq 0 n)).
  destruct (psum_digits B HB n e) as [H1 H2].
  - unfold e. rewrite map_map. cbn [fst]. apply rev_perm_seq.
  - intros p v Hi. apply in_map_iff in Hi. destruct Hi as (j & E & Hj). apply in_seq in Hj. injection E as _ <-. apply H. lia.
  - exists (psum B e). split; [assumption|]. apply (ext_list n 0%N); [apply len_mapseq|assumption|]. intros j Hj.
    unfold vals. rewrite nth_mapseq by assumption. unfold site_val. apply H2. apply in_map_iff. exists j. split; [reflexivity|].
    apply in_seq. lia.
Qed.

Lemma moved_vals m s t : signed_perm n m -> moved B n m s t -> actU n m dinv 0%N (vals t) = vals s.
Proof.
  intros Hm [Ht H]. apply (ext_list n 0%N); [apply len_actU|apply len_mapseq|]. intros j Hj.
  rewrite nth_actU by assumption. unfold vals. rewrite !nth_mapseq by (try assumption; apply tg_lt; assumption).
  unfold tg. rewrite H by assumption. unfold fl. destruct (flips _); cbn [cond]; [|reflexivity].
  apply dinv_invol. apply digit_lt. assumption.
Qed.
Lemma moved_vals_inv m s t : signed_perm n m -> (t < B ^ N.of_nat n)%N -> actU n m dinv 0%N (vals t) = vals s -> moved B n m s t.
Proof.
  intros Hm Ht E. split; [assumption|]. intros j Hj. apply (f_equal (fun l => nth j l 0%N)) in E.
  rewrite nth_actU in E by assumption. unfold vals in E. rewrite !nth_mapseq in E by (try assumption; apply tg_lt; assumption).
  fold (tg m j). fold (fl m j). rewrite <- E.
  assert (site_val B n t (tg m j) < B)%N by (apply digit_lt; assumption).
  destruct (fl m j); cbn [cond]; [|reflexivity]. unfold dinv. lia.
Qed.

(* labels are determined by their values in all digit lists *)
Lemma labels_ext (zs ys : list Z) : good n 0%Z (label_ok n) zs -> good n 0%Z (label_ok n) ys ->
  (forall x, good n 0%N dig x -> map (eval dinv 0%N x) zs = map (eval dinv 0%N x) ys) -> zs = ys.
Proof.
  intros [Lz Gz] [Ly Gy] H. apply (ext_list n 0%Z); [assumption|assumption|]. intros j Hj.
  specialize (Gz j Hj). specialize (Gy j Hj). set (z := nth j zs 0%Z) in *. set (y := nth j ys 0%Z) in *.
  assert (Ev : forall x, good n 0%N dig x -> eval dinv 0%N x z = eval dinv 0%N x y).
  { intros x Hx. specialize (H x Hx). apply (f_equal (fun l => nth j l 0%N)) in H.
    rewrite !(nth_map_d _ _ _ 0%Z) in H by congruence. exact H. }
  clearbody z y. clear H Lz Ly zs ys j Hj.
  set (mk := fun k => map (fun i => if i =? k then 1%N else 0%N) (seq 0 n)).
  assert (Gmk : forall k, good n 0%N dig (mk k)).
  { intros k. split; [apply len_mapseq|]. intros i Hi. unfold mk. rewrite nth_mapseq by assumption. unfold dig. destruct (i =? k); lia. }
  assert (Nmk : forall k i, i < n -> nth i (mk k) 0%N = if i =? k then 1%N else 0%N).
  { intros. unfold mk. rewrite nth_mapseq by assumption. reflexivity. }
  assert (Tz : target z < n) by (unfold target, label_ok in *; destruct (Z.ltb_spec z 0); lia).
  assert (Ty : target y < n) by (unfold target, label_ok in *; destruct (Z.ltb_spec y 0); lia).
  assert (Fl : flips z = flips y).
  { specialize (Ev (mk n) (Gmk n)). unfold eval in Ev. rewrite !Nmk in Ev by assumption.
    replace (target z =? n) with false in Ev by (symmetry; apply Nat.eqb_neq; lia).
    replace (target y =? n) with false in Ev by (symmetry; apply Nat.eqb_neq; lia).
    destruct (flips z), (flips y); cbn [cond] in Ev; unfold dinv in Ev; try reflexivity; lia. }
  assert (Tg : target z = target y).
  { specialize (Ev (mk (target z)) (Gmk _)). unfold eval in Ev. rewrite !Nmk in Ev by assumption. rewrite Fl in Ev.
    rewrite Nat.eqb_refl in Ev. destruct (Nat.eqb_spec (target y) (target z)) as [E|E]; [symmetry; assumption|].
    destruct (flips y); cbn [cond] in Ev; unfold dinv in Ev; lia. }
  unfold flips, target, label_ok in *. destruct (Z.ltb_spec z 0), (Z.ltb_spec y 0); try discriminate; lia.
Qed.

(* order of the state map vs order of the label list *)
Lemma order_labels m p : signed_perm n m ->
  Nat.iter p (actA n m ninv 0%Z) (arange n) = arange n <->
  (forall x, good n 0%N dig x -> Nat.iter p (actA n m dinv 0%N) x = x).
Proof.
  intros Hm.
  assert (Nat_ : forall x, good n 0%N dig x -> Nat.iter p (actA n m dinv 0%N) x = map (eval dinv 0%N x) (Nat.iter p (actA n m ninv 0%Z) (arange n))).
  { intros x [L Hx]. induction p as [|q IH].
    - cbn [Nat.iter nat_rect]. rewrite <- L, eval_arange. reflexivity.
    - change (Nat.iter (S q) (actA n m dinv 0%N) x) with (actA n m dinv 0%N (Nat.iter q (actA n m dinv 0%N) x)). rewrite IH.
      change (Nat.iter (S q) (actA n m ninv 0%Z) (arange n)) with (actA n m ninv 0%Z (Nat.iter q (actA n m ninv 0%Z) (arange n))).
      symmetry. apply (actA_map n m Hm ninv dinv 0%Z 0%N _ (label_ok n)).
      + intros z Hz. apply eval_inv; rewrite L; [|assumption]. intros i Hi. apply dinv_invol, Hx, Hi.
      + apply (good_iterA n m Hm ninv 0%Z (label_ok n)); [apply ninv_ok|apply arange_good]. }
  split.
  - intros E x Hx. rewrite Nat_, E by assumption. destruct Hx as [L _]. rewrite <- L. apply eval_arange.
  - intros H. apply labels_ext; [|apply arange_good|].
    + apply (good_iterA n m Hm ninv 0%Z (label_ok n)); [apply ninv_ok|apply arange_good].
    + intros x Hx. rewrite <- Nat_, H by assumption. destruct Hx as [L _]. rewrite <- L. symmetry. apply eval_arange.
Qed.

Lemma order_states m p T : signed_perm n m -> (forall s, (s < B ^ N.of_nat n)%N -> moved B n m s (T s)) ->
  (forall x, good n 0%N dig x -> Nat.iter p (actU n m dinv 0%N) x = x) <->
  (forall s, (s < B ^ N.of_nat n)%N -> Nat.iter p T s = s).
Proof.
  intros Hm HT.
  assert (In_ : forall q s, (s < B ^ N.of_nat n)%N -> (Nat.iter q T s < B ^ N.of_nat n)%N).
  { intros q s Hs. destruct q; [assumption|]. cbn. apply HT. induction q; [assumption|]. cbn. apply HT. assumption. }
  assert (Rel : forall q s, (s < B ^ N.of_nat n)%N -> Nat.iter q (actU n m dinv 0%N) (vals (Nat.iter q T s)) = vals s).
  { induction q as [|q IH]; intros s Hs; [reflexivity|].
    replace (Nat.iter (S q) T s) with (T (Nat.iter q T s)) by reflexivity.
    rewrite iter_succ_r. rewrite (moved_vals m (Nat.iter q T s)); [|assumption|apply HT, In_, Hs]. apply IH; assumption. }
  split.
  - intros H s Hs. specialize (Rel p s Hs). rewrite H in Rel by apply vals_good. apply vals_inj; [apply In_, Hs|assumption|exact Rel].
  - intros H x Hx. destruct (vals_surj x Hx) as (s & Hs & <-). rewrite <- (H s Hs) at 1. apply Rel; assumption.
Qed.
End Digits.

(* ---------- existence of a period ---------- *)
Lemma all_lists (vs : list Z) n : exists L : list (list Z), forall l, length l = n -> (forall z, In z l -> In z vs) -> In l L.
Proof.
  induction n as [|n [L HL]].
  - exists [[]]. intros l Hl _. destruct l; [left; reflexivity|discriminate].
  - exists (flat_map (fun z => map (cons z) L) vs). intros l Hl Hv. destruct l as [|z l]; [discriminate|].
    apply in_flat_map. exists z. split; [apply Hv; left; reflexivity|]. apply in_map, HL; [cbn in Hl; lia|].
    intros; apply Hv; right; assumption.
Qed.

Lemma pigeon {X} (dec : forall x y : X, {x = y} + {x <> y}) (f : nat -> X) (L : list X) : (forall k, In (f k) L) ->
  exists i j, i < j /\ f i = f j.
Proof.
  intros H.
  assert (G : forall K, NoDup (map f (seq 0 K)) \/ exists i j, i < j /\ f i = f j).
  { induction K as [|K [IH|IH]]; [left; constructor| |right; assumption].
    destruct (in_dec dec (f K) (map f (seq 0 K))) as [I|I].
    - right. apply in_map_iff in I. destruct I as (i & E & Hi). apply in_seq in Hi. exists i, K. split; [lia|assumption].
    - left. rewrite seq_S, map_app. cbn [map Nat.add]. apply (Permutation_NoDup (Permutation_cons_append _ _)). constructor; assumption. }
  destruct (G (S (length L))) as [ND|E]; [|assumption]. exfalso.
  assert (length (map f (seq 0 (S (length L)))) <= length L).
  { apply NoDup_incl_length; [assumption|]. intros x Hx. apply in_map_iff in Hx. destruct Hx as (k & <- & _). apply H. }
  rewrite map_length, seq_length in H0. lia.
Qed.

Lemma period_exists n m : signed_perm n m -> exists p, 1 <= p /\ Nat.iter p (actA n m ninv 0%Z) (arange n) = arange n.
Proof.
  intros Hm. set (A := actA n m ninv 0%Z).
  destruct (all_lists (map (fun k => (Z.of_nat k - Z.of_nat n)%Z) (seq 0 (2 * n))) n) as [L HL].
  assert (Gd : forall k, good n 0%Z (label_ok n) (Nat.iter k A (arange n))).
  { intros k. apply (good_iterA n m Hm ninv 0%Z (label_ok n)); [apply ninv_ok|apply arange_good]. }
  destruct (pigeon (list_eq_dec Z.eq_dec) (fun k => Nat.iter k A (arange n)) L) as (i & j & Hij & E).
  { intros k. destruct (Gd k) as [Lk Hk]. apply HL; [assumption|]. intros z Hz. apply (In_nth _ _ 0%Z) in Hz.
    destruct Hz as (a & Ha & <-). rewrite Lk in Ha. specialize (Hk a Ha). unfold label_ok in Hk.
    apply in_map_iff. exists (Z.to_nat (nth a (Nat.iter k A (arange n)) 0%Z + Z.of_nat n)). split; [lia|]. apply in_seq. lia. }
  exists (j - i). split; [lia|].
  revert j Hij E. induction i as [|i IH]; intros j Hij E.
  - rewrite Nat.sub_0_r. symmetry. exact E.
  - destruct j as [|j]; [lia|]. cbn [Nat.sub]. apply IH; [lia|].
    apply (A_inj n m Hm ninv 0%Z (label_ok n)); [intros; apply ninv_invol|apply Gd|apply Gd|]. exact E.
Qed.

Lemma least (Q : nat -> Prop) (dec : forall p, {Q p} + {~ Q p}) p : 1 <= p -> Q p -> exists q, 1 <= q /\ Q q /\ forall r, 1 <= r < q -> ~ Q r.
Proof.
  induction p as [p IH] using lt_wf_ind. intros H1 Hp.
  assert (D : (exists r, 1 <= r < p /\ Q r) \/ (forall r, 1 <= r < p -> ~ Q r)).
  { clear -dec. induction p as [|p [(r & Hr & HQ)|H]].
    - right. intros r Hr. lia.
    - left. exists r. split; [lia|assumption].
    - destruct (dec p) as [HQ|HQ].
      + destruct p as [|p]; [right; intros; lia|]. left. exists (S p). split; [lia|assumption].
      + right. intros r Hr. destruct (Nat.eq_dec r p) as [->|]; [assumption|apply H; lia]. }
  destruct D as [(r & Hr & HQ)|D]; [apply (IH r); [lia|lia|assumption]|]. exists p. split; [assumption|]. split; assumption.
Qed.

Lemma period_loop_spec n m q : signed_perm n m ->
  let A := actA n m ninv 0%Z in
  Nat.iter q A (arange n) = arange n -> (forall r, 1 <= r < q -> Nat.iter r A (arange n) <> arange n) ->
  forall f k, k < q -> q - k <= f -> period_loop f m (arange n) (Nat.iter k A (arange n)) k = Some q.
Proof.
  intros Hm A Eq Hmin. induction f as [|f IH]; intros k Hk Hf; [lia|]. cbn [period_loop].
  rewrite (one_turn_A n m) by first [assumption | destruct k; [apply arange_good|apply len_actA]].
  fold A. change (A (Nat.iter k A (arange n))) with (Nat.iter (S k) A (arange n)).
  destruct (list_eqb (arange n) (Nat.iter (S k) A (arange n))) eqn:E.
  - apply list_eqb_spec in E. destruct (Nat.eq_dec (S k) q) as [->|N]; [reflexivity|].
    exfalso. apply (Hmin (S k)); [lia|congruence].
  - apply IH; [|lia]. destruct (Nat.eq_dec (S k) q) as [X|N]; [|lia]. exfalso. subst q.
    assert (T : list_eqb (arange n) (Nat.iter (S k) A (arange n)) = true) by (apply list_eqb_spec; congruence). congruence.
Qed.

Lemma process_map_rejects fuel m : ~ signed_perm (length m) m -> process_map fuel m = PM_error.
Proof.
  intros H. unfold process_map. destruct (list_eqb _ _) eqn:E; [|reflexivity]. apply sort_check in E. tauto.
Qed.

Lemma process_map_period m : signed_perm (length m) m -> exists per fuel0, 1 <= per /\
  (forall fuel, fuel0 <= fuel -> process_map fuel m = PM_period per) /\
  forall B T, (2 <= B)%N -> (forall s, (s < B ^ N.of_nat (length m))%N -> moved B (length m) m s (T s)) ->
    (forall s, (s < B ^ N.of_nat (length m))%N -> Nat.iter per T s = s) /\
    (forall p, 1 <= p < per -> exists s, (s < B ^ N.of_nat (length m))%N /\ Nat.iter p T s <> s).
Proof.
  intros Hm. set (n := length m) in *. set (A := actA n m ninv 0%Z).
  destruct (period_exists n m Hm) as (p0 & Hp0 & E0). fold A in E0.
  destruct (least (fun p => Nat.iter p A (arange n) = arange n) (fun p => list_eq_dec Z.eq_dec _ _) p0 Hp0 E0) as (q & Hq & Eq & Hmin).
  exists q, q. split; [assumption|]. split.
  - intros fuel Hf. unfold process_map. fold n. pose proof (proj2 (sort_check m)) as S. fold n in S. rewrite (S Hm).
    pose proof (period_loop_spec n m q Hm Eq Hmin fuel 0 ltac:(lia) ltac:(lia)) as R. cbn [Nat.iter nat_rect] in R.
    rewrite R. reflexivity.
  - intros B T HB HT.
    assert (K : forall p, Nat.iter p A (arange n) = arange n <-> (forall s, (s < B ^ N.of_nat n)%N -> Nat.iter p T s = s)).
    { intros p. unfold A. rewrite (order_labels B n HB m p Hm), <- (order_states B n HB m p T Hm HT).
      apply (A_U_id n m Hm (dinv B) 0%N (dig B)); [apply dinv_dig; assumption|apply dinv_invol; assumption]. }
    split; [apply K; assumption|]. intros p Hp.
    assert (D : ~ forall s, (s < B ^ N.of_nat n)%N -> Nat.iter p T s = s) by (rewrite <- K; apply Hmin; assumption).
    (* some label moved: turn the negation into a witness by a bounded search over states *)
    assert (F : forall b : N, (forall s, (s < b)%N -> Nat.iter p T s = s) \/ exists s, (s < b)%N /\ Nat.iter p T s <> s).
    { intros b. induction b as [|b IH] using N.peano_ind; [left; lia|].
      destruct IH as [IH|(s & Hs & H)]; [|right; exists s; split; [lia|assumption]].
      destruct (N.eq_dec (Nat.iter p T b) b) as [E|E].
      - left. intros s Hs. destruct (N.eq_dec s b) as [->|]; [assumption|apply IH; lia].
      - right. exists b. split; [lia|assumption]. }
    destruct (F (B ^ N.of_nat n)%N) as [F1|F1]; [tauto|assumption].
Qed.

(* ---------- the commutation check ---------- *)
Definition uniform (n : nat) (m : list Z) : Prop := exists b, forall j, j < n -> flips (nth j m 0%Z) = b.

Lemma uniform_AU {X} n m (inv : X -> X) d l : signed_perm n m -> uniform n m -> actA n m inv d l = actU n m inv d l.
Proof.
  intros Hm [b Hb]. apply (ext_list n d); [apply len_actA|apply len_actU|]. intros j Hj.
  rewrite nth_actA, nth_actU by assumption. unfold fl. rewrite !Hb by (try assumption; apply tg_lt; assumption). reflexivity.
Qed.

Lemma commute_check_uniform B n m1 m2 T1 T2 : (2 <= B)%N -> signed_perm n m1 -> signed_perm n m2 -> uniform n m1 -> uniform n m2 ->
  (forall s, (s < B ^ N.of_nat n)%N -> moved B n m1 s (T1 s)) -> (forall s, (s < B ^ N.of_nat n)%N -> moved B n m2 s (T2 s)) ->
  maps_commute_check m1 m2 = true <-> (forall s, (s < B ^ N.of_nat n)%N -> T1 (T2 s) = T2 (T1 s)).
Proof.
  intros HB H1 H2 U1 U2 M1 M2. unfold maps_commute_check.
  rewrite (signed_perm_length n m1 H1), (signed_perm_length n m2 H2), list_eqb_spec.
  pose proof (arange_good n) as G0.
  rewrite !(one_turn_A n m1) by first [assumption | apply G0 | rewrite (one_turn_A n m2) by first [assumption|apply G0]; apply len_actA].
  rewrite !(one_turn_A n m2) by first [assumption | apply G0 | apply len_actA].
  set (A1 := actA n m1 ninv 0%Z). set (A2 := actA n m2 ninv 0%Z).
  set (D1 := actA n m1 (dinv B) 0%N). set (D2 := actA n m2 (dinv B) 0%N).
  assert (GA1 : forall l, good n 0%Z (label_ok n) l -> good n 0%Z (label_ok n) (A1 l)) by (intros; apply good_A; [assumption|apply ninv_ok|assumption]).
  assert (GA2 : forall l, good n 0%Z (label_ok n) l -> good n 0%Z (label_ok n) (A2 l)) by (intros; apply good_A; [assumption|apply ninv_ok|assumption]).
  assert (Nt : forall x, good n 0%N (dig B) x -> forall l, good n 0%Z (label_ok n) l ->
     map (eval (dinv B) 0%N x) (A1 l) = D1 (map (eval (dinv B) 0%N x) l) /\ map (eval (dinv B) 0%N x) (A2 l) = D2 (map (eval (dinv B) 0%N x) l)).
  { intros x [L Hx] l Hl. split; [apply (actA_map n m1 H1 ninv (dinv B) 0%Z 0%N _ (label_ok n)); [|assumption] | apply (actA_map n m2 H2 ninv (dinv B) 0%Z 0%N _ (label_ok n)); [|assumption]];
      intros z Hz; apply eval_inv; rewrite L; try assumption; intros i Hi; (apply dinv_invol; [assumption || apply Hx, Hi ..]). }
  assert (E2 : A2 (A1 (arange n)) = A1 (A2 (arange n)) <-> forall x, good n 0%N (dig B) x -> D2 (D1 x) = D1 (D2 x)).
  { assert (Q : forall x, good n 0%N (dig B) x ->
       D2 (D1 x) = map (eval (dinv B) 0%N x) (A2 (A1 (arange n))) /\ D1 (D2 x) = map (eval (dinv B) 0%N x) (A1 (A2 (arange n)))).
    { intros x Hx. destruct (Nt x Hx (arange n) G0) as [N1 N2].
      rewrite (proj2 (Nt x Hx _ (GA1 _ G0))), N1, (proj1 (Nt x Hx _ (GA2 _ G0))), N2.
      assert (EA : map (eval (dinv B) 0%N x) (arange n) = x) by (destruct Hx as [L _]; rewrite <- L; apply eval_arange).
      rewrite EA. split; reflexivity. }
    split.
    - intros E x Hx. destruct (Q x Hx) as [-> ->]. rewrite E. reflexivity.
    - intros H. apply (labels_ext B n HB); [apply GA2, GA1, G0|apply GA1, GA2, G0|].
      intros x Hx. destruct (Q x Hx) as [<- <-]. apply H; assumption. }
  rewrite E2.
  assert (X1 : forall s, (s < B ^ N.of_nat n)%N -> D1 (vals B n (T1 s)) = vals B n s).
  { intros s Hs. unfold D1. rewrite uniform_AU by assumption. apply moved_vals; [assumption|assumption|apply M1, Hs]. }
  assert (X2 : forall s, (s < B ^ N.of_nat n)%N -> D2 (vals B n (T2 s)) = vals B n s).
  { intros s Hs. unfold D2. rewrite uniform_AU by assumption. apply moved_vals; [assumption|assumption|apply M2, Hs]. }
  assert (R1 : forall s, (s < B ^ N.of_nat n)%N -> (T1 s < B ^ N.of_nat n)%N) by (intros; apply M1; assumption).
  assert (R2 : forall s, (s < B ^ N.of_nat n)%N -> (T2 s < B ^ N.of_nat n)%N) by (intros; apply M2; assumption).
  assert (GV : forall s, good n 0%N (dig B) (vals B n s)) by (intros; apply vals_good; assumption).
  assert (GD1 : forall l, good n 0%N (dig B) l -> good n 0%N (dig B) (D1 l)) by (intros; apply good_A; [assumption|apply dinv_dig; assumption|assumption]).
  assert (GD2 : forall l, good n 0%N (dig B) l -> good n 0%N (dig B) (D2 l)) by (intros; apply good_A; [assumption|apply dinv_dig; assumption|assumption]).
  assert (I1 : forall l l', good n 0%N (dig B) l -> good n 0%N (dig B) l' -> D1 l = D1 l' -> l = l')
    by (intros; eapply (A_inj n m1); try eassumption; apply dinv_invol; assumption).
  assert (I2 : forall l l', good n 0%N (dig B) l -> good n 0%N (dig B) l' -> D2 l = D2 l' -> l = l')
    by (intros; eapply (A_inj n m2); try eassumption; apply dinv_invol; assumption).
  split.
  - intros H s Hs. apply (vals_inj B n HB); auto. apply I1; auto. apply I2; auto.
    rewrite (X1 (T2 s)), (X2 s) by auto. rewrite H by auto. rewrite (X2 (T1 s)), X1 by auto. reflexivity.
  - intros H x Hx.
    (* every list is the image of T1 T2 of some state *)
    assert (S0 : exists s, (s < B ^ N.of_nat n)%N /\ x = vals B n (T1 (T2 s))).
    { destruct (vals_surj B n HB _ (GD2 _ (GD1 _ Hx))) as (s & Hs & E). exists s. split; [assumption|].
      apply I1; auto. apply I2; auto. rewrite (X1 (T2 s)), (X2 s) by auto. symmetry. exact E. }
    destruct S0 as (s & Hs & ->). rewrite (X1 (T2 s)), (X2 s) by auto. rewrite H by assumption. rewrite (X2 (T1 s)), X1 by auto. reflexivity.
Qed.

(* ---------- the map is a bijection on states and keeps the particle number without inversions ---------- *)
Lemma moved_injective B n m s s' t : (2 <= B)%N -> signed_perm n m -> (s < B ^ N.of_nat n)%N -> (s' < B ^ N.of_nat n)%N ->
  moved B n m s t -> moved B n m s' t -> s = s'.
Proof.
  intros HB Hm Hs Hs' H H'. apply (vals_inj B n HB); try assumption.
  rewrite <- (moved_vals B n HB m s t), <- (moved_vals B n HB m s' t) by assumption. reflexivity.
Qed.
Lemma moved_surjective B n m t : (2 <= B)%N -> signed_perm n m -> (t < B ^ N.of_nat n)%N ->
  exists s, (s < B ^ N.of_nat n)%N /\ moved B n m s t.
Proof.
  intros HB Hm Ht.
  destruct (vals_surj B n HB (actU n m (dinv B) 0%N (vals B n t))) as (s & Hs & E).
  { apply (good_U n m Hm); [apply dinv_dig; assumption|apply vals_good; assumption]. }
  exists s. split; [assumption|]. apply moved_vals_inv; try assumption. symmetry; assumption.
Qed.

Definition lsum (l : list N) : N := fold_right N.add 0%N l.
Lemma lsum_perm l l' : Permutation l l' -> lsum l = lsum l'.
Proof. unfold lsum. induction 1; cbn [fold_right]; lia. Qed.
Lemma lsum_app l l' : lsum (l ++ l') = (lsum l + lsum l')%N.
Proof. unfold lsum. induction l as [|x l IH]; cbn [app fold_right]; [reflexivity|]. rewrite IH. lia. Qed.
Lemma digit_sum_lsum B s n : digit_sum B s n = lsum (map (digit B s) (seq 0 n)).
Proof.
  induction n as [|n IH]; [reflexivity|]. rewrite seq_S, map_app, lsum_app. cbn [digit_sum map Nat.add].
  rewrite IH. cbn. lia.
Qed.
Lemma digit_sum_vals B s n : digit_sum B s n = lsum (vals B n s).
Proof.
  rewrite digit_sum_lsum. unfold vals. apply lsum_perm.
  replace (map (site_val B n s) (seq 0 n)) with (map (digit B s) (map (fun j => n - 1 - j) (seq 0 n)))
    by (rewrite map_map; reflexivity).
  apply Permutation_map, Permutation_sym, rev_perm_seq.
Qed.
Lemma moved_particles B n m s t : (2 <= B)%N -> signed_perm n m -> (forall j, j < n -> flips (nth j m 0%Z) = false) ->
  moved B n m s t -> digit_sum B t n = digit_sum B s n.
Proof.
  intros HB Hm Hf H. rewrite !digit_sum_vals. pose proof (moved_vals B n HB m s t Hm H) as E. rewrite <- E.
  assert (P : Permutation (map (tg m) (seq 0 n)) (seq 0 n)).
  { unfold tg. eapply Permutation_trans; [|exact Hm]. rewrite <- (signed_perm_length n m Hm). clear.
    replace (map (fun j => target (nth j m 0%Z)) (seq 0 (length m))) with (map target m); [apply Permutation_refl|].
    rewrite <- (map_map (fun j => nth j m 0%Z) target). f_equal.
    induction m as [|x m IH]; [reflexivity|]. cbn [length seq map nth]. f_equal. rewrite <- seq_shift, map_map. exact IH. }
  assert (Ea : actU n m (dinv B) 0%N (vals B n t) = map (fun i => nth i (vals B n t) 0%N) (map (tg m) (seq 0 n))).
  { unfold actU. rewrite map_map. apply map_ext_in. intros j Hj. apply in_seq in Hj. unfold fl. rewrite Hf by lia. reflexivity. }
  rewrite Ea. apply lsum_perm. apply Permutation_sym.
  eapply Permutation_trans; [apply Permutation_map, P|].
  replace (map (fun i => nth i (vals B n t) 0%N) (seq 0 n)) with (vals B n t); [apply Permutation_refl|].
  apply (ext_list n 0%N); [apply len_mapseq|apply len_mapseq|]. intros j Hj. rewrite nth_mapseq by assumption. reflexivity.
Qed.
(* with an inversion on every site the holes and particles are exchanged *)
Lemma moved_holes B n m s t : (2 <= B)%N -> signed_perm n m -> (forall j, j < n -> flips (nth j m 0%Z) = true) ->
  moved B n m s t -> (digit_sum B t n + digit_sum B s n = N.of_nat n * (B - 1))%N.
Proof.
  intros HB Hm Hf H. rewrite !digit_sum_vals. pose proof (moved_vals B n HB m s t Hm H) as E. rewrite <- E.
  assert (P : Permutation (map (tg m) (seq 0 n)) (seq 0 n)).
  { unfold tg. eapply Permutation_trans; [|exact Hm]. rewrite <- (signed_perm_length n m Hm). clear.
    replace (map (fun j => target (nth j m 0%Z)) (seq 0 (length m))) with (map target m); [apply Permutation_refl|].
    rewrite <- (map_map (fun j => nth j m 0%Z) target). f_equal.
    induction m as [|x m IH]; [reflexivity|]. cbn [length seq map nth]. f_equal. rewrite <- seq_shift, map_map. exact IH. }
  assert (Ea : actU n m (dinv B) 0%N (vals B n t) = map (fun i => dinv B (nth i (vals B n t) 0%N)) (map (tg m) (seq 0 n))).
  { unfold actU. rewrite map_map. apply map_ext_in. intros j Hj. apply in_seq in Hj. unfold fl. rewrite Hf by lia. reflexivity. }
  rewrite Ea. rewrite (lsum_perm (map (fun i => dinv B (nth i (vals B n t) 0%N)) (map (tg m) (seq 0 n))) (map (dinv B) (vals B n t))).
  - assert (G : forall l, (forall v, In v l -> (v < B)%N) -> (lsum l + lsum (map (dinv B) l) = N.of_nat (length l) * (B - 1))%N).
    { induction l as [|v l IH]; intros Hl; [reflexivity|]. cbn [map length]. unfold lsum in *. cbn [fold_right].
      specialize (Hl v (or_introl eq_refl)) as Hv. rewrite Nat2N.inj_succ.
      specialize (IH (fun w Hw => Hl w (or_intror Hw))). unfold dinv at 1. lia. }
    rewrite G; [unfold vals; rewrite map_length, seq_length; reflexivity|].
    intros v Hv. apply in_map_iff in Hv. destruct Hv as (j & <- & _). apply digit_lt. assumption.
  - eapply Permutation_trans; [apply Permutation_map, P|].
    replace (map (fun i => dinv B (nth i (vals B n t) 0%N)) (seq 0 n)) with (map (dinv B) (vals B n t)); [apply Permutation_refl|].
    rewrite <- (map_map (fun i => nth i (vals B n t) 0%N) (dinv B)). f_equal.
    apply (ext_list n 0%N); [apply len_mapseq|apply len_mapseq|]. intros j Hj. rewrite nth_mapseq by assumption. reflexivity.
Qed.
