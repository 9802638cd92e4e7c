(* Runs of the threads: interleavings of programs with private addresses; chunks; the maxima. *)
From Coq Require Import FunctionalExtensionality.
From Verif Require Import AuxN SpecC SpecSparse SpecExpm M_sparse M_expm.
Local Open Scope nat_scope.

Fixpoint seqrun (l : list ins) (m : amem) (r : regs) : amem * regs :=
  match l with [] => (m, r) | i :: l' => seqrun l' (fst (exec i m r)) (snd (exec i m r)) end.
Definition addr (i : ins) : arr * Z := match i with Rd x p _ => (x, p) | Wr x p _ _ => (x, p) end.
Lemma seqrun_app l l' : forall m r, seqrun (l ++ l') m r = seqrun l' (fst (seqrun l m r)) (snd (seqrun l m r)).
Proof. induction l as [|i l IH]; intros m r; [reflexivity|]. apply IH. Qed.
Lemma arr_eqb_spec a b : arr_eqb a b = true <-> a = b.
Proof. destruct a, b; cbn; split; congruence. Qed.
Lemma aupd_same m x p v : aupd m x p v x p = v.
Proof. unfold aupd. destruct x; cbn; rewrite Z.eqb_refl; reflexivity. Qed.
Lemma aupd_other m x p v y q : (y, q) <> (x, p) -> aupd m x p v y q = m y q.
Proof.
  intros H. unfold aupd. destruct (arr_eqb y x) eqn:E; cbn; [|reflexivity]. apply arr_eqb_spec in E. subst y.
  destruct (Z.eqb_spec q p) as [-> | _]; [congruence|reflexivity].
Qed.
Lemma exec_out i m r x p : (x, p) <> addr i -> fst (exec i m r) x p = m x p.
Proof. destruct i; cbn; intros H; [reflexivity|]. apply aupd_other. assumption. Qed.
Lemma seqrun_out l x p : (forall i, In i l -> (x, p) <> addr i) -> forall m r, fst (seqrun l m r) x p = m x p.
Proof.
  induction l as [|i l IH]; intros H m r; [reflexivity|]. cbn [seqrun]. rewrite IH by (intros; apply H; right; assumption).
  apply exec_out, H. left. reflexivity.
Qed.
(* a program only depends on its own addresses *)
Lemma seqrun_local l (own : arr -> Z -> Prop) : (forall i, In i l -> own (fst (addr i)) (snd (addr i))) ->
  forall m m' r, (forall x p, own x p -> m x p = m' x p) ->
  snd (seqrun l m r) = snd (seqrun l m' r) /\ (forall x p, own x p -> fst (seqrun l m r) x p = fst (seqrun l m' r) x p).
Proof.
  induction l as [|i l IH]; intros H m m' r E; [split; [reflexivity|exact E]|]. cbn [seqrun].
  assert (Ei : snd (exec i m r) = snd (exec i m' r) /\ (forall x p, own x p -> fst (exec i m r) x p = fst (exec i m' r) x p)).
  { pose proof (H i (or_introl eq_refl)) as Hi. destruct i as [y q get|y q val post]; cbn in *.
    - rewrite (E _ _ Hi). split; [reflexivity|exact E].
    - split; [reflexivity|]. intros x p Hx. unfold aupd. rewrite (E _ _ Hx). reflexivity. }
  destruct Ei as [-> Em]. apply IH; [intros; apply H; right; assumption|exact Em].
Qed.

Lemma run_ok P ths m r' m' : run P ths m r' m' -> forall (own : nat -> arr -> Z -> Prop),
  (forall t t' x p, t < P -> t' < P -> own t x p -> own t' x p -> t = t') ->
  (forall t i, t < P -> In i (fst (ths t)) -> own t (fst (addr i)) (snd (addr i))) ->
  (forall t, t < P -> snd (seqrun (fst (ths t)) m (snd (ths t))) = r' t) /\
  (forall t x p, t < P -> own t x p -> m' x p = fst (seqrun (fst (ths t)) m (snd (ths t))) x p) /\
  (forall x p, (forall t, t < P -> ~ own t x p) -> m' x p = m x p).
Proof.
  induction 1 as [ths m r Hd|ths m r' m' t i l r Ht E R IH]; intros own Dj Ho.
  - repeat split.
    + intros t Ht. rewrite (Hd _ Ht). reflexivity.
    + intros t x p Ht _. rewrite (Hd _ Ht). reflexivity.
  - assert (Hi : own t (fst (addr i)) (snd (addr i))) by (apply Ho; [assumption|]; rewrite E; left; reflexivity).
    assert (Out : forall t' x p, t' < P -> t' <> t -> own t' x p -> fst (exec i m r) x p = m x p).
    { intros t' x p Ht' N O. apply exec_out. intros E2. apply N. apply (Dj t' t x p); try assumption. rewrite <- E2 in Hi. exact Hi. }
    specialize (IH own Dj). destruct IH as [I1 [I2 I3]].
    { intros t' j Ht'. destruct (Nat.eqb_spec t' t) as [-> |N]; [|apply Ho; assumption]. cbn. intros Hj. apply Ho; [assumption|]. rewrite E. right. assumption. }
    split; [|split].
    + intros t' Ht'. specialize (I1 t' Ht'). destruct (Nat.eq_dec t' t) as [Et|N].
      { subst t'. rewrite Nat.eqb_refl in I1. rewrite E. exact I1. }
      rewrite (proj2 (Nat.eqb_neq t' t) N) in I1. rewrite <- I1. apply (seqrun_local _ (own t')); [intros; apply Ho; assumption|]. intros x p O. symmetry. apply (Out t'); assumption.
    + intros t' x p Ht' O. rewrite (I2 t' x p Ht' O). destruct (Nat.eq_dec t' t) as [Et|N].
      { subst t'. rewrite Nat.eqb_refl, E. reflexivity. }
      rewrite (proj2 (Nat.eqb_neq t' t) N).
      apply (seqrun_local _ (own t')); [intros; apply Ho; assumption| |assumption]. intros y q O2. apply (Out t'); assumption.
    + intros x p N. rewrite (I3 x p N). apply exec_out. intros E2. apply (N t Ht). rewrite <- E2 in Hi. exact Hi.
Qed.
(* runs exist: one thread after the other *)
Lemma run_one P t l : t < P -> forall ths m r r' m', ths t = (l, r) ->
  run P (fun t' => if t' =? t then ([], snd (seqrun l m r)) else ths t') (fst (seqrun l m r)) r' m' -> run P ths m r' m'.
Proof.
  intros Ht. induction l as [|i l IH]; intros ths m r r' m' E R.
  - cbn [seqrun fst snd] in R. match type of R with run _ ?f _ _ _ => replace ths with f; [exact R|] end.
    apply functional_extensionality. intros t'. destruct (Nat.eqb_spec t' t) as [-> |N]; [symmetry; exact E|reflexivity].
  - apply (run_step P ths m r' m' t i l r Ht E). apply (IH _ _ (snd (exec i m r))); [rewrite Nat.eqb_refl; reflexivity|].
    cbn [seqrun] in R. match type of R with run _ ?f _ _ _ => match goal with |- run _ ?g _ _ _ => replace g with f; [exact R|] end end.
    apply functional_extensionality. intros t'. destruct (t' =? t); reflexivity.
Qed.
Lemma run_exists P : forall ths m, exists r' m', run P ths m r' m'.
Proof.
  assert (X : forall k, k <= P -> forall ths m, (forall t, k <= t < P -> fst (ths t) = []) -> exists r' m', run P ths m r' m').
  { induction k as [|k IH]; intros Hk ths m He.
    - exists (fun t => snd (ths t)), m. apply run_done. intros t Ht. specialize (He t (conj (Nat.le_0_l t) Ht)). destruct (ths t) as [l r]. cbn in *. congruence.
    - destruct (ths k) as [l r] eqn:E.
      destruct (IH ltac:(lia) (fun t' => if t' =? k then ([], snd (seqrun l m r)) else ths t') (fst (seqrun l m r))) as [r' [m' R]].
      + intros t Ht. destruct (Nat.eqb_spec t k) as [-> |N]; [reflexivity|]. apply He. lia.
      + exists r', m'. apply (run_one P k l ltac:(lia) ths m r r' m' E R). }
  intros ths m. apply (X P (Nat.le_refl P)). intros t Ht. lia.
Qed.

(* ---- chunks ---- *)
Lemma chunk_in n T t k : 0 < T -> In k (chunk n T t) <-> k < n /\ t = k / ((n + T - 1) / T).
Proof.
  intros HT. unfold chunk. set (c := (n + T - 1) / T). rewrite in_seq. 
  destruct (Nat.eq_dec n 0) as [-> |Hn]; [split; [lia|intros [? _]; lia]|].
  assert (Hc : 0 < c) by (unfold c; apply Nat.div_str_pos; lia).
  split.
  - intros H. split; [lia|]. apply (Nat.div_unique k c t (k - c * t)); lia.
  - intros [Hk ->]. pose proof (Nat.div_mod k c ltac:(lia)). pose proof (Nat.mod_upper_bound k c ltac:(lia)). lia.
Qed.
Lemma chunk_owner n T k : 0 < T -> k < n -> k / ((n + T - 1) / T) < T.
Proof.
  intros HT Hk. set (c := (n + T - 1) / T).
  assert (H : n <= T * c). { unfold c. pose proof (Nat.div_mod (n + T - 1) T ltac:(lia)). pose proof (Nat.mod_upper_bound (n + T - 1) T ltac:(lia)). lia. }
  apply Nat.div_lt_upper_bound; [destruct c; lia|]. lia.
Qed.
Lemma chunk_nodup n T t : NoDup (chunk n T t).
Proof. apply seq_NoDup. Qed.

(* ---- maxima ---- *)
Lemma Cabs_pos z : (0 <= Cabs z)%R. Proof. apply sqrt_pos. Qed.
Lemma Cabs_sq z : (Cabs z * Cabs z = fst z * fst z + snd z * snd z)%R.
Proof. unfold Cabs. apply sqrt_sqrt. nra. Qed.
Lemma compare_abs_max r b : (0 <= r)%R -> compare_abs r b = Rmax r (Cabs b).
Proof.
  intros Hr. unfold compare_abs. pose proof (Cabs_sq b) as Q. pose proof (Cabs_pos b) as Hp.
  pose proof (Rabs_pos (fst b)). pose proof (Rabs_pos (snd b)).
  assert (X : (Rabs (fst b) * Rabs (fst b) = fst b * fst b)%R) by (unfold Rabs; destruct (Rcase_abs (fst b)); ring).
  assert (Y : (Rabs (snd b) * Rabs (snd b) = snd b * snd b)%R) by (unfold Rabs; destruct (Rcase_abs (snd b)); ring).
  rewrite <- X, <- Y in Q. set (x := Rabs (fst b)) in *. set (y := Rabs (snd b)) in *. set (c := Cabs b) in *. clearbody x y c.
  destruct (Rle_dec (x + y) r); [symmetry; apply Rmax_left; nra|].
  destruct (Rlt_dec r x); [symmetry; apply Rmax_right; nra|].
  destruct (Rlt_dec r y); [symmetry; apply Rmax_right; nra|].
  destruct (Rle_dec c r); symmetry; [apply Rmax_left|apply Rmax_right]; lra.
Qed.
Definition is_max {X} (l : list X) (f : X -> R) (x : R) : Prop :=
  (0 <= x)%R /\ (forall k, In k l -> (f k <= x)%R) /\ (x = 0%R \/ exists k, In k l /\ x = f k).
Lemma is_max_unique {X} (l : list X) f x y : (forall k, In k l -> (0 <= f k)%R) -> is_max l f x -> is_max l f y -> x = y.
Proof.
  intros Hp [A1 [A2 A3]] [B1 [B2 B3]]. apply Rle_antisym.
  - destruct A3 as [-> |[k [Hk ->]]]; [assumption|apply B2; assumption].
  - destruct B3 as [-> |[k [Hk ->]]]; [assumption|apply A2; assumption].
Qed.
Lemma fold_compare {X} (l : list X) (v : X -> C) : forall c, (0 <= c)%R ->
  let x := fold_left (fun c k => compare_abs c (v k)) l c in
  (c <= x)%R /\ (forall k, In k l -> (Cabs (v k) <= x)%R) /\ (x = c \/ exists k, In k l /\ x = Cabs (v k)).
Proof.
  induction l as [|a l IH]; intros c Hc x; cbn [fold_left] in x.
  - split; [apply Rle_refl|]. split; [intros k []|left; reflexivity].
  - assert (Hc' : (0 <= compare_abs c (v a))%R) by (rewrite compare_abs_max by assumption; eapply Rle_trans; [exact Hc|apply Rmax_l]).
    destruct (IH _ Hc') as [I1 [I2 I3]]. fold x in I1, I2, I3. rewrite compare_abs_max in I1, I3 by assumption.
    pose proof (Rmax_l c (Cabs (v a))). pose proof (Rmax_r c (Cabs (v a))).
    split; [lra|]. split; [intros k [-> |Hk]; [lra|apply I2; assumption]|].
    destruct I3 as [-> |[k [Hk E]]]; [|right; exists k; split; [right; assumption|assumption]].
    unfold Rmax. destruct (Rle_dec c (Cabs (v a))); [right; exists a; split; [left|]; reflexivity|left; reflexivity].
Qed.
Lemma max_element_spec T t : 0 < T -> (forall k, k < T -> (t k <= max_element T t)%R) /\ (exists k, k < T /\ max_element T t = t k).
Proof.
  intros HT. induction T as [|T IH]; [lia|]. destruct T as [|T].
  - cbn. split; [intros k Hk; replace k with 0 by lia; apply Rle_refl|exists 0; split; [lia|reflexivity]].
  - change (max_element (S (S T)) t) with (Rmax (max_element (S T) t) (t (S T))). destruct (IH ltac:(lia)) as [I1 [k [Hk E]]].
    split.
    + intros j Hj. destruct (Nat.eq_dec j (S T)) as [-> |N]; [apply Rmax_r|]. eapply Rle_trans; [apply I1; lia|apply Rmax_l].
    + unfold Rmax. destruct (Rle_dec _ _); [exists (S T); split; [lia|reflexivity]|exists k; split; [lia|assumption]].
Qed.
Lemma inf_norm_is n v : is_max (seq 0 n) (fun k => Cabs (v k)) (inf_norm n v).
Proof.
  unfold inf_norm, is_max. induction (seq 0 n) as [|a l IH]; cbn [fold_right].
  - split; [apply Rle_refl|]. split; [intros k []|left; reflexivity].
  - destruct IH as [I1 [I2 I3]]. set (x := fold_right _ _ l) in *. clearbody x. pose proof (Rmax_l (Cabs (v a)) x). pose proof (Rmax_r (Cabs (v a)) x).
    split; [lra|]. split; [intros k [-> |Hk]; [assumption|specialize (I2 k Hk); lra]|].
    unfold Rmax. destruct (Rle_dec (Cabs (v a)) x); [destruct I3 as [-> |[k [Hk ->]]]; [left; reflexivity|right; exists k; split; [right; assumption|reflexivity]]|].
    right. exists a. split; [left|]; reflexivity.
Qed.
Lemma inf_norm_ext n v w : (forall k, k < n -> v k = w k) -> inf_norm n v = inf_norm n w.
Proof.
  intros H. unfold inf_norm. assert (X : forall l, (forall k, In k l -> k < n) -> fold_right (fun i r => Rmax (Cabs (v i)) r) 0%R l = fold_right (fun i r => Rmax (Cabs (w i)) r) 0%R l).
  { induction l as [|a l IH]; intros Hl; [reflexivity|]. cbn [fold_right]. rewrite IH by (intros; apply Hl; right; assumption). rewrite H by (apply Hl; left; reflexivity). reflexivity. }
  apply X. intros k Hk. apply in_seq in Hk. lia.
Qed.
Lemma max_chunks n T v : 0 < T -> max_element T (fun t => fold_left (fun c k => compare_abs c (v k)) (chunk n T t) 0%R) = inf_norm n v.
Proof.
  intros HT. apply (is_max_unique (seq 0 n) (fun k => Cabs (v k))); [intros; apply Cabs_pos| |apply inf_norm_is].
  set (f := fun t => fold_left _ _ _). destruct (max_element_spec T f HT) as [M1 [t [Ht E]]]. set (x := max_element T f) in *. clearbody x.
  assert (F : forall t, (0 <= f t)%R /\ (forall k, In k (chunk n T t) -> (Cabs (v k) <= f t)%R) /\ (f t = 0%R \/ exists k, In k (chunk n T t) /\ f t = Cabs (v k))).
  { intros t0. apply (fold_compare (chunk n T t0) v 0%R (Rle_refl 0)). }
  split; [rewrite E; apply F|]. split.
  - intros k Hk. apply in_seq in Hk. assert (Hk' : k < n) by lia. eapply Rle_trans; [|apply (M1 (k / ((n + T - 1) / T))), chunk_owner; assumption].
    apply F. apply chunk_in; [assumption|]. split; [assumption|reflexivity].
  - rewrite E. destruct (F t) as [_ [_ [-> |[k [Hk Ek]]]]]; [left; reflexivity|]. right. exists k. split; [|assumption].
    apply chunk_in in Hk; [|assumption]. apply in_seq. lia.
Qed.

(* ---- a phase ---- *)
Section Phase.
Variables (T n : nat) (body : nat -> list ins) (G : arr -> C -> C -> C -> C) (U W : R -> C -> C -> C -> R).
Hypothesis HT : 0 < T.
Hypothesis B_mem : forall k m r x p, fst (seqrun (body k) m r) x p = if (p =? Zn k)%Z then G x (m AF p) (m AB1 p) (m AB2 p) else m x p.
Hypothesis B_rc : forall k m r, rc (snd (seqrun (body k) m r)) = U (rc r) (m AF (Zn k)) (m AB1 (Zn k)) (m AB2 (Zn k)).
Hypothesis B_rd : forall k m r, rd (snd (seqrun (body k) m r)) = W (rd r) (m AF (Zn k)) (m AB1 (Zn k)) (m AB2 (Zn k)).
Hypothesis B_addr : forall k i, In i (body k) -> snd (addr i) = Zn k.

Lemma seq_body l : NoDup l -> forall m r,
  (forall x k, In k l -> fst (seqrun (flat_map body l) m r) x (Zn k) = G x (m AF (Zn k)) (m AB1 (Zn k)) (m AB2 (Zn k))) /\
  rc (snd (seqrun (flat_map body l) m r)) = fold_left (fun c k => U c (m AF (Zn k)) (m AB1 (Zn k)) (m AB2 (Zn k))) l (rc r) /\
  rd (snd (seqrun (flat_map body l) m r)) = fold_left (fun c k => W c (m AF (Zn k)) (m AB1 (Zn k)) (m AB2 (Zn k))) l (rd r).
Proof.
  induction l as [|a l IH]; intros ND m r; [repeat split; intros x k []|]. inversion ND as [|? ? Na ND']; subst.
  cbn [flat_map]. rewrite seqrun_app. set (m1 := fst (seqrun (body a) m r)). set (r1' := snd (seqrun (body a) m r)).
  assert (K : forall k x, In k l -> m1 x (Zn k) = m x (Zn k)).
  { intros k x Hk. unfold m1. rewrite B_mem. destruct (Z.eqb_spec (Zn k) (Zn a)) as [E|_]; [apply Nat2Z.inj in E; subst; contradiction|reflexivity]. }
  destruct (IH ND' m1 r1') as [I1 [I2 I3]]. split; [|split].
  - intros x k [-> |Hk]; [|rewrite I1 by assumption; rewrite !K by assumption; reflexivity].
    rewrite seqrun_out. { unfold m1. rewrite B_mem, Z.eqb_refl. reflexivity. }
    intros i Hi E. apply in_flat_map in Hi. destruct Hi as [k' [Hk' Hi]]. apply B_addr in Hi. rewrite <- E in Hi. cbn in Hi. apply Nat2Z.inj in Hi. subst. contradiction.
  - rewrite I2. cbn [fold_left]. unfold r1'. rewrite B_rc. generalize (U (rc r) (m AF (Zn a)) (m AB1 (Zn a)) (m AB2 (Zn a))).
    clear - K. induction l as [|b l IH]; intros c; [reflexivity|]. cbn [fold_left]. rewrite !K by (left; reflexivity). apply IH. intros; apply K; right; assumption.
  - rewrite I3. cbn [fold_left]. unfold r1'. rewrite B_rd. generalize (W (rd r) (m AF (Zn a)) (m AB1 (Zn a)) (m AB2 (Zn a))).
    clear - K. induction l as [|b l IH]; intros c; [reflexivity|]. cbn [fold_left]. rewrite !K by (left; reflexivity). apply IH. intros; apply K; right; assumption.
Qed.
Lemma phase_ok m r' m' : phase T T n body m r' m' ->
  (forall x k, k < n -> m' x (Zn k) = G x (m AF (Zn k)) (m AB1 (Zn k)) (m AB2 (Zn k))) /\
  (forall t, t < T -> rc (r' t) = fold_left (fun c k => U c (m AF (Zn k)) (m AB1 (Zn k)) (m AB2 (Zn k))) (chunk n T t) 0%R /\
                      rd (r' t) = fold_left (fun c k => W c (m AF (Zn k)) (m AB1 (Zn k)) (m AB2 (Zn k))) (chunk n T t) 0%R).
Proof.
  intros R. pose proof (run_ok T _ m r' m' R (fun t x p => exists k, In k (chunk n T t) /\ p = Zn k)) as X.
  destruct X as [X1 [X2 _]].
  - intros t t' x p _ _ [k [Hk ->]] [k' [Hk' E]]. apply Nat2Z.inj in E. subst k'. apply chunk_in in Hk, Hk'; [|assumption..]. destruct Hk as [_ ->], Hk' as [_ ->]. reflexivity.
  - intros t i _ Hi. cbn in Hi. apply in_flat_map in Hi. destruct Hi as [k [Hk Hi]]. exists k. split; [assumption|]. apply B_addr. assumption.
  - cbn [fst snd] in X1, X2. split.
    + intros x k Hk. pose proof (chunk_owner n T k HT Hk) as Ho. set (t := k / ((n + T - 1) / T)) in *.
      assert (Hi : In k (chunk n T t)) by (apply chunk_in; [assumption|]; split; [assumption|reflexivity]).
      rewrite (X2 t x (Zn k) Ho) by (exists k; split; [assumption|reflexivity]). apply seq_body; [apply chunk_nodup|assumption].
    + intros t Ht. rewrite <- (X1 t Ht). destruct (seq_body (chunk n T t) (chunk_nodup n T t) m r_init) as [_ X]. exact X.
Qed.
End Phase.
