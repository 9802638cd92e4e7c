From Verif Require Import AuxN SpecDigits SpecSector M_next M_hdim P_next P_boson.
Local Open Scope Z_scope.

Lemma zsum_ext n f g : (forall i, (i < n)%nat -> f i = g i) -> zsum n f = zsum n g.
Proof.
  induction n as [|n IH]; intros H; cbn [zsum]; [reflexivity|].
  rewrite (H n) by lia. rewrite IH; [reflexivity|]. intros i Hi; apply H; lia.
Qed.
Lemma zsum_add n f g : zsum n (fun i => f i + g i) = zsum n f + zsum n g.
Proof. induction n as [|n IH]; cbn [zsum]; lia. Qed.
Lemma zsum_sub n f g : zsum n (fun i => f i - g i) = zsum n f - zsum n g.
Proof. induction n as [|n IH]; cbn [zsum]; lia. Qed.
Lemma zsum_0 n f : (forall i, (i < n)%nat -> f i = 0) -> zsum n f = 0.
Proof.
  intros H. rewrite (zsum_ext n f (fun _ => 0)) by assumption.
  clear H. induction n as [|n IH]; cbn [zsum]; lia.
Qed.
Lemma zsum_shift n f : zsum (S n) f = f O + zsum n (fun i => f (S i)).
Proof. induction n as [|n IH]; [cbn; lia|]. cbn [zsum] in *. rewrite IH. lia. Qed.
Lemma zsum_app n m f : zsum (n + m) f = zsum n f + zsum m (fun i => f (n + i)%nat).
Proof.
  induction m as [|m IH]; [rewrite Nat.add_0_r; cbn; lia|].
  rewrite Nat.add_succ_r. cbn [zsum]. lia.
Qed.
Lemma zsum_rev n f : zsum n f = zsum n (fun i => f (n - 1 - i)%nat).
Proof.
  revert f. induction n as [|n IH]; intros f; [reflexivity|].
  rewrite zsum_shift. cbn [zsum]. rewrite (IH (fun i => f (S i))).
  replace (S n - 1 - n)%nat with 0%nat by lia.
  rewrite (zsum_ext n (fun i => f (S (n - 1 - i))) (fun i => f (S n - 1 - i)%nat)); [lia|].
  intros i Hi. f_equal. lia.
Qed.

Section B.
Variable b : nat. (* B, the local dimension *)
Hypothesis Hb : (1 <= b)%nat.

Definition sh (a : nat -> Z) (k : nat) : Z := if (k <? b)%nat then 0 else a (k - b)%nat.
Definition DD (a : nat -> Z) (k : nat) : Z := a k - sh a k.
Definition SS (a : nat -> Z) (k : nat) : Z := zsum (S k) a.
Definition delta (k : nat) : Z := if (k =? 0)%nat then 1 else 0.
Definition WW (a : nat -> Z) (k : nat) : Z := zsum b (fun d => if (d <=? k)%nat then a (k - d)%nat else 0).

Lemma WW_DS a k : WW a k = DD (SS a) k.
Proof.
  unfold WW, DD, sh, SS. destruct (Nat.ltb_spec k b) as [L|L].
  - replace b with (S k + (b - S k))%nat by lia. rewrite zsum_app.
    rewrite (zsum_0 (b - S k)).
    2:{ intros i Hi. destruct (Nat.leb_spec (S k + i) k); [lia|reflexivity]. }
    rewrite (zsum_rev (S k) a).
    rewrite (zsum_ext (S k) _ (fun i => a (S k - 1 - i)%nat)); [lia|].
    intros i Hi. destruct (Nat.leb_spec i k); [f_equal; lia|lia].
  - replace (S k) with (S (k - b) + b)%nat by lia. rewrite zsum_app.
    rewrite (zsum_rev b (fun i => a (S (k - b) + i)%nat)).
    rewrite (zsum_ext b _ (fun i => a (S (k - b) + (b - 1 - i))%nat)); [lia|].
    intros i Hi. destruct (Nat.leb_spec i k); [f_equal; lia|lia].
Qed.

Lemma DD_ext a c : (forall k, a k = c k) -> forall k, DD a k = DD c k.
Proof. intros H k. unfold DD, sh. rewrite !H. destruct (_ <? _)%nat; rewrite ?H; reflexivity. Qed.
Lemma SS_ext a c : (forall k, a k = c k) -> forall k, SS a k = SS c k.
Proof. intros H k. apply zsum_ext. intros; apply H. Qed.

Lemma SS_sh a k : SS (sh a) k = sh (SS a) k.
Proof.
  unfold SS, sh. destruct (Nat.ltb_spec k b) as [L|L].
  - apply zsum_0. intros i Hi. destruct (Nat.ltb_spec i b); [reflexivity|lia].
  - replace (S k) with (b + S (k - b))%nat by lia. rewrite zsum_app.
    rewrite zsum_0 by (intros i Hi; destruct (Nat.ltb_spec i b); [reflexivity|lia]).
    rewrite Z.add_0_l. apply zsum_ext. intros i Hi. destruct (Nat.ltb_spec (b + i) b); [lia|]. f_equal. lia.
Qed.

Lemma SS_DD a k : SS (DD a) k = DD (SS a) k.
Proof.
  unfold DD at 1. unfold SS at 1. rewrite zsum_sub. change (zsum (S k) (sh a)) with (SS (sh a) k).
  rewrite SS_sh. reflexivity.
Qed.

Fixpoint iter (f : (nat -> Z) -> nat -> Z) (n : nat) (a : nat -> Z) : nat -> Z :=
  match n with O => a | S n' => f (iter f n' a) end.

Lemma SS_iterDD n a k : SS (iter DD n a) k = iter DD n (SS a) k.
Proof.
  revert k. induction n as [|n IH]; intros k; cbn [iter]; [reflexivity|].
  rewrite SS_DD. apply DD_ext. exact IH.
Qed.

Fixpoint cnt (n : nat) : nat -> Z := match n with O => delta | S n' => WW (cnt n') end.

Lemma iterDD_ext n a c : (forall k, a k = c k) -> forall k, iter DD n a k = iter DD n c k.
Proof. intros H. induction n as [|n IH]; cbn [iter]; [exact H|]. apply DD_ext. exact IH. Qed.

Lemma cnt_DS n k : cnt n k = iter DD n (iter SS n delta) k.
Proof.
  revert k. induction n as [|n IH]; intros k; cbn [cnt iter]; [reflexivity|].
  rewrite WW_DS. apply DD_ext. intros j. rewrite (SS_ext _ _ IH). apply SS_iterDD.
Qed.

Lemma binom_0_r n : binom n 0 = 1%nat.
Proof. destruct n; reflexivity. Qed.
Lemma binom_gt n : forall k, (n < k)%nat -> binom n k = 0%nat.
Proof. induction n as [|n IH]; intros [|k] H; try lia; cbn; [reflexivity|]. rewrite !IH by lia. reflexivity. Qed.
Lemma binom_diag n : binom n n = 1%nat.
Proof. induction n as [|n IH]; [reflexivity|]. cbn. rewrite IH, binom_gt by lia. reflexivity. Qed.

Lemma hockey n k : zsum (S k) (fun j => Z.of_nat (binom (n + j) j)) = Z.of_nat (binom (S n + k) k).
Proof.
  induction k as [|k IH].
  - cbn [zsum]. rewrite !binom_0_r. reflexivity.
  - cbn [zsum] in *. rewrite IH. replace (S n + S k)%nat with (S (n + S k)) by lia. cbn [binom].
    replace (n + S k)%nat with (S n + k)%nat by lia. cbn [Nat.add]. lia.
Qed.

Lemma SS_delta n k : iter SS (S n) delta k = Z.of_nat (binom (n + k) k).
Proof.
  revert k. induction n as [|n IH]; intros k.
  - cbn [iter]. cbn [Nat.add]. rewrite binom_diag. unfold SS. rewrite zsum_shift.
    rewrite zsum_0 by (intros; reflexivity). reflexivity.
  - change (iter SS (S (S n)) delta k) with (SS (iter SS (S n) delta) k).
    rewrite (SS_ext _ _ IH). unfold SS. apply hockey.
Qed.

Definition sgn (r : nat) : Z := if Nat.even r then 1 else -1.
Lemma sgn_S r : sgn (S r) = - sgn r.
Proof. unfold sgn. rewrite Nat.even_succ, <- Nat.negb_even. destruct (Nat.even r); reflexivity. Qed.

Definition g (a : nat -> Z) (k r : nat) : Z := if (r * b <=? k)%nat then a (k - r * b)%nat else 0.

Lemma iterDD_sum n a : forall k Rr, (k < Rr * b)%nat ->
  iter DD n a k = zsum Rr (fun r => sgn r * Z.of_nat (binom n r) * g a k r).
Proof.
  induction n as [|n IH]; intros k Rr HR.
  - cbn [iter]. destruct Rr as [|R']; [lia|]. rewrite zsum_shift. rewrite (zsum_0 R').
    + unfold g, sgn. cbn. rewrite Nat.sub_0_r. rewrite Z.add_0_r. destruct (a k); reflexivity.
    + intros i Hi. cbn [binom]. lia.
  - cbn [iter]. unfold DD at 1. unfold sh. 
    assert (E2 : (if (k <? b)%nat then 0 else iter DD n a (k - b)%nat)
                 = zsum Rr (fun r => sgn r * Z.of_nat (binom n r) * g a k (S r))).
    { destruct (Nat.ltb_spec k b) as [L|L].
      - symmetry. apply zsum_0. intros i Hi. unfold g. destruct (Nat.leb_spec (S i * b) k); nia.
      - rewrite (IH (k - b)%nat Rr) by lia. apply zsum_ext. intros i Hi. f_equal. unfold g.
        destruct (Nat.leb_spec (i * b) (k - b)); destruct (Nat.leb_spec (S i * b) k); try lia; try nia.
        f_equal. lia. }
    rewrite E2. rewrite (IH k Rr HR).
    destruct Rr as [|R']; [lia|].
    rewrite (zsum_shift R' (fun r => sgn r * Z.of_nat (binom n r) * g a k r)).
    rewrite (zsum_shift R' (fun r => sgn r * Z.of_nat (binom (S n) r) * g a k r)).
    cbn [zsum].
    assert (Z0 : g a k (S R') = 0).
    { unfold g. destruct (Nat.leb_spec (S R' * b) k); [lia|reflexivity]. }
    rewrite Z0. rewrite Z.mul_0_r, Z.add_0_r. rewrite !binom_0_r.
    rewrite <- Z.add_sub_assoc. f_equal. rewrite <- zsum_sub. apply zsum_ext. intros i Hi.
    rewrite sgn_S. cbn [binom]. lia.
Qed.

Lemma cnt_H_dim n k : (1 <= n)%nat -> cnt n k = H_dim k n (b - 1).
Proof.
  intros Hn. unfold H_dim. replace (b - 1 + 1)%nat with b by lia. rewrite cnt_DS.
  rewrite (iterDD_sum n _ k (k / b + 1)).
  - apply zsum_ext. intros r Hr. unfold g.
    assert (r * b <= k)%nat.
    { assert (r <= k / b)%nat by lia. pose proof (Nat.div_mod k b ltac:(lia)). nia. }
    destruct (Nat.leb_spec (r * b) k); [|lia].
    destruct n as [|n]; [lia|]. rewrite SS_delta. replace (S n + (k - r * b) - 1)%nat with (n + (k - r * b))%nat by lia.
    unfold sgn. destruct (Nat.even r); lia.
  - pose proof (Nat.div_mod k b ltac:(lia)). pose proof (Nat.mod_upper_bound k b ltac:(lia)). nia.
Qed.

End B.

Lemma bsector_length B n : (2 <= B)%N -> forall k,
  Z.of_nat (length (bsector B n k)) = cnt (N.to_nat B) n (N.to_nat k).
Proof.
  intros HB. induction n as [|n IH]; intros k.
  - cbn [bsector cnt]. unfold delta. destruct (N.eqb_spec k 0) as [->|Nk]; [reflexivity|].
    destruct (Nat.eqb_spec (N.to_nat k) 0); [lia|reflexivity].
  - cbn [bsector cnt]. unfold WW.
    assert (H : forall m, Z.of_nat (length (flat_map (fun d => if (N.of_nat d <=? k)%N
          then map (fun s => (s + B ^ N.of_nat n * N.of_nat d)%N) (bsector B n (k - N.of_nat d)) else []) (seq 0 m)))
        = zsum m (fun d => if (d <=? N.to_nat k)%nat then cnt (N.to_nat B) n (N.to_nat k - d) else 0)).
    { induction m as [|m IHm]; [reflexivity|]. rewrite seq_S, flat_map_app, app_length, Nat2Z.inj_add, IHm.
      cbn [zsum flat_map]. rewrite Nat.add_0_l, app_nil_r. f_equal.
      destruct (N.leb_spec (N.of_nat m) k); destruct (Nat.leb_spec m (N.to_nat k)); try lia; [|reflexivity].
      rewrite map_length, IH. f_equal. lia. }
    apply H.
Qed.

Lemma sorted_NoDup (l : list N) : StronglySorted N.lt l -> NoDup l.
Proof.
  induction 1 as [|x l Hs IH Hall]; constructor; [|assumption].
  intros Hin. rewrite Forall_forall in Hall. specialize (Hall x Hin). lia.
Qed.

Lemma lists_increasing_unique (P : N -> Prop) l1 l2 : lists_increasing P l1 -> lists_increasing P l2 -> l1 = l2.
Proof.
  intros [S1 I1] [S2 I2].
  assert (forall x, In x l1 <-> In x l2) as I by (intros x; rewrite I1, I2; reflexivity).
  clear I1 I2. revert l2 S2 I. induction S1 as [|x l1 S1 IH A1]; intros l2 S2 I.
  - destruct l2 as [|y l2]; [reflexivity|]. destruct (proj2 (I y) (or_introl eq_refl)).
  - destruct S2 as [|y l2 S2 A2]; [destruct (proj1 (I x) (or_introl eq_refl))|].
    rewrite Forall_forall in A1, A2.
    assert (x = y) as <-.
    { destruct (proj1 (I x) (or_introl eq_refl)) as [E|E]; [congruence|].
      destruct (proj2 (I y) (or_introl eq_refl)) as [E'|E']; [congruence|].
      specialize (A1 y E'). specialize (A2 x E). lia. }
    f_equal. apply IH; [assumption|]. intros z. split; intros Hz.
    + destruct (proj1 (I z) (or_intror Hz)) as [E|E]; [|assumption]. subst z. specialize (A1 x Hz). lia.
    + destruct (proj2 (I z) (or_intror Hz)) as [E|E]; [|assumption]. subst z. specialize (A2 x Hz). lia.
Qed.

Lemma H_dim_counts B n k l : (2 <= B)%N -> (1 <= n)%nat -> lists_increasing (in_boson_sector B n k) l ->
  H_dim (N.to_nat k) n (N.to_nat B - 1) = Z.of_nat (length l).
Proof.
  intros HB Hn Hl. rewrite (lists_increasing_unique _ _ _ Hl (bsector_ok B HB n k)).
  rewrite bsector_length by assumption. symmetry. apply cnt_H_dim; lia.
Qed.

Lemma boson_full_enumeration B n k : (2 <= B)%N -> (1 <= n)%nat -> (k <= N.of_nat n * (B - 1))%N ->
  lists_increasing (in_boson_sector B n k)
    (visited (boson_next_state_pcon B n) (Z.to_nat (H_dim (N.to_nat k) n (N.to_nat B - 1))) (boson_s0_pcon B k)).
Proof.
  intros HB Hn Hk. rewrite (H_dim_counts B n k _ HB Hn (bsector_ok B HB n k)). rewrite Nat2Z.id.
  apply boson_enumeration; assumption.
Qed.
