From Verif Require Import AuxN SpecDigits SpecSector M_next P_next.
Local Open Scope N_scope.

Lemma bM_pow B i : bM B i = B ^ N.of_nat i.
Proof. induction i as [|i IH]; [reflexivity|]. cbn [bM]. rewrite IH, Nat2N.inj_succ, N.pow_succ_r'. apply N.mul_comm. Qed.

Lemma powS (B : N) i : B ^ N.of_nat (S i) = B * B ^ N.of_nat i.
Proof. rewrite Nat2N.inj_succ, N.pow_succ_r'. reflexivity. Qed.

Section Base.
Variable B : N.
Hypothesis HB : 2 <= B.

Lemma Bpos i : 0 < B ^ N.of_nat i.
Proof. apply N.neq_0_lt_0, N.pow_nonzero; lia. Qed.

Lemma digit_lt s i : digit B s i < B.
Proof. apply N.mod_lt; lia. Qed.

Lemma digit_high s i n : s < B ^ N.of_nat n -> (n <= i)%nat -> digit B s i = 0.
Proof.
  intros H Hi. unfold digit. rewrite N.div_small; [apply N.mod_0_l; lia|].
  eapply N.lt_le_trans; [exact H|]. apply N.pow_le_mono_r; lia.
Qed.

Lemma digit_split a x n i : a < B ^ N.of_nat n ->
  digit B (a + B ^ N.of_nat n * x) i = if (i <? n)%nat then digit B a i else digit B x (i - n).
Proof.
  intros Ha. unfold digit. destruct (Nat.ltb_spec i n) as [L|L].
  - replace (B ^ N.of_nat n) with (B ^ N.of_nat (n - i - 1) * B * B ^ N.of_nat i).
    2:{ rewrite (N.mul_comm _ B), <- powS, <- N.pow_add_r. f_equal. lia. }
    pose proof (Bpos i).
    replace (a + B ^ N.of_nat (n - i - 1) * B * B ^ N.of_nat i * x)
      with (a + (B ^ N.of_nat (n - i - 1) * x * B) * B ^ N.of_nat i) by ring.
    rewrite N.div_add by lia. rewrite N.mod_add by lia. reflexivity.
  - replace (B ^ N.of_nat i) with (B ^ N.of_nat n * B ^ N.of_nat (i - n)).
    2:{ rewrite <- N.pow_add_r. f_equal. lia. }
    pose proof (Bpos n). pose proof (Bpos (i - n)). rewrite <- N.div_div by lia.
    replace (a + B ^ N.of_nat n * x) with (a + x * B ^ N.of_nat n) by ring.
    rewrite N.div_add by lia. rewrite (N.div_small a) by assumption. reflexivity.
Qed.

Lemma digit_sum_ext a b n : (forall i, (i < n)%nat -> digit B a i = digit B b i) -> digit_sum B a n = digit_sum B b n.
Proof.
  induction n as [|n IH]; intros H; cbn [digit_sum]; [reflexivity|].
  rewrite (H n) by lia. rewrite IH; [reflexivity|]. intros i Hi; apply H; lia.
Qed.

Lemma digit_sum_split a x n m : a < B ^ N.of_nat n ->
  digit_sum B (a + B ^ N.of_nat n * x) (n + m) = digit_sum B a n + digit_sum B x m.
Proof.
  intros Ha. induction m as [|m IH].
  - rewrite Nat.add_0_r. cbn [digit_sum]. rewrite N.add_0_r. apply digit_sum_ext.
    intros i Hi. rewrite digit_split by assumption. destruct (Nat.ltb_spec i n); [reflexivity|lia].
  - rewrite Nat.add_succ_r. cbn [digit_sum]. rewrite IH, digit_split by assumption.
    destruct (Nat.ltb_spec (n + m) n); [lia|]. replace (n + m - n)%nat with m by lia. lia.
Qed.

Lemma digit_sum_0 n : digit_sum B 0 n = 0.
Proof.
  induction n as [|n IH]; [reflexivity|]. cbn [digit_sum]. rewrite IH. unfold digit.
  pose proof (Bpos n). rewrite N.div_0_l by lia. rewrite N.mod_0_l by lia. reflexivity.
Qed.

Lemma digit_sum_extend s n m : s < B ^ N.of_nat n -> digit_sum B s (n + m) = digit_sum B s n.
Proof.
  intros H. replace s with (s + B ^ N.of_nat n * 0) at 1 by lia. rewrite digit_sum_split by assumption.
  rewrite digit_sum_0. lia.
Qed.

Lemma digit_small d : d < B -> digit B d 0 = d.
Proof. intros H. unfold digit. rewrite N.pow_0_r, N.div_1_r. apply N.mod_small; assumption. Qed.

Lemma pw1 : B ^ N.of_nat 1 = B.
Proof. change (N.of_nat 1) with 1. apply N.pow_1_r. Qed.

Lemma digit_sum_small d n : d < B -> (1 <= n)%nat -> digit_sum B d n = d.
Proof.
  intros H Hn. replace n with (1 + (n - 1))%nat by lia. rewrite digit_sum_extend.
  - cbn [digit_sum]. rewrite digit_small by assumption. lia.
  - rewrite pw1. assumption.
Qed.

Lemma split_low s n : exists a x, a < B ^ N.of_nat n /\ s = a + B ^ N.of_nat n * x /\ a = s mod B ^ N.of_nat n /\ x = s / B ^ N.of_nat n.
Proof.
  pose proof (Bpos n). exists (s mod B ^ N.of_nat n), (s / B ^ N.of_nat n).
  repeat split; [apply N.mod_lt; lia|]. pose proof (N.div_mod s (B ^ N.of_nat n)). lia.
Qed.

(* top digit *)
Lemma top_digit s n : s < B ^ N.of_nat (S n) ->
  exists d s', d < B /\ s' < B ^ N.of_nat n /\ s = s' + B ^ N.of_nat n * d /\ digit_sum B s (S n) = d + digit_sum B s' n.
Proof.
  intros H. destruct (split_low s n) as (a & x & Ha & E & _ & _).
  assert (Hx : x < B). { rewrite powS in H. pose proof (Bpos n). nia. }
  exists x, a. repeat split; try assumption.
  rewrite E. replace (S n) with (n + 1)%nat by lia. rewrite digit_sum_split by assumption.
  rewrite (digit_sum_small x 1) by (assumption || lia). lia.
Qed.

Lemma digit_sum_le n : forall s, s < B ^ N.of_nat n -> digit_sum B s n <= N.of_nat n * (B - 1).
Proof.
  induction n as [|n IH]; intros s H; [cbn; lia|].
  destruct (top_digit s n H) as (d & s' & Hd & Hs' & E & ->). specialize (IH s' Hs'). lia.
Qed.

(* least number with digit sum m *)
Definition minv (m : N) : N := (m mod (B - 1) + 1) * B ^ (m / (B - 1)) - 1.

Lemma minv_S m : minv (m + 1) = minv m + B ^ (m / (B - 1)).
Proof.
  unfold minv. set (b := B - 1). assert (Hb : 1 <= b) by lia.
  set (l := m / b). set (r := m mod b).
  assert (E : m = b * l + r) by (apply N.div_mod; lia).
  assert (Hr : r < b) by (apply N.mod_lt; lia).
  assert (HP : 0 < B ^ l) by (apply N.neq_0_lt_0, N.pow_nonzero; lia).
  destruct (N.eq_dec (r + 1) b) as [Er|Nr].
  - assert (E1 : (m + 1) / b = l + 1).
    { symmetry. apply (N.div_unique _ _ _ 0); [lia|]. rewrite E. nia. }
    assert (E2 : (m + 1) mod b = 0).
    { symmetry. apply (N.mod_unique _ _ (l + 1)); [lia|]. rewrite E. nia. }
    rewrite E1, E2. rewrite (N.add_1_r l), N.pow_succ_r'. 
    assert (EB : B = r + 2) by (clear -Er HB; unfold b in Er; lia).
    revert HP. generalize (B ^ l) as P. intros P HP. rewrite EB. clear -HP. nia.
  - assert (E1 : (m + 1) / b = l).
    { symmetry. apply (N.div_unique _ _ _ (r + 1)); [lia|]. rewrite E. lia. }
    assert (E2 : (m + 1) mod b = r + 1).
    { symmetry. apply (N.mod_unique _ _ l); [lia|]. rewrite E. lia. }
    rewrite E1, E2. clear -HP. nia.
Qed.

Lemma minv_0 : minv 0 = 0.
Proof. unfold minv. rewrite N.mod_0_l, N.div_0_l by lia. reflexivity. Qed.

Lemma minv_add n m' d : m' <= N.of_nat n * (B - 1) -> N.of_nat d <= B - 1 ->
  minv (m' + N.of_nat d) <= minv m' + N.of_nat d * B ^ N.of_nat n.
Proof.
  intros Hm. induction d as [|d IH]; intros Hd.
  - rewrite N.add_0_r. lia.
  - replace (m' + N.of_nat (S d)) with (m' + N.of_nat d + 1) by lia. rewrite minv_S.
    assert (Hq : (m' + N.of_nat d) / (B - 1) <= N.of_nat n).
    { assert ((m' + N.of_nat d) / (B - 1) < N.of_nat n + 1); [|lia].
      apply N.div_lt_upper_bound; [lia|]. nia. }
    assert (B ^ ((m' + N.of_nat d) / (B - 1)) <= B ^ N.of_nat n) by (apply N.pow_le_mono_r; lia).
    specialize (IH ltac:(lia)). lia.
Qed.

Lemma minv_lower n : forall s, s < B ^ N.of_nat n -> minv (digit_sum B s n) <= s.
Proof.
  induction n as [|n IH]; intros s H.
  - cbn [digit_sum]. rewrite minv_0. lia.
  - destruct (top_digit s n H) as (d & s' & Hd & Hs' & E & ->).
    specialize (IH s' Hs'). pose proof (digit_sum_le n s' Hs').
    replace d with (N.of_nat (N.to_nat d)) in * by lia.
    pose proof (minv_add n (digit_sum B s' n) (N.to_nat d) ltac:(assumption) ltac:(lia)).
    replace (N.of_nat (N.to_nat d) + digit_sum B s' n) with (digit_sum B s' n + N.of_nat (N.to_nat d)) by lia.
    rewrite E. lia.
Qed.

(* minv is attained *)
Lemma digit_sum_full l : digit_sum B (B ^ N.of_nat l - 1) l = N.of_nat l * (B - 1).
Proof.
  induction l as [|l IH]; [reflexivity|].
  replace (B ^ N.of_nat (S l) - 1) with ((B ^ N.of_nat l - 1) + B ^ N.of_nat l * (B - 1)).
  2:{ rewrite powS. pose proof (Bpos l). nia. }
  replace (S l) with (l + 1)%nat at 1 by lia.
  rewrite digit_sum_split by (pose proof (Bpos l); lia).
  rewrite IH, (digit_sum_small (B - 1) 1) by lia. lia.
Qed.

Lemma minv_ok n m : m <= N.of_nat n * (B - 1) -> minv m < B ^ N.of_nat n /\ digit_sum B (minv m) n = m.
Proof.
  intros Hm. set (b := B - 1) in *. assert (Hb : 1 <= b) by lia.
  unfold minv. fold b. set (l := m / b). set (r := m mod b).
  assert (E : m = b * l + r) by (apply N.div_mod; lia).
  assert (Hr : r < b) by (apply N.mod_lt; lia).
  set (nl := N.to_nat l). replace l with (N.of_nat nl) in * by (unfold nl; lia).
  assert (Hl : (nl <= n)%nat) by nia.
  pose proof (Bpos nl) as HP.
  destruct (Nat.eq_dec nl n) as [En|Nn].
  - assert (r = 0) by (rewrite En in E; nia). rewrite H, En. replace ((0 + 1) * B ^ N.of_nat n - 1) with (B ^ N.of_nat n - 1) by lia.
    rewrite En in HP. split; [lia|]. rewrite digit_sum_full. rewrite E, En, H. lia.
  - replace ((r + 1) * B ^ N.of_nat nl - 1) with ((B ^ N.of_nat nl - 1) + B ^ N.of_nat nl * r) by nia.
    split.
    + assert (B ^ N.of_nat (S nl) <= B ^ N.of_nat n) by (apply N.pow_le_mono_r; lia). rewrite powS in H. nia.
    + replace n with (nl + (n - nl))%nat by lia. rewrite digit_sum_split by lia.
      rewrite digit_sum_full, digit_sum_small by lia. rewrite E. fold b. lia.
Qed.

(* a number whose digits are "filled from the top" is the largest with its digit sum *)
Lemma digit_shift x i : digit B (x / B) i = digit B x (S i).
Proof.
  unfold digit. rewrite powS, N.div_div; [reflexivity|lia|]. pose proof (Bpos i). lia.
Qed.

Lemma low_digit x n : x < B ^ N.of_nat (S n) -> x = digit B x 0 + B * (x / B) /\ x / B < B ^ N.of_nat n /\
  digit_sum B x (S n) = digit B x 0 + digit_sum B (x / B) n.
Proof.
  intros H. assert (E : x = digit B x 0 + B * (x / B)).
  { unfold digit. rewrite N.pow_0_r, N.div_1_r. pose proof (N.div_mod x B). lia. }
  split; [exact E|]. split.
  - apply N.div_lt_upper_bound; [lia|]. rewrite powS in H. exact H.
  - replace (S n) with (1 + n)%nat by lia.
    rewrite E at 1. replace (B * (x / B)) with (B ^ N.of_nat 1 * (x / B)) by (rewrite pw1; reflexivity).
    pose proof (digit_lt x 0). rewrite digit_sum_split by (rewrite pw1; assumption).
    rewrite digit_sum_small by (assumption || lia). reflexivity.
Qed.

Definition filled (x : N) (i : nat) := forall j, (j < i)%nat -> 0 < digit B x j -> digit B x (S j) = B - 1.

Lemma filled_all x i : filled x i -> 0 < digit B x 0 -> forall j, (1 <= j <= i)%nat -> digit B x j = B - 1.
Proof.
  intros Hf H0. induction j as [|j IH]; intros Hj; [lia|].
  destruct (Nat.eq_dec j 0) as [->|Nj].
  - apply Hf; [lia|assumption].
  - apply Hf; [lia|]. rewrite IH by lia. lia.
Qed.

Lemma all_max x n : x < B ^ N.of_nat n -> (forall j, (j < n)%nat -> digit B x j = B - 1) -> x = B ^ N.of_nat n - 1.
Proof.
  revert x. induction n as [|n IH]; intros x Hx Hd.
  - cbn in *. lia.
  - destruct (low_digit x n Hx) as (E & Hlt & _). rewrite E, (Hd 0%nat) by lia.
    rewrite (IH (x / B)); [|assumption|intros j Hj; rewrite digit_shift; apply Hd; lia].
    rewrite powS. pose proof (Bpos n). nia.
Qed.

Lemma filled_max i : forall x u, x < B ^ N.of_nat (S i) -> u < B ^ N.of_nat (S i) -> filled x i ->
  digit_sum B u (S i) <= digit_sum B x (S i) -> u <= x.
Proof.
  induction i as [|i IH]; intros x u Hx Hu Hf Hs.
  - cbn [digit_sum] in Hs. rewrite pw1 in Hx, Hu.
    rewrite !digit_small in Hs by assumption. lia.
  - destruct (low_digit x (S i) Hx) as (Ex & Hlx & Esx). destruct (low_digit u (S i) Hu) as (Eu & Hlu & Esu).
    rewrite Esx, Esu in Hs. pose proof (digit_lt x 0). pose proof (digit_lt u 0).
    assert (Hf' : filled (x / B) i).
    { intros j Hj Hp. rewrite !digit_shift in *. apply Hf; [lia|assumption]. }
    destruct (N.eq_dec (digit B x 0) 0) as [Z|NZ].
    + assert (Hle : u / B <= x / B) by (apply IH; try assumption; lia).
      destruct (N.eq_dec (u / B) (x / B)) as [Eq|Nq].
      * rewrite Eq in Hs. assert (digit B u 0 = 0) by lia. rewrite Ex, Eu, Z, Eq, H1. lia.
      * rewrite Ex, Eu. nia.
    + assert (Em : x / B = B ^ N.of_nat (S i) - 1).
      { apply all_max; [assumption|]. intros j Hj. rewrite digit_shift. apply (filled_all x (S i)); [assumption|lia|lia]. }
      assert (Hle : u / B <= x / B) by lia.
      destruct (N.eq_dec (u / B) (x / B)) as [Eq|Nq].
      * rewrite Eq in Hs. rewrite Ex, Eu, Eq. lia.
      * rewrite Ex, Eu. nia.
Qed.

(* ---------- the refill loop ---------- *)
Definition newdigit (l r : N) (j : nat) : N :=
  if N.of_nat j <? l then B - 1 else if N.of_nat j =? l then r else 0.
Fixpoint newval (l r : N) (cnt : nat) : N :=
  match cnt with O => 0 | S c => newval l r c + newdigit l r c * B ^ N.of_nat c end.

Lemma newval_lt l r cnt : r < B -> newval l r cnt < B ^ N.of_nat cnt.
Proof.
  intros Hr. induction cnt as [|c IH]; [cbn; lia|]. cbn [newval]. rewrite powS.
  assert (newdigit l r c <= B - 1).
  { unfold newdigit. destruct (_ <? _); [lia|]. destruct (_ =? _); lia. }
  pose proof (Bpos c). nia.
Qed.

Lemma refill_spec l r s1 cnt : forall j a, r < B -> a < B ^ N.of_nat j -> 
  boson_refill B l r cnt j (a + B ^ N.of_nat j * s1)
  = a + (newval l r (j + cnt) - newval l r j) + B ^ N.of_nat (j + cnt) * (s1 / B ^ N.of_nat cnt).
Proof.
  revert s1. induction cnt as [|cnt IH]; intros s1 j a Hr Ha.
  - cbn [boson_refill]. rewrite Nat.add_0_r. cbn [N.of_nat]. rewrite N.pow_0_r, N.div_1_r. lia.
  - cbn [boson_refill]. rewrite bM_pow.
    pose proof (Bpos j) as Pj.
    assert (Ed : ((a + B ^ N.of_nat j * s1) / B ^ N.of_nat j) mod B = s1 mod B).
    { replace (a + B ^ N.of_nat j * s1) with (a + s1 * B ^ N.of_nat j) by ring.
      rewrite N.div_add by lia. rewrite (N.div_small a) by assumption. reflexivity. }
    rewrite Ed. pose proof (N.div_mod s1 B ltac:(lia)) as Es.
    set (d := s1 mod B) in *. set (q := s1 / B) in *.
    assert (E1 : a + B ^ N.of_nat j * s1 - d * B ^ N.of_nat j = a + B ^ N.of_nat (S j) * q).
    { rewrite powS, Es. replace (B ^ N.of_nat j * (B * q + d)) with (B * B ^ N.of_nat j * q + d * B ^ N.of_nat j) by ring.
      rewrite N.add_assoc. apply N.add_sub. }
    rewrite E1.
    assert (E2 : (if N.of_nat j <? l then a + B ^ N.of_nat (S j) * q + (B - 1) * B ^ N.of_nat j
                  else if N.of_nat j =? l then a + B ^ N.of_nat (S j) * q + r * B ^ N.of_nat j
                  else a + B ^ N.of_nat (S j) * q)
                 = (a + newdigit l r j * B ^ N.of_nat j) + B ^ N.of_nat (S j) * q).
    { unfold newdigit. destruct (_ <? _); [lia|]. destruct (_ =? _); lia. }
    rewrite E2. rewrite IH; [|assumption|].
    + replace (S j + cnt)%nat with (j + S cnt)%nat by lia.
      assert (Hmon : forall k m, newval l r k <= newval l r (k + m)).
      { intros k m. induction m as [|m IHm]; [rewrite Nat.add_0_r; lia|]. rewrite Nat.add_succ_r. cbn [newval]. lia. }
      pose proof (Hmon (S j) cnt) as Hm1. replace (S j + cnt)%nat with (j + S cnt)%nat in Hm1 by lia.
      cbn [newval] in *.
      assert (Eq : q / B ^ N.of_nat cnt = s1 / B ^ N.of_nat (S cnt)).
      { unfold q. rewrite powS. apply N.div_div; [lia|]. pose proof (Bpos cnt). lia. }
      rewrite Eq. set (Z := B ^ N.of_nat (j + S cnt) * (s1 / B ^ N.of_nat (S cnt))). clear -Hm1. lia.
    + rewrite powS. assert (Hnd : newdigit l r j <= B - 1).
      { unfold newdigit. destruct (_ <? _); [lia|]. destruct (_ =? _); lia. }
      clear -Hnd Ha HB Pj. nia.
Qed.

Lemma newval_minv m cnt : m < N.of_nat cnt * (B - 1) -> newval (m / (B - 1)) (m mod (B - 1)) cnt = minv m.
Proof.
  intros H. unfold minv. set (b := B - 1) in *. assert (Hb : 1 <= b) by lia.
  set (l := m / b). set (r := m mod b).
  assert (E : m = b * l + r) by (apply N.div_mod; lia).
  assert (Hr : r < b) by (apply N.mod_lt; lia).
  set (nl := N.to_nat l). replace l with (N.of_nat nl) in * by (unfold nl; lia).
  assert (Hc : (nl < cnt)%nat) by nia.
  assert (A1 : forall c, (c <= nl)%nat -> newval (N.of_nat nl) r c = B ^ N.of_nat c - 1).
  { induction c as [|c IH]; intros Hcl; [reflexivity|]. cbn [newval]. rewrite IH by lia.
    unfold newdigit. rewrite (proj2 (N.ltb_lt _ _)) by lia. rewrite powS. pose proof (Bpos c). nia. }
  assert (A2 : forall c, newval (N.of_nat nl) r (S nl + c) = (r + 1) * B ^ N.of_nat nl - 1).
  { induction c as [|c IH].
    - rewrite Nat.add_0_r. cbn [newval]. rewrite A1 by lia. unfold newdigit.
      rewrite N.ltb_irrefl, N.eqb_refl. pose proof (Bpos nl). nia.
    - rewrite Nat.add_succ_r. cbn [newval]. rewrite IH. unfold newdigit.
      rewrite (proj2 (N.ltb_ge _ _)) by lia. rewrite (proj2 (N.eqb_neq _ _)) by lia. lia. }
  replace cnt with (S nl + (cnt - S nl))%nat by lia. apply A2.
Qed.

(* ---------- the outer loop ---------- *)
Lemma next_loop_spec n cnt : forall i s, (i + cnt + 1 = n)%nat -> s < B ^ N.of_nat n -> filled s i ->
  (exists u, in_boson_sector B n (digit_sum B s n) u /\ s < u) ->
  is_next (in_boson_sector B n (digit_sum B s n)) s (boson_next_loop B cnt i (digit_sum B s i) s).
Proof.
  induction cnt as [|cnt IH]; intros i s Hn Hs Hf Hex.
  - (* no position found: s is the largest state, contradiction *)
    exfalso. destruct Hex as (u & [Hu Hsum] & Hlt).
    replace n with (S i) in * by lia.
    assert (u <= s) by (apply (filled_max i); try assumption; lia). lia.
  - cbn [boson_next_loop]. rewrite !bM_pow.
    change ((s / B ^ N.of_nat i) mod B) with (digit B s i).
    change ((s / B ^ N.of_nat (S i)) mod B) with (digit B s (S i)).
    assert (EN : digit_sum B s (S i) = digit_sum B s i + digit B s i) by (cbn [digit_sum]; lia).
    destruct (N.ltb_spec 0 (digit B s i)) as [Hp|Hp].
    + destruct (N.ltb_spec (digit B s (S i)) (B - 1)) as [Hb|Hb].
      * clear IH. rewrite <- EN.
        (* found *)
        destruct (split_low s (S i)) as (lo & hi & Hlo & E & _ & _).
        pose proof (Bpos i) as Pi. pose proof (Bpos (S i)) as PSi.
        assert (Edi : digit B lo i = digit B s i).
        { rewrite E, digit_split by assumption. destruct (Nat.ltb_spec i (S i)); [reflexivity|lia]. }
        assert (Ehi : digit B hi 0 = digit B s (S i)).
        { rewrite E, digit_split by assumption. destruct (Nat.ltb_spec (S i) (S i)); [lia|]. f_equal. lia. }
        assert (Hhi : hi < B ^ N.of_nat cnt * B).
        { rewrite N.mul_comm, <- powS. replace n with (S i + S cnt)%nat in Hs by lia.
          rewrite Nat2N.inj_add, N.pow_add_r in Hs.
          apply (N.mul_lt_mono_pos_l (B ^ N.of_nat (S i))); [assumption|]. lia. }
        assert (Ssum : digit_sum B s n = digit_sum B lo (S i) + digit_sum B hi (S cnt)).
        { rewrite E. replace n with (S i + S cnt)%nat by lia. apply digit_sum_split; assumption. }
        assert (Slo : digit_sum B s (S i) = digit_sum B lo (S i)).
        { apply digit_sum_ext. intros j Hj. rewrite E, digit_split by assumption.
          destruct (Nat.ltb_spec j (S i)); [reflexivity|lia]. }
        rewrite Slo. set (m := digit_sum B lo (S i)) in *.
        assert (Hm1 : 1 <= m). { unfold m. cbn [digit_sum]. rewrite Edi. lia. }
        assert (Hmle : m <= N.of_nat (S i) * (B - 1)) by (apply digit_sum_le; assumption).
        assert (Hloi : B ^ N.of_nat i <= lo).
        { destruct (N.le_gt_cases (B ^ N.of_nat i) lo) as [Hc|Hc]; [assumption|].
          rewrite (digit_high lo i i) in Edi by (assumption || lia). lia. }
        assert (Es1 : s - B ^ N.of_nat i + B ^ N.of_nat (S i) = (lo - B ^ N.of_nat i) + B ^ N.of_nat (S i) * (hi + 1)).
        { rewrite E. nia. }
        assert (Eres : (if 0 <? m - 1
            then boson_refill B ((m - 1) / (B - 1)) ((m - 1) mod (B - 1)) (S i) 0 (s - B ^ N.of_nat i + B ^ N.of_nat (S i))
            else s - B ^ N.of_nat i + B ^ N.of_nat (S i)) = minv (m - 1) + B ^ N.of_nat (S i) * (hi + 1)).
        { destruct (N.ltb_spec 0 (m - 1)) as [Hq|Hq].
          - replace (s - B ^ N.of_nat i + B ^ N.of_nat (S i)) with (0 + B ^ N.of_nat 0 * (s - B ^ N.of_nat i + B ^ N.of_nat (S i))).
            2:{ cbn [N.of_nat]. rewrite N.pow_0_r. lia. }
            rewrite refill_spec; [| |cbn; lia].
            2:{ assert ((m - 1) mod (B - 1) < B - 1) by (apply N.mod_lt; lia). lia. }
            cbn [newval plus]. rewrite N.sub_0_r.
            change (newval ((m - 1) / (B - 1)) ((m - 1) mod (B - 1)) i
                    + newdigit ((m - 1) / (B - 1)) ((m - 1) mod (B - 1)) i * B ^ N.of_nat i)
              with (newval ((m - 1) / (B - 1)) ((m - 1) mod (B - 1)) (S i)).
            rewrite newval_minv by lia.
            assert (Ediv : (s - B ^ N.of_nat i + B ^ N.of_nat (S i)) / B ^ N.of_nat (S i) = hi + 1).
            { rewrite Es1. replace (lo - B ^ N.of_nat i + B ^ N.of_nat (S i) * (hi + 1))
                with (lo - B ^ N.of_nat i + (hi + 1) * B ^ N.of_nat (S i)) by ring.
              rewrite N.div_add by lia. rewrite N.div_small by lia. lia. }
            rewrite Ediv. lia.
          - assert (m = 1) by lia. replace (m - 1) with 0 by lia. rewrite minv_0, Es1.
            assert (lo = B ^ N.of_nat i); [|lia].
            destruct (top_digit lo i Hlo) as (d & s' & Hd & Hs' & El & Esum).
            assert (Hdd : d = digit B lo i).
            { rewrite El, digit_split by assumption. destruct (Nat.ltb_spec i i); [lia|].
              rewrite Nat.sub_diag. symmetry. apply digit_small; assumption. }
            fold m in Esum. assert (d = 1 /\ digit_sum B s' i = 0) as [Hd1 Hz] by lia.
            assert (Hzero : forall k t, t < B ^ N.of_nat k -> digit_sum B t k = 0 -> t = 0).
            { clear -HB. induction k as [|k IHk]; intros t Ht Hz; [cbn in Ht; lia|].
              destruct (top_digit t k Ht) as (d & t' & Hd & Ht' & Et & Esum). rewrite Hz in Esum.
              rewrite (IHk t') in Et by (assumption || lia). assert (d = 0) by lia. subst d. lia. }
            rewrite (Hzero i s' Hs' Hz) in El. rewrite El, Hd1. lia. }
        rewrite Eres.
        destruct (minv_ok (S i) (m - 1)) as [Hv Hvs]; [lia|].
        assert (Shi : digit_sum B (hi + 1) (S cnt) = digit_sum B hi (S cnt) + 1).
        { assert (Hh1 : hi < B ^ N.of_nat (S cnt)) by (rewrite powS, N.mul_comm; assumption).
          destruct (low_digit hi cnt Hh1) as (Eh & Hl & Sh). rewrite Sh.
          assert (E1 : hi + 1 = (digit B hi 0 + 1) + B ^ N.of_nat 1 * (hi / B)).
          { rewrite pw1. lia. }
          rewrite E1. replace (S cnt) with (1 + cnt)%nat by lia.
          rewrite digit_sum_split by (rewrite pw1; lia).
          rewrite digit_sum_small by lia. lia. }
        assert (Min : forall u, in_boson_sector B n (digit_sum B s n) u -> s < u ->
                 minv (m - 1) + B ^ N.of_nat (S i) * (hi + 1) <= u).
        { intros u [Hu Hus] Hsu.
          destruct (split_low u (S i)) as (ul & uh & Hul & Eu & _ & _).
          assert (Sus : digit_sum B u n = digit_sum B ul (S i) + digit_sum B uh (S cnt)).
          { rewrite Eu. replace n with (S i + S cnt)%nat by lia. apply digit_sum_split; assumption. }
          assert (Hge : hi <= uh).
          { destruct (N.le_gt_cases hi uh) as [Hc|Hc]; [assumption|exfalso].
            assert (B ^ N.of_nat (S i) * (uh + 1) <= B ^ N.of_nat (S i) * hi) by (apply N.mul_le_mono_l; lia). lia. }
          destruct (N.eq_dec uh hi) as [Eh|Nh].
          { exfalso. subst uh.
            assert (ul <= lo); [|lia].
            apply (filled_max i); try assumption.
            - intros j Hj Hpj.
              assert (Edj : forall j', (j' <= i)%nat -> digit B lo j' = digit B s j').
              { intros j' Hj'. rewrite E, digit_split by assumption. destruct (Nat.ltb_spec j' (S i)); [reflexivity|lia]. }
              rewrite Edj in * by lia. apply Hf; assumption.
            - fold m. lia. }
          destruct (N.eq_dec uh (hi + 1)) as [Eh1|Nh1].
          { subst uh. rewrite Eu.
            assert (Hms : digit_sum B ul (S i) = m - 1) by lia.
            pose proof (minv_lower (S i) ul Hul) as Hlow. rewrite Hms in Hlow. lia. }
          assert (B ^ N.of_nat (S i) * (hi + 2) <= B ^ N.of_nat (S i) * uh) by (apply N.mul_le_mono_l; lia). lia. }
        split; [|split].
        -- destruct Hex as (u & Hu & Hsu). split.
           ++ eapply N.le_lt_trans; [apply (Min u Hu Hsu)|]. apply Hu.
           ++ replace n with (S i + S cnt)%nat by lia.
              replace (S i + S cnt)%nat with n in * by lia.
              rewrite Ssum. replace n with (S i + S cnt)%nat by lia.
              rewrite digit_sum_split by assumption. rewrite Hvs, Shi. fold m. lia.
        -- rewrite E. nia.
        -- exact Min.
      * (* next digit is full: continue *)
        assert (EN2 : digit_sum B s i + digit B s i = digit_sum B s (S i)) by lia.
        rewrite EN2. apply IH; [lia|assumption| |assumption].
        intros j Hj Hpj. destruct (Nat.eq_dec j i) as [->|Nj].
        -- pose proof (digit_lt s (S i)). lia.
        -- apply Hf; [lia|assumption].
    + assert (EN2 : digit_sum B s i = digit_sum B s (S i)) by lia.
      rewrite EN2. apply IH; [lia|assumption| |assumption].
      intros j Hj Hpj. destruct (Nat.eq_dec j i) as [->|Nj]; [lia|]. apply Hf; [lia|assumption].
Qed.

Lemma boson_next_is_next n k s : (1 <= n)%nat -> in_boson_sector B n k s ->
  (exists u, in_boson_sector B n k u /\ s < u) ->
  is_next (in_boson_sector B n k) s (boson_next_state_pcon B n s).
Proof.
  intros Hn [Hs <-] Hex. unfold boson_next_state_pcon.
  destruct (N.eqb_spec s 0) as [->|Hs0].
  - exfalso. destruct Hex as (u & [Hu Hsum] & Hlt). rewrite digit_sum_0 in Hsum.
    assert (Hzero : forall k t, t < B ^ N.of_nat k -> digit_sum B t k = 0 -> t = 0).
    { clear -HB. induction k as [|k IHk]; intros t Ht Hz; [cbn in Ht; lia|].
      destruct (top_digit t k Ht) as (d & t' & Hd & Ht' & Et & Esum). rewrite Hz in Esum.
      rewrite (IHk t') in Et by (assumption || lia). assert (d = 0) by lia. subst d. lia. }
    rewrite (Hzero n u Hu Hsum) in Hlt. lia.
  - apply (next_loop_spec n (n - 1) 0 s); [lia|assumption| |assumption].
    intros j Hj; lia.
Qed.

Lemma boson_s0_val k : boson_s0_pcon B k = minv k.
Proof.
  unfold boson_s0_pcon, minv. set (l := k / (B - 1)). set (r := k mod (B - 1)).
  assert (H : forall m, fold_left (fun acc i => acc + (B - 1) * B ^ N.of_nat i) (seq 0 m) 0 = B ^ N.of_nat m - 1).
  { induction m as [|m IH]; [reflexivity|]. rewrite seq_S, fold_left_app. cbn [fold_left]. rewrite IH, Nat.add_0_l, powS.
    pose proof (Bpos m) as Hp. clear -Hp HB. nia. }
  rewrite H, N2Nat.id.
  assert (HP : 0 < B ^ l) by (apply N.neq_0_lt_0, N.pow_nonzero; lia).
  generalize dependent (B ^ l). clear. intros P HP. nia.
Qed.

(* explicit list of the sector, top digit last *)
Fixpoint bsector (n : nat) (k : N) : list N :=
  match n with
  | O => if k =? 0 then [0] else []
  | S n' => flat_map (fun d => if N.of_nat d <=? k
                              then map (fun s => s + B ^ N.of_nat n' * N.of_nat d) (bsector n' (k - N.of_nat d))
                              else []) (seq 0 (N.to_nat B))
  end.

Lemma sorted_flat_map (f : nat -> list N) (a m : nat) :
  (forall d, StronglySorted N.lt (f d)) ->
  (forall d d' x y, (d < d')%nat -> In x (f d) -> In y (f d') -> x < y) ->
  StronglySorted N.lt (flat_map f (seq a m)).
Proof.
  intros Hs Hc. revert a. induction m as [|m IH]; intros a; cbn [seq flat_map]; [constructor|].
  apply StronglySorted_app; [apply Hs|apply IH|].
  intros x y Hx Hy. apply in_flat_map in Hy. destruct Hy as (d & Hd & Hy). apply in_seq in Hd.
  apply (Hc a d); [lia|assumption|assumption].
Qed.

Lemma bsector_ok n : forall k, lists_increasing (in_boson_sector B n k) (bsector n k).
Proof.
  induction n as [|n IH]; intros k.
  - cbn [bsector]. split.
    + destruct (k =? 0); repeat constructor.
    + intros s. unfold in_boson_sector. cbn [digit_sum]. destruct (N.eqb_spec k 0) as [->|Nk]; cbn.
      * split; [intros [<-|[]]; split; [lia|reflexivity]|intros [H _]; left; lia].
      * split; [intros []|intros [_ H]; lia].
  - cbn [bsector]. split.
    + apply sorted_flat_map.
      * intros d. destruct (_ <=? _); [|constructor]. eapply StronglySorted_map; [|apply (IH (k - N.of_nat d))].
        intros x y Hxy; cbn. lia.
      * intros d d' x y Hd Hx Hy.
        destruct (N.of_nat d <=? k); [|destruct Hx]. destruct (N.of_nat d' <=? k); [|destruct Hy].
        apply in_map_iff in Hx. destruct Hx as (x' & <- & Hx). apply in_map_iff in Hy. destruct Hy as (y' & <- & Hy).
        apply IH in Hx. destruct Hx as [Hx _]. nia.
    + intros s. rewrite in_flat_map. split.
      * intros (d & Hd & Hs). apply in_seq in Hd. destruct (N.leb_spec (N.of_nat d) k) as [Hle|]; [|destruct Hs].
        apply in_map_iff in Hs. destruct Hs as (s' & <- & Hs'). apply IH in Hs'. destruct Hs' as [Hs' Hsum].
        split.
        -- rewrite powS. assert (N.of_nat d <= B - 1) by lia. pose proof (Bpos n). nia.
        -- replace (S n) with (n + 1)%nat by lia. rewrite digit_sum_split by assumption.
           rewrite (digit_sum_small _ 1) by lia. lia.
      * intros [Hs Hsum]. destruct (top_digit s n Hs) as (d & s' & Hd & Hs' & E & Es).
        exists (N.to_nat d). split; [apply in_seq; lia|].
        destruct (N.leb_spec (N.of_nat (N.to_nat d)) k) as [Hle|]; [|lia].
        apply in_map_iff. exists s'. split; [rewrite E; f_equal; f_equal; lia|].
        apply IH. split; [assumption|lia].
Qed.

Lemma boson_enumeration n k : (1 <= n)%nat -> k <= N.of_nat n * (B - 1) ->
  lists_increasing (in_boson_sector B n k)
    (visited (boson_next_state_pcon B n) (length (bsector n k)) (boson_s0_pcon B k)).
Proof.
  intros Hn Hk. destruct (bsector_ok n k) as [Hs Hin].
  rewrite (visited_lists (in_boson_sector B n k)); [split; assumption| | | | |].
  - intros s Hss Hex. apply boson_next_is_next; assumption.
  - assumption.
  - intros x Hx. apply Hin; assumption.
  - intros x y _ Hy _. apply Hin; assumption.
  - apply hd_least; [assumption| |].
    + apply Hin. rewrite boson_s0_val. apply minv_ok; assumption.
    + intros x Hx. apply Hin in Hx. destruct Hx as [Hx Hkx]. rewrite boson_s0_val, <- Hkx. apply minv_lower; assumption.
Qed.

End Base.
