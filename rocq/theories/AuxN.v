(* General lemmas about binary natural numbers.  Nothing in this file is about QuSpin. *)
From Coq Require Export NArith ZArith Lia List Bool Arith.
From Coq Require Export ZifyBool ZifyNat ZifyN.
Export ListNotations.
(* lia with division and modulo *)
Ltac liadm := zify; Z.div_mod_to_equations; lia.

Local Open Scope N_scope.

Lemma N_bits_ext a b : (forall i, N.testbit a i = N.testbit b i) -> a = b.
Proof. intros H; apply N.bits_inj; intro i; apply H. Qed.

Lemma testbit_small a n i : a < 2 ^ n -> n <= i -> N.testbit a i = false.
Proof.
  intros H Hi.
  rewrite <- (N.mod_small a (2 ^ n)) by assumption.
  apply N.mod_pow2_bits_high; assumption.
Qed.

Lemma lt_pow2_bits a n : (forall i, n <= i -> N.testbit a i = false) -> a < 2 ^ n.
Proof.
  intros H.
  assert (E : a mod 2 ^ n = a).
  { apply N_bits_ext; intro i. destruct (N.lt_ge_cases i n) as [L|L].
    - apply N.mod_pow2_bits_low; assumption.
    - rewrite N.mod_pow2_bits_high by assumption. symmetry; apply H; assumption. }
  rewrite <- E. apply N.mod_lt. apply N.pow_nonzero; lia.
Qed.

Lemma pow2_pos n : 0 < 2 ^ n.
Proof. apply N.neq_0_lt_0, N.pow_nonzero; lia. Qed.

(* splitting a number at bit n *)
Lemma testbit_split a x n i : a < 2 ^ n ->
  N.testbit (a + 2 ^ n * x) i = if i <? n then N.testbit a i else N.testbit x (i - n).
Proof.
  intros Ha. pose proof (pow2_pos n) as Hp.
  destruct (N.ltb_spec i n) as [L|L].
  - rewrite <- (N.mod_pow2_bits_low (a + 2 ^ n * x) n i) by assumption.
    replace (a + 2 ^ n * x) with (a + x * 2 ^ n) by lia.
    rewrite N.mod_add by lia. rewrite N.mod_small by assumption. reflexivity.
  - replace i with ((i - n) + n) at 1 by lia.
    rewrite <- N.shiftr_spec' . rewrite N.shiftr_div_pow2.
    replace (a + 2 ^ n * x) with (a + x * 2 ^ n) by lia.
    rewrite N.div_add by lia. rewrite N.div_small by assumption. reflexivity.
Qed.

Lemma land_split a x b y n : a < 2 ^ n -> b < 2 ^ n ->
  N.land (a + 2 ^ n * x) (b + 2 ^ n * y) = N.land a b + 2 ^ n * N.land x y.
Proof.
  intros Ha Hb.
  assert (Hab : N.land a b < 2 ^ n).
  { apply lt_pow2_bits; intros i Hi. rewrite N.land_spec.
    rewrite (testbit_small a n i) by assumption. reflexivity. }
  apply N_bits_ext; intro i. rewrite N.land_spec, !testbit_split by assumption.
  destruct (i <? n); rewrite N.land_spec; reflexivity.
Qed.

Lemma land_lt a b n : a < 2 ^ n -> N.land a b < 2 ^ n.
Proof.
  intros H. apply lt_pow2_bits; intros i Hi. rewrite N.land_spec, (testbit_small a n i) by assumption.
  reflexivity.
Qed.

Lemma land_le_r a b : N.land a b <= b.
Proof.
  apply N.ldiff_le. apply N_bits_ext; intro i.
  rewrite N.ldiff_spec, N.land_spec, N.bits_0. destruct (N.testbit a i), (N.testbit b i); reflexivity.
Qed.

Lemma lor_lt a b n : a < 2 ^ n -> b < 2 ^ n -> N.lor a b < 2 ^ n.
Proof.
  intros Ha Hb. apply lt_pow2_bits; intros i Hi.
  rewrite N.lor_spec, (testbit_small a n i), (testbit_small b n i) by assumption. reflexivity.
Qed.

Lemma lxor_lt a b n : a < 2 ^ n -> b < 2 ^ n -> N.lxor a b < 2 ^ n.
Proof.
  intros Ha Hb. apply lt_pow2_bits; intros i Hi.
  rewrite N.lxor_spec, (testbit_small a n i), (testbit_small b n i) by assumption. reflexivity.
Qed.

Lemma shiftr_lt a n m : a < 2 ^ (n + m) -> N.shiftr a m < 2 ^ n.
Proof.
  intros H. apply lt_pow2_bits; intros i Hi. rewrite N.shiftr_spec'.
  apply (testbit_small a (n + m)); [assumption|lia].
Qed.

Lemma testbit_lt_ge a n : a < 2 ^ n -> forall i, N.testbit a i = true -> i < n.
Proof.
  intros H i Hi. destruct (N.lt_ge_cases i n) as [L|L]; [assumption|].
  rewrite (testbit_small a n i) in Hi by assumption. discriminate.
Qed.
