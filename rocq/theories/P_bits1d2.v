(* The bit operations of the one-dimensional bases, operation by operation. *)
From Verif Require Import AuxN SpecC SpecBits SpecDigits SpecMaps SpecSymm SpecOps SpecFermi SpecChain SpecProj M_bitcount M_benes M_maps M_fmap M_bits1d P_next P_boson P_bitcount P_maps P_period P_fermion P_fmap P_fmap2 P_fmap3 P_fmap4 P_bits1d.
Local Open Scope nat_scope.

Definition width (w : btype) : option nat := match w with U32 => Some 32 | U64 => Some 64 | PyInt => None end.
(* k bits fit into a state *)
Definition fits (w : btype) (k : nat) : Prop := match width w with Some b => k <= b | None => True end.
Definition below (w : btype) (k : nat) : Prop := match width w with Some b => k < b | None => True end.
Lemma below_fits w k : below w k -> fits w k. Proof. unfold below, fits. destruct (width w); [lia|auto]. Qed.
Lemma fits_below w k j : fits w k -> j < k -> below w j. Proof. unfold below, fits. destruct (width w); [lia|auto]. Qed.
Lemma below_ok w k : below w k -> shift_ok w (N.of_nat k) = true.
Proof. unfold below, shift_ok. destruct w; cbn [width]; intros H; try reflexivity; apply N.ltb_lt; lia. Qed.
Lemma wrap_small w k x : fits w k -> (x < 2 ^ N.of_nat k)%N -> wrap w x = x.
Proof.
  unfold fits, wrap. destruct w; cbn [width]; intros H Hx; [| |reflexivity]; apply N.mod_small; (eapply N.lt_le_trans; [exact Hx|]); apply N.pow_le_mono_r; lia.
Qed.
Lemma wrap_bit w k y i : fits w k -> i < k -> N.testbit (wrap w y) (N.of_nat i) = N.testbit y (N.of_nat i).
Proof. unfold fits, wrap. destruct w; cbn [width]; intros H Hi; [| |reflexivity]; apply N.mod_pow2_bits_low; lia. Qed.
Lemma wrap_add w a b : wrap w (wrap w a + wrap w b) = wrap w (a + b).
Proof. destruct w; cbn [wrap]; [| |reflexivity]; symmetry; apply N.add_mod; lia. Qed.
Lemma wrap_wrap w a : wrap w (wrap w a) = wrap w a.
Proof. destruct w; cbn [wrap]; [| |reflexivity]; apply N.mod_mod; lia. Qed.
Lemma Imax_ones L : Imax L = N.ones (N.of_nat L).
Proof. unfold Imax, N.ones. lia. Qed.
Lemma Imax_bit L i : N.testbit (Imax L) (N.of_nat i) = (i <? L).
Proof. rewrite Imax_ones. destruct (Nat.ltb_spec i L); [apply N.ones_spec_low; lia|apply N.ones_spec_high; lia]. Qed.
Lemma Imax_lt L : (Imax L < 2 ^ N.of_nat L)%N.
Proof. rewrite Imax_ones, N.ones_equiv. pose proof (pow2_pos (N.of_nat L)). lia. Qed.

(* ---- counting ---- *)
Lemma count_bottom f n : count_upto f (S n) = (if f 0 then 1 else 0) + count_upto (fun i => f (S i)) n.
Proof. induction n as [|n IH]; [cbn; lia|]. cbn [count_upto] in *. rewrite IH. lia. Qed.
Lemma count_ext f g n : (forall i, i < n -> f i = g i) -> count_upto f n = count_upto g n.
Proof. induction n as [|n IH]; intros H; [reflexivity|]. cbn [count_upto]. rewrite H, IH by (auto; lia). reflexivity. Qed.
Lemma count_len f n : count_upto f n = length (filter f (seq 0 n)).
Proof. induction n as [|n IH]; [reflexivity|]. cbn [count_upto]. rewrite IH, seq_S, filter_app, app_length. cbn [filter Nat.add]. destruct (f n); cbn; lia. Qed.
Lemma count_rev f n : count_upto f n = count_upto (fun k => f (n - 1 - k)) n.
Proof.
  rewrite !count_len. rewrite <- (map_length (fun k => n - 1 - k) (filter (fun k => f (n - 1 - k)) (seq 0 n))).
  assert (E : forall l, map (fun k => n - 1 - k) (filter (fun k => f (n - 1 - k)) l) = filter f (map (fun k => n - 1 - k) l)).
  { induction l as [|a l IH]; [reflexivity|]. cbn [map filter]. destruct (f (n - 1 - a)); cbn [map]; rewrite IH; reflexivity. }
  rewrite E. apply Permutation_length. pose proof (Permutation_sym (rev_perm_seq n)) as P. induction P; cbn [filter].
  - reflexivity.
  - destruct (f x); [constructor|]; assumption.
  - destruct (f x), (f y); try reflexivity. apply perm_swap.
  - etransitivity; eassumption.
Qed.
Lemma count_false f n : (forall i, i < n -> f i = false) -> count_upto f n = 0.
Proof. induction n as [|n IH]; intros H; [reflexivity|]. cbn [count_upto]. rewrite H, IH by (auto; lia). reflexivity. Qed.
Lemma pos_pop_spec p : forall n, (Npos p < 2 ^ N.of_nat n)%N -> pos_pop p = N.of_nat (particles (Npos p) n).
Proof.
  induction p as [p IH|p IH|]; intros n Hn; (destruct n as [|n]; [exfalso; change (2 ^ N.of_nat 0)%N with 1%N in Hn; lia|]); unfold particles; rewrite count_bottom; cbn [pos_pop].
  - rewrite (count_ext _ (occupied (Npos p))). 2:{ intros i _. unfold occupied. rewrite Nat2N.inj_succ. change (Npos p~1) with (2 * Npos p + 1)%N. apply N.testbit_odd_succ. lia. }
    rewrite (IH n). { unfold particles. change (occupied (Npos p~1) 0) with true. cbv iota. lia. } rewrite Nat2N.inj_succ, N.pow_succ_r' in Hn. lia.
  - rewrite (count_ext _ (occupied (Npos p))). 2:{ intros i _. unfold occupied. rewrite Nat2N.inj_succ. change (Npos p~0) with (2 * Npos p)%N. apply N.testbit_even_succ. lia. }
    rewrite (IH n). { unfold particles. change (occupied (Npos p~0) 0) with false. cbv iota. lia. } rewrite Nat2N.inj_succ, N.pow_succ_r' in Hn. lia.
  - rewrite count_false; [reflexivity|]. intros i _. unfold occupied. rewrite Nat2N.inj_succ. change 1%N with (2 * 0 + 1)%N. rewrite N.testbit_odd_succ by lia. apply N.bits_0.
Qed.
Lemma bcount_ok w I l : below w l -> bcount w I (N.of_nat l) = Some (N.of_nat (particles I l)).
Proof.
  intros H. destruct w; cbn [bcount].
  - unfold below in H. cbn [width] in H. rewrite bit_count_correct; [rewrite Nat2N.id; reflexivity|unfold bits_of; lia|]. rewrite Nat2N.id. pose proof (particles_le I l). lia.
  - unfold below in H. cbn [width] in H. rewrite bit_count_correct; [rewrite Nat2N.id; reflexivity|unfold bits_of; lia|]. rewrite Nat2N.id. pose proof (particles_le I l). lia.
  - f_equal. fold (Imax l). rewrite Imax_ones. set (x := N.land I (N.ones (N.of_nat l))).
    assert (Hx : (x < 2 ^ N.of_nat l)%N) by (unfold x; rewrite N.land_ones; apply N.mod_lt; apply N.pow_nonzero; lia).
    assert (E : particles I l = particles x l).
    { unfold particles. apply count_ext. intros i Hi. unfold occupied, x. rewrite N.land_spec, N.ones_spec_low by lia. rewrite andb_true_r. reflexivity. }
    rewrite E. clearbody x. destruct x as [|p]; cbn [popcount]; [rewrite particles_0; reflexivity|]. apply pos_pop_spec. exact Hx.
Qed.
Lemma of_nat_bit c i : N.testbit (N.of_nat c) (N.of_nat i) = Nat.testbit c i.
Proof. rewrite Nat.testbit_eqb, N.testbit_eqb. rewrite <- Nat2N.inj_mod with (m := 2) || idtac. destruct (N.eqb_spec ((N.of_nat c / 2 ^ N.of_nat i) mod 2) 1), (Nat.eqb_spec ((c / 2 ^ i) mod 2) 1); try reflexivity; exfalso;
  change 2%N with (N.of_nat 2) in *; change 1%N with (N.of_nat 1) in *; rewrite <- Nat2N.inj_pow, <- Nat2N.inj_div, <- Nat2N.inj_mod in *; lia. Qed.
Lemma odd_of_nat c : N.odd (N.of_nat c) = Nat.odd c.
Proof. rewrite <- N.bit0_odd, <- Nat.bit0_odd. exact (of_nat_bit c 0). Qed.
Lemma zs_bool (b : bool) : (if b then (-1)%Z else 1%Z) = zs b. Proof. reflexivity. Qed.
Lemma zs_mul a b : (zs a * zs b)%Z = zs (xorb a b). Proof. destruct a, b; reflexivity. Qed.

(* ---- maps of bits ---- *)
Lemma moved_bits n m s t : (t < 2 ^ N.of_nat n)%N -> (forall j, j < n -> occ n t (target (nth j m 0%Z)) = xorb (occ n s j) (flips (nth j m 0%Z))) -> moved 2 n m s t.
Proof.
  intros Ht H. split; [exact Ht|]. intros j Hj. unfold site_val. rewrite !digit2. specialize (H j Hj). unfold occ, occupied in H. rewrite H. destruct (flips _), (N.testbit s _); reflexivity.
Qed.
Lemma occ_high n s (k : nat) : (s < 2 ^ N.of_nat n)%N -> forall i, n <= i -> N.testbit s (N.of_nat i) = false.
Proof. intros H i Hi. apply (testbit_small s (N.of_nat n)); [exact H|lia]. Qed.

(* ---- translation of a chain of bits ---- *)
Section Shift.
Variables (w : btype) (L p : nat) (I : N).
Hypothesis HF : fits w L.
Hypothesis Hp : p < L.
Hypothesis HI : (I < 2 ^ N.of_nat L)%N.
Let I1 := N.shiftr I (N.of_nat (L - p)).
Let I2 := N.land (wrap w (N.shiftl I (N.of_nat p))) (Imax L).
Lemma I1_bit i : N.testbit I1 (N.of_nat i) = N.testbit I (N.of_nat (i + (L - p))).
Proof. unfold I1. rewrite N.shiftr_spec'. f_equal. lia. Qed.
Lemma I2_bit i : N.testbit I2 (N.of_nat i) = ((i <? L) && ((p <=? i) && N.testbit I (N.of_nat (i - p))))%bool.
Proof.
  unfold I2. rewrite N.land_spec, Imax_bit, andb_comm. destruct (Nat.ltb_spec i L); [|reflexivity]. cbn [andb]. rewrite (wrap_bit w L) by assumption. destruct (Nat.leb_spec p i).
  - rewrite N.shiftl_spec_high' by lia. cbn [andb]. f_equal. lia.
  - rewrite N.shiftl_spec_low by lia. reflexivity.
Qed.
Lemma rot_moved m : (forall j, j < L -> nth j m 0%Z = Z.of_nat (rot L p j)) -> moved 2 L m I (N.lor I2 I1).
Proof.
  intros Hm. apply moved_bits.
  - apply lor_lt; [apply lt_pow2_bits; intros i Hi|]. 
    + rewrite <- (N2Nat.id i), I2_bit. destruct (Nat.ltb_spec (N.to_nat i) L); [lia|reflexivity].
    + apply lt_pow2_bits. intros i Hi. rewrite <- (N2Nat.id i), I1_bit. apply (occ_high L I 0 HI). lia.
  - intros j Hj. rewrite (Hm j Hj), flips_nat, target_nat, xorb_false_r. unfold occ, occupied. rewrite N.lor_spec, I1_bit, I2_bit. unfold rot. destruct (Nat.ltb_spec j p).
    + destruct (Nat.leb_spec p (L - 1 - (j + L - p))); [lia|]. rewrite andb_false_r. cbn [orb]. do 2 f_equal. lia.
    + rewrite (occ_high L I 0 HI (L - 1 - (j - p) + (L - p))) by lia. destruct (Nat.leb_spec p (L - 1 - (j - p))), (Nat.ltb_spec (L - 1 - (j - p)) L); try lia. cbn [andb]. rewrite orb_false_r. do 2 f_equal. lia.
Qed.
Lemma I1_odd : Nat.odd (particles I1 L) = bsum (seq 0 p) (occ L I).
Proof.
  rewrite particles_bsum. rewrite (bsum_split p L _ ltac:(lia)). match goal with |- xorb _ ?b = _ => assert (Z : b = false) end.
  { apply bsum_false. intros k Hk. unfold occupied. rewrite I1_bit. apply (occ_high L I 0 HI). lia. }
  rewrite Z, xorb_false_r, bsum_rev. apply bsum_ext. intros k Hk. apply in_seq in Hk. unfold occ, occupied. rewrite I1_bit. do 2 f_equal. lia.
Qed.
Lemma I2_odd : Nat.odd (particles I2 L) = bsum (seq 0 (L - p)) (fun k => occ L I (p + k)).
Proof.
  rewrite particles_bsum, (bsum_split p L _ ltac:(lia)). rewrite bsum_false.
  - rewrite xorb_false_l, bsum_rev. apply bsum_ext. intros k Hk. apply in_seq in Hk. unfold occ, occupied. rewrite I2_bit. destruct (Nat.ltb_spec (p + (L - p - 1 - k)) L), (Nat.leb_spec p (p + (L - p - 1 - k))); try lia. cbn [andb]. do 2 f_equal. lia.
  - intros k Hk. apply in_seq in Hk. unfold occupied. rewrite I2_bit. destruct (Nat.leb_spec p k); [lia|]. rewrite andb_false_r. reflexivity.
Qed.
End Shift.

Lemma rem_nat L x p : 1 <= L -> (- Z.of_nat L <= x)%Z -> (x mod Z.of_nat L = Z.of_nat p)%Z -> Z.rem (x + Z.of_nat L) (Z.of_nat L) = Z.of_nat p.
Proof. intros HL Hx E. rewrite Z.rem_mod_nonneg by lia. rewrite <- E. replace (x + Z.of_nat L)%Z with (x + 1 * Z.of_nat L)%Z by lia. apply Z.mod_add. lia. Qed.
(* the widths for which the C shifts are defined *)
Definition shift_defined (w : btype) (fermi : bool) (L : nat) (x : Z) : Prop :=
  below w L \/ (fits w L /\ fermi = false /\ (x mod Z.of_nat L <> 0)%Z).
Lemma hcp_shift_acts w fermi L x : 1 <= L -> (- Z.of_nat L <= x)%Z -> shift_defined w fermi L x -> acts fermi 2 L (chain_shift L x) (hcp_shift w fermi L x).
Proof.
  intros HL Hx HD s sg Hs. destruct (mod_nat L x HL) as (p & Hp & E). assert (HF : fits w L) by (destruct HD as [B|(F & _)]; [apply below_fits|]; assumption).
  unfold hcp_shift. rewrite (rem_nat L x p HL Hx E). destruct (Z.ltb_spec (Z.of_nat p) 0); [lia|]. replace (Z.to_N (Z.of_nat p)) with (N.of_nat p) by lia.
  replace (N.of_nat L - N.of_nat p)%N with (N.of_nat (L - p)) by lia. rewrite (below_ok w p) by (apply (fits_below w L); assumption).
  rewrite (below_ok w (L - p)). 2:{ destruct HD as [B|(F & _ & Z)]; [|apply (fits_below w L); [exact F|]; rewrite E in Z; lia]. unfold below in *. destruct (width w); [lia|exact I]. }
  cbn [andb]. set (I1 := N.shiftr s _). set (I2 := N.land _ (Imax L)). exists (N.lor I2 I1). split; [apply (rot_moved w L p s HF Hp Hs); intros j Hj; apply shift_nth; assumption|].
  destruct fermi; [|reflexivity]. assert (B : below w L) by (destruct HD as [B|(_ & D & _)]; [exact B|discriminate]). rewrite !(bcount_ok w _ L B). do 3 f_equal.
  unfold both_odd. rewrite !odd_of_nat. unfold I1, I2. rewrite (I1_odd w L p s Hp Hs), (I2_odd w L p s HF Hp Hs).
  rewrite (cpar_crossings L _ s (shift_no L x HL)), zs_bool. f_equal. rewrite (cpar_ext L _ (rot L p) _ (occ L s)); [symmetry; apply cpar_rot; lia| |reflexivity].
  intros k Hk. rewrite (shift_nth L x p k E Hk). apply target_nat.
Qed.

(* ---- reflection ---- *)
Lemma size_shift x : x <> 0%N -> N.size_nat (N.shiftr x 1) < N.size_nat x.
Proof. intros H. destruct x as [|[q|q|]]; [congruence| | |]; cbn; lia. Qed.
Lemma flip_loop_ok w L I0 : fits w L -> (I0 < 2 ^ N.of_nat L)%N -> forall fuel k out, N.size_nat (N.shiftr I0 (N.of_nat k)) < fuel -> 1 <= k <= L ->
  (out < 2 ^ N.of_nat k)%N -> (forall i, i < k -> N.testbit out (N.of_nat i) = N.testbit I0 (N.of_nat (k - 1 - i))) ->
  exists k' out', flip_loop w fuel (N.shiftr I0 (N.of_nat k)) out (Z.of_nat L - Z.of_nat k) = Some (out', (Z.of_nat L - Z.of_nat k')%Z) /\ 1 <= k' <= L /\ (I0 < 2 ^ N.of_nat k')%N /\
    (out' < 2 ^ N.of_nat k')%N /\ (forall i, i < k' -> N.testbit out' (N.of_nat i) = N.testbit I0 (N.of_nat (k' - 1 - i))).
Proof.
  intros HF HI. induction fuel as [|f IH]; intros k out Hfu Hk Ho Hb; [lia|]. cbn [flip_loop]. destruct (N.eqb_spec (N.shiftr I0 (N.of_nat k)) 0) as [Z|Z].
  - exists k, out. split; [reflexivity|]. split; [exact Hk|]. split; [|split; assumption]. rewrite N.shiftr_div_pow2 in Z. apply N.div_small_iff in Z; [exact Z|]. apply N.pow_nonzero; lia.
  - assert (HkL : k < L).
    { destruct (Nat.eq_dec k L) as [->|]; [|lia]. exfalso. apply Z. rewrite N.shiftr_div_pow2. apply N.div_small. exact HI. }
    assert (W : wrap w (N.shiftl out 1) = N.shiftl out 1).
    { apply (wrap_small w L); [exact HF|]. rewrite N.shiftl_mul_pow2. eapply N.lt_le_trans with (2 ^ N.of_nat (S k))%N; [|apply N.pow_le_mono_r; lia]. rewrite Nat2N.inj_succ, N.pow_succ_r'. change (2 ^ 1)%N with 2%N. lia. }
    rewrite W. pose proof (size_shift _ Z) as SZ. rewrite N.shiftr_shiftr in *. replace (N.of_nat k + 1)%N with (N.of_nat (S k)) in * by lia. replace (Z.of_nat L - Z.of_nat k - 1)%Z with (Z.of_nat L - Z.of_nat (S k))%Z by lia.
    assert (B0 : forall i, N.testbit (N.land (N.shiftr I0 (N.of_nat k)) 1) (N.of_nat i) = ((i =? 0) && N.testbit I0 (N.of_nat k))%bool).
    { intros i. rewrite N.land_spec, N.shiftr_spec'. destruct i as [|i]; [cbn [Nat.eqb andb]; rewrite andb_true_r; reflexivity|]. change 1%N with (N.ones 1). rewrite N.ones_spec_high by lia. rewrite andb_false_r. reflexivity. }
    apply IH; [lia|lia| |].
    + apply lt_pow2_bits. intros i Hi. rewrite <- (N2Nat.id i), N.lxor_spec, B0. destruct (Nat.eqb_spec (N.to_nat i) 0); [lia|]. cbn [andb]. rewrite xorb_false_r, N.shiftl_spec_high' by lia. apply (testbit_small out (N.of_nat k)); [exact Ho|lia].
    + intros i Hi. rewrite N.lxor_spec, B0. destruct i as [|i].
      * rewrite N.shiftl_spec_low by lia. rewrite xorb_false_l. cbn [Nat.eqb andb]. do 2 f_equal. lia.
      * cbn [Nat.eqb andb]. rewrite xorb_false_r, N.shiftl_spec_high' by lia. replace (N.of_nat (S i) - 1)%N with (N.of_nat i) by lia. rewrite Hb by lia. do 2 f_equal. lia.
Qed.
Lemma hcp_flip_acts w fermi L : 1 <= L -> fits w L -> (fermi = true -> below w L) -> acts fermi 2 L (chain_flip L) (hcp_fliplr w fermi L).
Proof.
  intros HL HF HB s sg Hs. unfold hcp_fliplr.
  assert (E : (if fermi then match bcount w s (N.of_nat L) with Some c => Some (sg * (if N.testbit c 1 then -1 else 1))%Z | None => None end else Some (sg * 1)%Z) = Some (sg * (if fermi then neg_one_pow (crossings L (chain_flip L) s) else 1))%Z).
  { destruct fermi; [|reflexivity]. rewrite (bcount_ok w s L (HB eq_refl)). do 2 f_equal. rewrite (cpar_crossings L _ s (flip_no L)), zs_bool. f_equal. change 1%N with (N.of_nat 1). rewrite of_nat_bit.
    rewrite (cpar_ext L _ (fun k => L - 1 - k) _ (occ L s)); [|intros k Hk; rewrite flip_nth by exact Hk; apply target_nat|reflexivity]. rewrite cpar_rev. f_equal. unfold particles. rewrite count_rev. reflexivity. }
  rewrite E. clear E. set (sg' := (sg * _)%Z).
  destruct (flip_loop_ok w L s HF Hs (S (N.size_nat s)) 1 (N.lxor 0 (N.land s 1))) as (k & out & EL & Hk & Hsk & Hout & Hbits).
  - change (N.of_nat 1) with 1%N. destruct (N.eq_dec s 0) as [->|D]; [cbn; lia|]. pose proof (size_shift s D). lia.
  - lia.
  - rewrite N.lxor_0_l. change (N.of_nat 1) with 1%N. change 1%N with (N.ones 1) at 1. rewrite N.land_ones. apply N.mod_lt. apply N.pow_nonzero. lia.
  - intros i Hi. replace i with 0 by lia. rewrite N.lxor_0_l, N.land_spec. cbn [Nat.sub]. change (N.testbit 1 (N.of_nat 0)) with true. rewrite andb_true_r. reflexivity.
  - change (N.of_nat 1) with 1%N in EL. replace (Z.of_nat L - Z.of_nat 1)%Z with (Z.of_nat L - 1)%Z in EL by lia. rewrite EL.
    destruct (Z.ltb_spec (Z.of_nat L - Z.of_nat k) 0); [lia|]. replace (Z.to_N (Z.of_nat L - Z.of_nat k)) with (N.of_nat (L - k)) by lia. rewrite (below_ok w (L - k)) by (apply (fits_below w L); [exact HF|lia]). cbn [negb orb].
    assert (X : (N.shiftl out (N.of_nat (L - k)) < 2 ^ N.of_nat L)%N).
    { rewrite N.shiftl_mul_pow2. replace (N.of_nat L) with (N.of_nat k + N.of_nat (L - k))%N by lia. rewrite N.pow_add_r. apply N.mul_lt_mono_pos_r; [apply pow2_pos|exact Hout]. }
    rewrite (wrap_small w L) by assumption. exists (N.shiftl out (N.of_nat (L - k))). split; [|reflexivity]. apply moved_bits; [exact X|]. intros j Hj. rewrite flip_nth, target_nat, flips_nat, xorb_false_r by exact Hj.
    unfold occ, occupied. replace (L - 1 - (L - 1 - j)) with j by lia. destruct (Nat.le_gt_cases (L - k) j).
    + rewrite N.shiftl_spec_high' by lia. replace (N.of_nat j - N.of_nat (L - k))%N with (N.of_nat (j - (L - k))) by lia. rewrite Hbits by lia. do 2 f_equal. lia.
    + rewrite N.shiftl_spec_low by lia. symmetry. apply (occ_high k s 0 Hsk). lia.
Qed.

(* ---- inversions ---- *)
Lemma xor_moved L M p s : (M < 2 ^ N.of_nat L)%N -> (forall j, j < L -> N.testbit M (N.of_nat (L - 1 - j)) = p j) -> (s < 2 ^ N.of_nat L)%N -> moved 2 L (chain_inv L p) s (N.lxor s M).
Proof.
  intros HM Hb Hs. apply moved_bits; [apply lxor_lt; assumption|]. intros j Hj. rewrite inv_target, inv_flips by exact Hj. unfold occ, occupied. rewrite N.lxor_spec, Hb by exact Hj. reflexivity.
Qed.
Lemma mul1 sg : sg = (sg * 1)%Z. Proof. lia. Qed.
Lemma hcp_inv_acts L : acts false 2 L (chain_inv L (fun _ => true)) (hcp_flip_all L).
Proof.
  intros s sg Hs. exists (N.lxor s (Imax L)). split; [|unfold hcp_flip_all; cbn [fst snd]; do 2 f_equal; apply mul1]. apply xor_moved; [apply Imax_lt| |exact Hs]. intros j Hj. rewrite Imax_bit. apply Nat.ltb_lt. lia.
Qed.
Lemma stag_bits r L : (stag r L < 2 ^ N.of_nat L)%N /\ forall i, i < L -> N.testbit (stag r L) (N.of_nat i) = (i mod 2 =? r).
Proof.
  unfold stag. induction L as [|L [IH1 IH2]]; [split; [cbn; lia|intros; lia]|]. rewrite seq_S, filter_app, fold_left_app. cbn [Nat.add filter]. set (a := fold_left _ _ 0%N) in *.
  assert (P : (2 ^ N.of_nat (S L) = 2 * 2 ^ N.of_nat L)%N) by (rewrite Nat2N.inj_succ, N.pow_succ_r'; reflexivity).
  destruct (L mod 2 =? r) eqn:E; cbn [fold_left].
  - rewrite N.shiftl_mul_pow2, N.mul_1_l. split; [lia|]. intros i Hi. replace (a + 2 ^ N.of_nat L)%N with (a + 2 ^ N.of_nat L * 1)%N by lia. rewrite testbit_split by exact IH1.
    destruct (N.ltb_spec (N.of_nat i) (N.of_nat L)); [apply IH2; lia|]. replace i with L by lia. rewrite N.sub_diag, E. reflexivity.
  - split; [lia|]. intros i Hi. destruct (Nat.eq_dec i L) as [->|D]; [|apply IH2; lia]. rewrite E. apply (testbit_small a (N.of_nat L)); [exact IH1|lia].
Qed.
Lemma hcp_sub_acts r L : acts false 2 L (chain_inv L (from_right L r)) (fun Is => Some (N.lxor (fst Is) (stag r L), snd Is)).
Proof.
  intros s sg Hs. exists (N.lxor s (stag r L)). split; [|cbn [fst snd]; do 2 f_equal; apply mul1]. destruct (stag_bits r L) as [H1 H2]. apply xor_moved; [exact H1| |exact Hs]. intros j Hj. rewrite H2 by lia. reflexivity.
Qed.
