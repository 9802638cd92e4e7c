(* Proofs about bit_count. *)
From Verif Require Import AuxN SpecBits M_bitcount.
Local Open Scope N_scope.

(* little-endian byte lists *)
Fixpoint ofb (l : list N) : N := match l with [] => 0 | b :: l => b + 2 ^ 8 * ofb l end.
Definition bytesok (l : list N) := Forall (fun b => b < 2 ^ 8) l.
Definition R (k : nat) : N := ofb (repeat 1 k).
Definition sumb (l : list N) : N := fold_right N.add 0 l.

Lemma pow_bytes k : 2 ^ (8 * N.of_nat (S k)) = 2 ^ 8 * 2 ^ (8 * N.of_nat k).
Proof. rewrite <- N.pow_add_r. f_equal. lia. Qed.

Lemma ofb_lt l : bytesok l -> ofb l < 2 ^ (8 * N.of_nat (length l)).
Proof.
  induction 1 as [|b l Hb Hl IH]; [cbn; lia|].
  cbn [length ofb]. rewrite pow_bytes.
  pose proof (pow2_pos (8 * N.of_nat (length l))). nia.
Qed.

Lemma to_bytes k : forall v, v < 2 ^ (8 * N.of_nat k) ->
  exists l, length l = k /\ bytesok l /\ v = ofb l.
Proof.
  induction k as [|k IH]; intros v Hv.
  - exists []. repeat split; [constructor|]. cbn in *. lia.
  - rewrite pow_bytes in Hv.
    destruct (IH (v / 2 ^ 8)) as (l & Hl & Hok & E).
    { apply N.div_lt_upper_bound; [lia|assumption]. }
    exists (v mod 2 ^ 8 :: l). repeat split.
    + cbn; congruence.
    + constructor; [apply N.mod_lt; lia|assumption].
    + cbn [ofb]. rewrite <- E. pose proof (N.div_mod v (2 ^ 8)). lia.
Qed.

Lemma R_S k : R (S k) = 1 + 2 ^ 8 * R k.
Proof. reflexivity. Qed.

Lemma R_255 k : 255 * R k = 2 ^ (8 * N.of_nat k) - 1.
Proof.
  induction k as [|k IH]; [reflexivity|].
  rewrite R_S, pow_bytes. pose proof (pow2_pos (8 * N.of_nat k)). change (2 ^ 8) with 256. lia.
Qed.

Lemma R_S_high k : R (S k) = R k + 2 ^ (8 * N.of_nat k).
Proof. pose proof (R_255 k). pose proof (pow2_pos (8 * N.of_nat k)). rewrite R_S. change (2 ^ 8) with 256. lia. Qed.

Lemma ofb_repeat c k : ofb (repeat c k) = c * R k.
Proof. unfold R. induction k as [|k IH]; cbn [repeat ofb]; [lia|]. rewrite IH. lia. Qed.

Lemma all_ones_R k : all_ones (N.of_nat k) = 255 * R k.
Proof. unfold all_ones, bits_of. symmetry; apply R_255. Qed.

Lemma mask3 k : all_ones (N.of_nat k) / 3 = ofb (repeat 85 k).
Proof. rewrite all_ones_R, ofb_repeat. replace (255 * R k) with (85 * R k * 3) by lia. apply N.div_mul; lia. Qed.

Lemma mask15 k : wmul (N.of_nat k) (all_ones (N.of_nat k) / 15) 3 = ofb (repeat 51 k).
Proof.
  unfold wmul, bits_of. rewrite all_ones_R, ofb_repeat. replace (255 * R k) with (17 * R k * 15) by lia.
  rewrite N.div_mul by lia. pose proof (R_255 k). pose proof (pow2_pos (8 * N.of_nat k)).
  rewrite N.mod_small by lia. lia.
Qed.

Lemma mask255 k : all_ones (N.of_nat k) / 255 = R k.
Proof. rewrite all_ones_R. replace (255 * R k) with (R k * 255) by lia. apply N.div_mul; lia. Qed.

Lemma mask255_15 k : wmul (N.of_nat k) (all_ones (N.of_nat k) / 255) 15 = ofb (repeat 15 k).
Proof.
  unfold wmul, bits_of. rewrite mask255, ofb_repeat. pose proof (R_255 k). pose proof (pow2_pos (8 * N.of_nat k)).
  rewrite N.mod_small by lia. lia.
Qed.

(* masking a shifted word works byte by byte when the mask byte has no bits above 8-j *)
Lemma land_shift_split b x c y j : j <= 8 -> b < 2 ^ 8 -> c < 2 ^ (8 - j) ->
  N.land (N.shiftr (b + 2 ^ 8 * x) j) (c + 2 ^ 8 * y)
  = N.land (N.shiftr b j) c + 2 ^ 8 * N.land (N.shiftr x j) y.
Proof.
  intros Hj Hb Hc.
  assert (Hc8 : c < 2 ^ 8). { eapply N.lt_le_trans; [exact Hc|]. apply N.pow_le_mono_r; lia. }
  assert (Hl : N.land (N.shiftr b j) c < 2 ^ 8).
  { rewrite N.land_comm. apply land_lt; assumption. }
  apply N_bits_ext; intro i.
  rewrite testbit_split by assumption. rewrite N.land_spec, N.shiftr_spec'.
  rewrite !testbit_split by assumption.
  destruct (N.ltb_spec i 8) as [L|L].
  - rewrite N.land_spec, N.shiftr_spec'.
    destruct (N.ltb_spec (i + j) 8) as [L2|L2]; [reflexivity|].
    rewrite (testbit_small c (8 - j) i) by (assumption || lia). rewrite !andb_false_r. reflexivity.
  - rewrite N.land_spec, N.shiftr_spec'.
    destruct (N.ltb_spec (i + j) 8) as [L2|L2]; [lia|].
    replace (i - 8 + j) with (i + j - 8) by lia. reflexivity.
Qed.

Lemma land_shift_bytes c j l : j <= 8 -> c < 2 ^ (8 - j) -> bytesok l ->
  N.land (N.shiftr (ofb l) j) (ofb (repeat c (length l))) = ofb (map (fun b => N.land (N.shiftr b j) c) l).
Proof.
  intros Hj Hc. induction 1 as [|b l Hb Hl IH]; [cbn; rewrite N.land_0_r; reflexivity|].
  cbn [length repeat ofb map]. rewrite land_shift_split by assumption. rewrite IH. reflexivity.
Qed.

Lemma land_bytes c l : c < 2 ^ 8 -> bytesok l ->
  N.land (ofb l) (ofb (repeat c (length l))) = ofb (map (fun b => N.land b c) l).
Proof.
  intros Hc Hl. pose proof (land_shift_bytes c 0 l) as H.
  rewrite N.shiftr_0_r in H. rewrite H; [reflexivity|lia|exact Hc|exact Hl].
Qed.

(* finite sweep over one byte *)
Definition bytes256 : list N := map N.of_nat (seq 0 256).
Lemma in_bytes256 b : b < 2 ^ 8 -> In b bytes256.
Proof.
  intros H. unfold bytes256. apply in_map_iff. exists (N.to_nat b). split; [lia|].
  apply in_seq. change (2 ^ 8) with 256 in H. lia.
Qed.
Lemma sweep (p : N -> bool) : forallb p bytes256 = true -> forall b, b < 2 ^ 8 -> p b = true.
Proof. intros H b Hb. rewrite forallb_forall in H. apply H, in_bytes256, Hb. Qed.

Definition f1 (b : N) : N := b - N.land (N.shiftr b 1) 85.
Definition f2 (b : N) : N := N.land b 51 + N.land (N.shiftr b 2) 51.
Definition f3 (b : N) : N := N.land (b + N.shiftr b 4) 15.

Lemma f1_ok b : b < 2 ^ 8 -> N.land (N.shiftr b 1) 85 <= b.
Proof.
  intros H. apply N.leb_le. revert b H.
  apply (sweep (fun b => N.land (N.shiftr b 1) 85 <=? b)). vm_compute. reflexivity.
Qed.

Lemma f1_lt b : b < 2 ^ 8 -> f1 b < 2 ^ 8.
Proof. intros H. pose proof (f1_ok b H). unfold f1. lia. Qed.

Definition nibbles4 (b : N) : Prop := N.land b 15 <= 4 /\ N.shiftr b 4 <= 4.

Lemma f2_nib b : b < 2 ^ 8 -> nibbles4 (f2 (f1 b)) /\ f2 (f1 b) < 2 ^ 8.
Proof.
  intros H.
  assert (E : (N.land (f2 (f1 b)) 15 <=? 4) && (N.shiftr (f2 (f1 b)) 4 <=? 4) && (f2 (f1 b) <? 2 ^ 8) = true).
  { revert b H. apply (sweep (fun b => (N.land (f2 (f1 b)) 15 <=? 4) && (N.shiftr (f2 (f1 b)) 4 <=? 4) && (f2 (f1 b) <? 2 ^ 8))).
    vm_compute. reflexivity. }
  apply andb_true_iff in E. destruct E as [E E3]. apply andb_true_iff in E. destruct E as [E1 E2].
  unfold nibbles4. repeat split; lia.
Qed.

Lemma f3_count b : b < 2 ^ 8 -> f3 (f2 (f1 b)) = N.of_nat (particles b 8).
Proof.
  intros H. apply N.eqb_eq. revert b H.
  apply (sweep (fun b => f3 (f2 (f1 b)) =? N.of_nat (particles b 8))). vm_compute. reflexivity.
Qed.

Lemma wsub_exact k a b : b <= a -> a < 2 ^ bits_of k -> wsub k a b = a - b.
Proof.
  intros H1 H2. unfold wsub.
  replace (a + 2 ^ bits_of k - b) with ((a - b) + 1 * 2 ^ bits_of k) by lia.
  rewrite N.mod_add by (apply N.pow_nonzero; lia). apply N.mod_small. lia.
Qed.

Lemma ofb_sub (f : N -> N) (l : list N) : (forall b, b < 2 ^ 8 -> f b <= b) -> bytesok l ->
  ofb (map f l) <= ofb l /\ ofb l - ofb (map f l) = ofb (map (fun b => b - f b) l).
Proof.
  intros Hf. induction 1 as [|b l Hb Hl [IH1 IH2]]; [cbn; lia|].
  cbn [map ofb]. specialize (Hf b Hb). rewrite <- IH2. split; lia.
Qed.

Lemma ofb_add (f g : N -> N) (l : list N) : ofb (map f l) + ofb (map g l) = ofb (map (fun b => f b + g b) l).
Proof. induction l as [|b l IH]; cbn [map ofb]; lia. Qed.

Lemma step1_bytes k l : length l = k -> bytesok l ->
  bc_step1 (N.of_nat k) (ofb l) = ofb (map f1 l) /\ bytesok (map f1 l).
Proof.
  intros Hk Hl. split.
  - unfold bc_step1. rewrite mask3. rewrite <- Hk at 2. rewrite land_shift_bytes; [|lia|cbn; lia|assumption].
    destruct (ofb_sub (fun b => N.land (N.shiftr b 1) 85) l f1_ok Hl) as [H1 H2].
    rewrite wsub_exact; [exact H2|exact H1|].
    unfold bits_of. rewrite <- Hk. apply ofb_lt; assumption.
  - apply Forall_map. eapply Forall_impl; [|exact Hl]. intros b Hb; apply f1_lt; assumption.
Qed.

Lemma step2_bytes k l : length l = k -> bytesok l -> bytesok (map f2 l) ->
  bc_step2 (N.of_nat k) (ofb l) = ofb (map f2 l).
Proof.
  intros Hk Hl Hl2. unfold bc_step2. rewrite mask15. rewrite <- Hk at 2 3.
  rewrite land_bytes by (cbn; lia || assumption).
  rewrite land_shift_bytes; [|lia|cbn; lia|assumption].
  unfold wadd. rewrite ofb_add. apply N.mod_small.
  unfold bits_of. rewrite <- Hk, <- (map_length f2 l). apply ofb_lt. exact Hl2.
Qed.

Lemma sum_shift4 l : bytesok l -> Forall nibbles4 l ->
  exists l', length l' = length l /\ bytesok l' /\
    ofb l + N.shiftr (ofb l) 4 = ofb l' /\
    map (fun b => N.land b 15) l' = map f3 l.
Proof.
  induction 1 as [|b l Hb Hl IH]; intros Hn.
  - exists []. repeat split; constructor.
  - inversion Hn as [|? ? [Hn1 Hn2] Hn' E1]; subst.
    destruct (IH Hn') as (l' & Hlen & Hok & E & Em).
    exists (b + N.shiftr b 4 + 16 * (ofb l mod 16) :: l').
    assert (Hm : ofb l mod 16 <= 4).
    { destruct l as [|b2 l2]; [cbn; lia|].
      inversion Hn' as [|? ? [Ha Hb2] ? E1]; subst.
      assert (Hm : ofb (b2 :: l2) mod 16 = N.land b2 15); [|rewrite Hm; exact Ha].
      change 15 with (N.ones 4). rewrite N.land_ones. cbn [ofb].
      change (2 ^ 4) with 16. replace (2 ^ 8 * ofb l2) with (16 * ofb l2 * 16) by (change (2 ^ 8) with 256; lia).
      rewrite N.mod_add by lia. reflexivity. }
    assert (Hb4 : b = N.land b 15 + 16 * N.shiftr b 4).
    { change 15 with (N.ones 4). rewrite N.land_ones, N.shiftr_div_pow2. change (2 ^ 4) with 16.
      pose proof (N.div_mod b 16). lia. }
    repeat split.
    + cbn; congruence.
    + constructor; [|assumption]. change (2 ^ 8) with 256. lia.
    + cbn [ofb]. rewrite <- E. rewrite !N.shiftr_div_pow2. change (2 ^ 4) with 16. change (2 ^ 8) with 256.
      replace (b + 256 * ofb l) with (b + (16 * ofb l) * 16) by lia.
      rewrite N.div_add by lia. pose proof (N.div_mod (ofb l) 16). lia.
    + cbn [map]. rewrite Em. f_equal. unfold f3. change 15 with (N.ones 4). rewrite !N.land_ones.
      change (2 ^ 4) with 16.
      replace (b + N.shiftr b 4 + 16 * (ofb l mod 16)) with (b + N.shiftr b 4 + (ofb l mod 16) * 16) by lia.
      rewrite N.mod_add by lia. reflexivity.
Qed.

Lemma step3_bytes k l : length l = k -> bytesok l -> Forall nibbles4 l ->
  bc_step3 (N.of_nat k) (ofb l) = ofb (map f3 l).
Proof.
  intros Hk Hl Hn. unfold bc_step3. rewrite mask255_15.
  destruct (sum_shift4 l Hl Hn) as (l' & Hlen & Hok & E & Em).
  unfold wadd. rewrite E, N.mod_small.
  - rewrite <- Hk, <- Hlen. rewrite land_bytes by (cbn; lia || assumption). rewrite Em. reflexivity.
  - unfold bits_of. rewrite <- Hk, <- Hlen. apply ofb_lt; assumption.
Qed.

Lemma mult_R b l : exists hi lo,
  ofb (b :: l) * R (S (length l)) =
    lo + 2 ^ (8 * N.of_nat (length l)) * (sumb (b :: l)) + 2 ^ (8 * N.of_nat (S (length l))) * hi /\
  lo <= sumb (b :: l) * R (length l).
Proof.
  revert b. induction l as [|c l IH]; intros b.
  - exists 0, 0. unfold sumb; cbn [length ofb fold_right]. change (R 1) with 1. change (R 0) with 0.
    change (2 ^ (8 * N.of_nat 0)) with 1. split; lia.
  - destruct (IH c) as (hi & lo & E & Hlo).
    exists (hi + ofb (c :: l)), (b * R (S (length l)) + 2 ^ 8 * lo).
    set (k := length l) in *. set (X := ofb (c :: l)) in *. cbn [length ofb]. fold k. change (c + 2 ^ 8 * ofb l) with X.
    cbn [sumb fold_right] in *. fold (sumb l) in *.
    split.
    + rewrite (R_S_high (S k)).
      rewrite N.mul_add_distr_l. rewrite (N.mul_add_distr_r b (2 ^ 8 * X) (R (S k))).
      rewrite <- N.mul_assoc. rewrite E.
      rewrite (pow_bytes (S k)), (pow_bytes k). change (2 ^ 8) with 256.
      set (P := 2 ^ (8 * N.of_nat k)). set (r := R (S k)). ring.
    + rewrite (R_S k). rewrite R_S in *. change (2 ^ 8) with 256 in *. nia.
Qed.

Lemma step4_bytes l : l <> [] -> sumb l < 256 ->
  bc_step4 (N.of_nat (length l)) (ofb l) = sumb l.
Proof.
  intros Hne Hs. destruct l as [|b l]; [congruence|]. clear Hne.
  unfold bc_step4, wmul, bits_of. rewrite mask255.
  destruct (mult_R b l) as (hi & lo & E & Hlo).
  change (length (b :: l)) with (S (length l)). rewrite E.
  set (k := length l) in *. set (S0 := sumb (b :: l)) in *.
  pose proof (R_255 k) as HR. pose proof (pow2_pos (8 * N.of_nat k)) as HP.
  rewrite (pow_bytes k).
  replace ((N.of_nat (S k) - 1) * 8) with (8 * N.of_nat k) by lia.
  set (P := 2 ^ (8 * N.of_nat k)) in *.
  assert (Hlo2 : lo < P) by nia.
  replace (lo + P * S0 + 2 ^ 8 * P * hi) with (lo + P * S0 + hi * (2 ^ 8 * P)) by lia.
  rewrite N.mod_add by (change (2 ^ 8) with 256; lia).
  rewrite N.mod_small by (change (2 ^ 8) with 256; nia).
  rewrite N.shiftr_div_pow2. fold P. replace (lo + P * S0) with (lo + S0 * P) by lia.
  rewrite N.div_add by lia. rewrite N.div_small by assumption. lia.
Qed.

(* counting bits byte by byte *)
Lemma count_upto_ext f g l : (forall i, (i < l)%nat -> f i = g i) -> count_upto f l = count_upto g l.
Proof.
  induction l as [|l IH]; intros H; cbn [count_upto]; [reflexivity|].
  rewrite (H l) by lia. rewrite IH; [reflexivity|]. intros i Hi; apply H; lia.
Qed.

Lemma count_upto_app f m n :
  count_upto f (m + n) = (count_upto f m + count_upto (fun i => f (m + i)%nat) n)%nat.
Proof.
  induction n as [|n IH]; [rewrite Nat.add_0_r; cbn; lia|].
  rewrite Nat.add_succ_r. cbn [count_upto]. lia.
Qed.

Lemma count_upto_le f l : (count_upto f l <= l)%nat.
Proof. induction l as [|l IH]; cbn [count_upto]; [lia|]. destruct (f l); lia. Qed.

Lemma particles_bytes l : bytesok l ->
  N.of_nat (particles (ofb l) (8 * length l)) = sumb (map (fun b => N.of_nat (particles b 8)) l).
Proof.
  induction 1 as [|b l Hb Hl IH]; [reflexivity|].
  cbn [map sumb fold_right]. fold (sumb (map (fun b => N.of_nat (particles b 8)) l)). rewrite <- IH.
  unfold particles in *. replace (8 * length (b :: l))%nat with (8 + 8 * length l)%nat by (cbn [length]; lia).
  rewrite count_upto_app, Nat2N.inj_add. f_equal.
  - f_equal. apply count_upto_ext. intros i Hi. unfold occupied. cbn [ofb]. rewrite testbit_split by assumption.
    destruct (N.ltb_spec (N.of_nat i) 8); [reflexivity|lia].
  - f_equal. apply count_upto_ext. intros i Hi. unfold occupied. cbn [ofb]. rewrite testbit_split by assumption.
    destruct (N.ltb_spec (N.of_nat (8 + i)) 8); [lia|]. f_equal. lia.
Qed.

Lemma bc_mask_ones k l : l < bits_of k -> bc_mask k l = N.ones l.
Proof.
  intros H. unfold bc_mask. rewrite N.shiftr_shiftr. unfold all_ones. rewrite N.sub_1_r, <- N.ones_equiv.
  apply N_bits_ext; intro i. rewrite N.shiftr_spec'.
  destruct (N.lt_ge_cases i l) as [L|L].
  - rewrite !N.ones_spec_low by lia. reflexivity.
  - rewrite !N.ones_spec_high by lia. reflexivity.
Qed.

Lemma particles_masked v l m : (N.to_nat l <= m)%nat ->
  particles (N.land v (N.ones l)) m = particles v (N.to_nat l).
Proof.
  intros H. unfold particles. replace m with (N.to_nat l + (m - N.to_nat l))%nat by lia.
  rewrite count_upto_app.
  assert (Z : forall n, count_upto (fun i => occupied (N.land v (N.ones l)) (N.to_nat l + i)) n = 0%nat).
  { induction n as [|n IHn]; cbn [count_upto]; [reflexivity|]. rewrite IHn.
    unfold occupied. rewrite N.land_spec, N.ones_spec_high by lia. rewrite andb_false_r. reflexivity. }
  rewrite Z, Nat.add_0_r. apply count_upto_ext. intros i Hi. unfold occupied.
  rewrite N.land_spec, N.ones_spec_low by lia. apply andb_true_r.
Qed.

Lemma bit_count_correct bytes v l :
  l < bits_of bytes -> (particles v (N.to_nat l) <= 255)%nat ->
  bit_count bytes v l = Some (N.of_nat (particles v (N.to_nat l))).
Proof.
  intros Hl Hp. unfold bit_count. rewrite (proj2 (N.ltb_lt _ _) Hl). f_equal.
  rewrite bc_mask_ones by assumption.
  assert (Hv : N.land v (N.ones l) < 2 ^ (8 * N.of_nat (N.to_nat bytes))).
  { rewrite N2Nat.id. rewrite N.land_ones. eapply N.lt_le_trans; [apply N.mod_lt, N.pow_nonzero; lia|].
    apply N.pow_le_mono_r; [lia|]. unfold bits_of in Hl. lia. }
  destruct (to_bytes _ _ Hv) as (bl & Hlen & Hok & E).
  rewrite <- (N2Nat.id bytes). rewrite E.
  destruct (step1_bytes _ bl Hlen Hok) as [E1 Hok1]. rewrite E1.
  assert (Hn2 : Forall nibbles4 (map f2 (map f1 bl))).
  { rewrite map_map. apply Forall_map. eapply Forall_impl; [|exact Hok]. intros b Hb. apply f2_nib; assumption. }
  assert (Hok2 : bytesok (map f2 (map f1 bl))).
  { rewrite map_map. apply Forall_map. eapply Forall_impl; [|exact Hok]. intros b Hb. apply f2_nib; assumption. }
  rewrite step2_bytes; [|rewrite map_length; assumption|assumption|assumption].
  rewrite step3_bytes; [|rewrite !map_length; assumption|assumption|assumption].
  rewrite !map_map.
  assert (Ec : map (fun x => f3 (f2 (f1 x))) bl = map (fun b => N.of_nat (particles b 8)) bl).
  { clear -Hok. induction Hok as [|b l Hb Hl IH]; [reflexivity|]. cbn [map]. rewrite f3_count by assumption. congruence. }
  rewrite Ec.
  assert (Es : sumb (map (fun b => N.of_nat (particles b 8)) bl) = N.of_nat (particles v (N.to_nat l))).
  { rewrite <- particles_bytes by assumption. rewrite <- E. f_equal. apply particles_masked.
    unfold bits_of in Hl. lia. }
  rewrite <- Hlen, <- (map_length (fun b => N.of_nat (particles b 8)) bl).
  rewrite step4_bytes; [exact Es| |rewrite Es; lia].
  intro En. apply map_eq_nil in En. rewrite En in Hlen. cbn in Hlen. unfold bits_of in Hl. lia.
Qed.

Lemma particles_le v l : (particles v l <= l)%nat.
Proof. apply count_upto_le. Qed.
