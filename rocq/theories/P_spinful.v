From Verif Require Import AuxN SpecBits SpecSector M_bitcount M_next P_bitcount P_next.
Local Open Scope N_scope.

Lemma pow2_double n : 2 ^ (2 * N.of_nat n) = 2 ^ N.of_nat n * 2 ^ N.of_nat n.
Proof. rewrite <- N.pow_add_r. f_equal. lia. Qed.

Lemma spf_sector_split n ku kd s : in_spf_sector n ku kd s <->
  exists l r, in_sector n ku l /\ in_sector n kd r /\ s = r + 2 ^ N.of_nat n * l.
Proof.
  pose proof (pow2_pos (N.of_nat n)) as HP. unfold in_spf_sector, in_sector. rewrite pow2_double. split.
  - intros (H1 & H2 & H3). exists (s / 2 ^ N.of_nat n), (s mod 2 ^ N.of_nat n).
    repeat split; try assumption.
    + apply N.div_lt_upper_bound; lia.
    + apply N.mod_lt; lia.
    + pose proof (N.div_mod s (2 ^ N.of_nat n)). lia.
  - intros (l & r & [Hl Hkl] & [Hr Hkr] & ->).
    assert (E1 : (r + 2 ^ N.of_nat n * l) / 2 ^ N.of_nat n = l).
    { rewrite (N.mul_comm _ l), N.div_add, N.div_small by lia. lia. }
    assert (E2 : (r + 2 ^ N.of_nat n * l) mod 2 ^ N.of_nat n = r).
    { rewrite (N.mul_comm _ l), N.mod_add, N.mod_small by lia. lia. }
    rewrite E1, E2. repeat split; try assumption. nia.
Qed.

Lemma shiftr_ones w k : k <= w -> N.shiftr (2 ^ w - 1) (w - k) = N.ones k.
Proof.
  intros H. rewrite N.sub_1_r, <- N.ones_equiv. apply N_bits_ext; intro i. rewrite N.shiftr_spec'.
  destruct (N.lt_ge_cases i k).
  - rewrite !N.ones_spec_low by lia. reflexivity.
  - rewrite !N.ones_spec_high by lia. reflexivity.
Qed.

Lemma max_in_sector n k : (k <= n)%nat -> in_sector n k (2 ^ N.of_nat (n - k) * (2 ^ N.of_nat k - 1)).
Proof.
  intros Hk. assert (E : 2 ^ N.of_nat n = 2 ^ N.of_nat (n - k) * 2 ^ N.of_nat k).
  { rewrite <- N.pow_add_r. f_equal. lia. }
  pose proof (pow2_pos (N.of_nat (n - k))). pose proof (pow2_pos (N.of_nat k)). split.
  - rewrite E. nia.
  - replace n with ((n - k) + k)%nat at 2 by lia.
    replace (2 ^ N.of_nat (n - k) * (2 ^ N.of_nat k - 1)) with (0 + 2 ^ N.of_nat (n - k) * (2 ^ N.of_nat k - 1)) by lia.
    rewrite particles_split by assumption. rewrite particles_0, particles_ones. lia.
Qed.

Lemma below_max n k s : in_sector n k s -> s <= 2 ^ N.of_nat (n - k) * (2 ^ N.of_nat k - 1).
Proof.
  intros [Hs <-]. pose proof (particles_le s n) as Hk. set (k := particles s n) in *.
  assert (E : 2 ^ N.of_nat n = 2 ^ N.of_nat (n - k) * 2 ^ N.of_nat k).
  { rewrite <- N.pow_add_r. f_equal. lia. }
  pose proof (particles_upper n s Hs) as Hu. fold k in Hu. pose proof (pow2_pos (N.of_nat k)). nia.
Qed.

Lemma min_in_sector n k : (k <= n)%nat -> in_sector n k (2 ^ N.of_nat k - 1).
Proof.
  intros Hk. pose proof (pow2_pos (N.of_nat k)). split.
  - assert (2 ^ N.of_nat k <= 2 ^ N.of_nat n) by (apply N.pow_le_mono_r; lia). lia.
  - replace n with (k + (n - k))%nat by lia. rewrite particles_extend by lia. apply particles_ones.
Qed.

Lemma above_min n k s : in_sector n k s -> 2 ^ N.of_nat k - 1 <= s.
Proof. intros [Hs <-]. pose proof (particles_lower n s Hs). lia. Qed.

Lemma sector_le_n n k s : in_sector n k s -> (k <= n)%nat.
Proof. intros [_ <-]. apply particles_le. Qed.

Section Spf.
Variables (bytes : N) (n : nat).
Hypothesis Hn : (1 <= n)%nat.
Hypothesis Hw : 2 * N.of_nat n <= bits_of bytes.

Lemma spf_right_val l r : r < 2 ^ N.of_nat n -> spf_right bytes (N.of_nat n) (r + 2 ^ N.of_nat n * l) = r.
Proof.
  intros Hr. unfold spf_right, all_ones. rewrite shiftr_ones by lia. rewrite N.land_comm, N.land_ones.
  pose proof (pow2_pos (N.of_nat n)). rewrite (N.mul_comm _ l), N.mod_add, N.mod_small by lia. reflexivity.
Qed.

Lemma spf_left_val l r : r < 2 ^ N.of_nat n -> spf_left (N.of_nat n) (r + 2 ^ N.of_nat n * l) = l.
Proof.
  intros Hr. unfold spf_left. rewrite N.shiftr_div_pow2. pose proof (pow2_pos (N.of_nat n)).
  rewrite (N.mul_comm _ l), N.div_add, N.div_small by lia. lia.
Qed.

Lemma spf_comb_val l r : l < 2 ^ N.of_nat n -> r < 2 ^ N.of_nat n ->
  spf_comb bytes (N.of_nat n) l r = r + 2 ^ N.of_nat n * l.
Proof.
  intros Hl Hr. unfold spf_comb. rewrite N.shiftl_mul_pow2, N.mod_small; [lia|].
  assert (2 ^ (2 * N.of_nat n) <= 2 ^ bits_of bytes) by (apply N.pow_le_mono_r; lia).
  rewrite pow2_double in H. nia.
Qed.

Lemma spf_minmax_val k r : in_sector n k r -> (k <= 255)%nat ->
  spf_right_min_max bytes (N.of_nat n) r = Some (2 ^ N.of_nat k - 1, 2 ^ N.of_nat (n - k) * (2 ^ N.of_nat k - 1)).
Proof.
  intros Hr Hk. pose proof (sector_le_n _ _ _ Hr) as Hkn. destruct Hr as [Hr Hkr].
  unfold spf_right_min_max. rewrite bit_count_correct.
  - rewrite Nat2N.id, Hkr. destruct (N.eqb_spec (N.of_nat k) 0) as [E|E].
    + assert (k = 0)%nat by lia. subst k. rewrite H. cbn [N.of_nat]. rewrite N.pow_0_r, N.mul_0_r. reflexivity.
    + unfold all_ones. rewrite shiftr_ones by lia. rewrite N.ones_equiv, <- N.sub_1_r. f_equal. f_equal.
      rewrite N.shiftl_mul_pow2, N.mod_small.
      * rewrite N.mul_comm. f_equal. f_equal. lia.
      * pose proof (max_in_sector n k Hkn) as [Hm _].
        replace (N.of_nat n - N.of_nat k) with (N.of_nat (n - k)) by lia. rewrite N.mul_comm.
        eapply N.lt_le_trans; [exact Hm|]. apply N.pow_le_mono_r; lia.
  - lia.
  - rewrite Nat2N.id, Hkr. assumption.
Qed.

Lemma spf_next_is_next ku kd s : (kd <= 255)%nat -> in_spf_sector n ku kd s ->
  (exists u, in_spf_sector n ku kd u /\ s < u) ->
  exists t, spf_next_state_pcon bytes (N.of_nat n) s = Some t /\ is_next (in_spf_sector n ku kd) s t.
Proof.
  intros Hk Hs (u & Hu & Hlt).
  apply spf_sector_split in Hs. destruct Hs as (l & r & Hl & Hr & ->).
  apply spf_sector_split in Hu. destruct Hu as (ul & ur & Hul & Hur & ->).
  pose proof (sector_le_n _ _ _ Hr) as Hkn.
  unfold spf_next_state_pcon. rewrite spf_right_val, spf_left_val by apply Hr.
  rewrite (spf_minmax_val kd) by assumption.
  set (mx := 2 ^ N.of_nat (n - kd) * (2 ^ N.of_nat kd - 1)).
  pose proof (max_in_sector n kd Hkn) as Hmx. fold mx in Hmx.
  set (P := 2 ^ N.of_nat n) in *. assert (HP : 0 < P) by apply pow2_pos.
  destruct (N.ltb_spec r mx) as [L|L].
  - destruct (next_is_next (bits_of bytes) n kd r) as (Hp & Hgt & Hmin); [lia|assumption|exists mx; split; assumption|].
    eexists. split; [reflexivity|]. rewrite spf_comb_val by (apply Hl || apply Hp). fold P.
    split; [|split].
    + apply spf_sector_split. exists l, (next_state_pcon (bits_of bytes) r). repeat split; try apply Hl; try apply Hp.
    + lia.
    + intros v Hv Hgv. apply spf_sector_split in Hv. destruct Hv as (vl & vr & Hvl & Hvr & ->). fold P in Hgv |- *.
      destruct Hr as [Hr0 _]. destruct Hvr as [Hvr0 Hvr1]. destruct Hp as [Hp0 _]. fold P in Hr0, Hvr0, Hp0.
      destruct (N.lt_trichotomy vl l) as [C|[->|C]].
      * exfalso. assert (P * (vl + 1) <= P * l) by (apply N.mul_le_mono_l; lia). lia.
      * assert (next_state_pcon (bits_of bytes) r <= vr) by (apply Hmin; [split; assumption|lia]). lia.
      * assert (P * (l + 1) <= P * vl) by (apply N.mul_le_mono_l; lia). lia.
  - assert (r = mx) by (pose proof (below_max n kd r Hr); unfold mx in *; lia). subst r.
    assert (Hll : l < ul).
    { destruct (N.lt_ge_cases l ul) as [C|C]; [assumption|exfalso].
      pose proof (below_max n kd ur Hur) as Hb. fold mx in Hb.
      destruct (N.eq_dec l ul) as [->|Ne]; [lia|].
      assert (P * (ul + 1) <= P * l) by (apply N.mul_le_mono_l; lia). destruct Hur as [Hur0 _]. fold P in Hur0. lia. }
    destruct (next_is_next (bits_of bytes) n ku l) as (Hp & Hgt & Hmin); [lia|assumption|exists ul; split; assumption|].
    pose proof (min_in_sector n kd Hkn) as Hmn.
    eexists. split; [reflexivity|]. rewrite spf_comb_val by (apply Hp || apply Hmn). fold P.
    split; [|split].
    + apply spf_sector_split. exists (next_state_pcon (bits_of bytes) l), (2 ^ N.of_nat kd - 1).
      repeat split; try apply Hp; try apply Hmn.
    + destruct Hmx as [Hmx0 _]. fold P in Hmx0.
      assert (P * (l + 1) <= P * next_state_pcon (bits_of bytes) l) by (apply N.mul_le_mono_l; lia). lia.
    + intros v Hv Hgv. apply spf_sector_split in Hv. destruct Hv as (vl & vr & Hvl & Hvr & ->). fold P in Hgv |- *.
      pose proof (below_max n kd vr Hvr) as Hb. fold mx in Hb. pose proof (above_min n kd vr Hvr) as Ha.
      destruct Hvr as [Hvr0 _]. fold P in Hvr0.
      assert (Hvl2 : l < vl).
      { destruct (N.lt_trichotomy vl l) as [C|[->|C]]; [|lia|assumption].
        assert (P * (vl + 1) <= P * l) by (apply N.mul_le_mono_l; lia). lia. }
      assert (next_state_pcon (bits_of bytes) l <= vl) by (apply Hmin; assumption).
      assert (P * next_state_pcon (bits_of bytes) l <= P * vl) by (apply N.mul_le_mono_l; lia). lia.
Qed.

Definition spf_list (ku kd : nat) : list N :=
  flat_map (fun l => map (fun r => r + 2 ^ N.of_nat n * l) (sector_list n kd)) (sector_list n ku).

Lemma spf_list_ok ku kd : lists_increasing (in_spf_sector n ku kd) (spf_list ku kd) /\
  length (spf_list ku kd) = (binom n ku * binom n kd)%nat.
Proof.
  destruct (sector_list_ok n ku) as [[Su Iu] Lu]. destruct (sector_list_ok n kd) as [[Sd Id] Ld].
  split; [split|].
  - unfold spf_list.
    assert (G : forall L, StronglySorted N.lt L ->
       StronglySorted N.lt (flat_map (fun l => map (fun r => r + 2 ^ N.of_nat n * l) (sector_list n kd)) L)).
    { induction 1 as [|x L SL IH AL]; cbn [flat_map]; [constructor|].
      apply StronglySorted_app; [|assumption|].
      - eapply StronglySorted_map; [|exact Sd]. intros a c Hac; cbn. lia.
      - intros a c Ha Hc. apply in_map_iff in Ha. destruct Ha as (r & <- & Hr).
        apply in_flat_map in Hc. destruct Hc as (y & Hy & Hc). apply in_map_iff in Hc. destruct Hc as (r' & <- & Hr').
        rewrite Forall_forall in AL. specialize (AL y Hy). apply Id in Hr. destruct Hr as [Hr _].
        assert (2 ^ N.of_nat n * (x + 1) <= 2 ^ N.of_nat n * y) by (apply N.mul_le_mono_l; lia). lia. }
    apply G; assumption.
  - intros s. unfold spf_list. rewrite in_flat_map, spf_sector_split. split.
    + intros (l & Hl & Hs). apply in_map_iff in Hs. destruct Hs as (r & <- & Hr).
      exists l, r. repeat split; try (apply Iu in Hl; apply Hl); apply Id in Hr; apply Hr.
    + intros (l & r & Hl & Hr & ->). exists l. split; [apply Iu; assumption|]. apply in_map_iff.
      exists r. split; [reflexivity|apply Id; assumption].
  - unfold spf_list. rewrite <- Lu, <- Ld. clear. induction (sector_list n ku) as [|x L IH]; [reflexivity|].
    cbn [flat_map]. rewrite app_length, map_length, IH. cbn. lia.
Qed.

Lemma spf_enumeration ku kd : (ku <= n)%nat -> (kd <= n)%nat -> (kd <= 255)%nat ->
  lists_increasing (in_spf_sector n ku kd)
    (visited (fun s => match spf_next_state_pcon bytes (N.of_nat n) s with Some t => t | None => 0 end)
             (binom n ku * binom n kd) (spf_s0_pcon n ku kd)).
Proof.
  intros Hu Hd Hd2. destruct (spf_list_ok ku kd) as [[Hs Hin] Hl].
  rewrite <- Hl. rewrite (visited_lists (in_spf_sector n ku kd)); [split; assumption| | | | |].
  - intros s Hss Hex. destruct (spf_next_is_next ku kd s Hd2 Hss Hex) as (t & -> & Ht). exact Ht.
  - assumption.
  - intros x Hx. apply Hin; assumption.
  - intros x y _ Hy _. apply Hin; assumption.
  - assert (E : spf_s0_pcon n ku kd = (2 ^ N.of_nat kd - 1) + 2 ^ N.of_nat n * (2 ^ N.of_nat ku - 1)).
    { unfold spf_s0_pcon. rewrite !s0_pcon_val, N.shiftl_mul_pow2. lia. }
    rewrite E. apply hd_least; [assumption| |].
    + apply Hin, spf_sector_split. exists (2 ^ N.of_nat ku - 1), (2 ^ N.of_nat kd - 1).
      repeat split; apply min_in_sector; assumption.
    + intros x Hx. apply Hin, spf_sector_split in Hx. destruct Hx as (l & r & Hl' & Hr & ->).
      pose proof (above_min _ _ _ Hl'). pose proof (above_min _ _ _ Hr). nia.
Qed.
End Spf.
