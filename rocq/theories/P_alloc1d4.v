(* The sizes of the arrays: rounding, sizes of sectors. *)
From Verif Require Import AuxN SpecDigits SpecSector SpecMaps SpecFermi SpecChain M_bits1d SpecChain1d SpecCheck1d SpecBlock1d M_hdim M_alloc1d P_boson P_hdim P_period P_op1d M_ops P_alloc1d P_alloc1d2 C39_checks C52_sectors SpecAlloc1d.
From Flocq Require Import Core Relative.
From Coq Require Import Reals Lra.
Local Open Scope R_scope.

Definition ulp1 : R := bpow radix2 (-53).
Lemma ulp_pos : 0 < ulp1 /\ ulp1 <= / 1000000. Proof. unfold ulp1. cbn. lra. Qed.
Lemma float_rel x : bpow radix2 (-1022) <= x -> Rabs (float64 x - x) <= ulp1 * x.
Proof.
  intros H. assert (P : 0 < x) by (pose proof (bpow_gt_0 radix2 (-1022)); lra).
  pose proof (relative_error_N_FLT radix2 (-1074) 53 eq_refl (fun z => negb (Z.even z)) x) as E. rewrite (Rabs_pos_eq x) in E by lra. specialize (E H). unfold float64, ZnearestE. unfold ulp1. replace (bpow radix2 (-53)) with (/ 2 * bpow radix2 (- (53) + 1)); [exact E|]. cbn. lra.
Qed.
Lemma tiny : bpow radix2 (-1022) <= bpow radix2 (-500). Proof. apply bpow_le. lia. Qed.
Lemma float_lo x : bpow radix2 (-1022) <= x -> (1 - ulp1) * x <= float64 x <= (1 + ulp1) * x.
Proof. intros H. pose proof (float_rel x H) as E. apply Rabs_le_inv in E. lra. Qed.
Lemma small_lt x : 1 / 1000000000000000000000000000000 <= x -> bpow radix2 (-1022) <= x.
Proof. intros H. eapply Rle_trans; [|exact H]. apply Rle_trans with (bpow radix2 (-200)); [apply bpow_le; lia|]. cbn. lra. Qed.
Lemma float_b x : 1 / 1000000000000000000000000000000 <= x -> (1 - ulp1) * x <= float64 x <= (1 + ulp1) * x. Proof. intros H. apply float_lo, small_lt, H. Qed.
Lemma float_0 : float64 0 = 0. Proof. unfold float64. apply round_0. apply valid_rnd_N. Qed.

Definition exact (Ns : R) (n : R) : R := (1 + 1 / n) * Ns / n + n.
Definition computed (Ns : R) (n : R) : R := float64 (float64 (float64 (float64 (1 + float64 (1 / n)) * float64 Ns) / n) + n).
(* x is y up to j roundings *)
Definition near (j : nat) (x y : R) : Prop := 0 < y /\ (1 - ulp1) ^ j * y <= x <= (1 + ulp1) ^ j * y.
Lemma lo_pos j : 0 < (1 - ulp1) ^ j <= 1.
Proof. pose proof ulp_pos. induction j as [|j IH]; cbn [pow]; [lra|]. split; [apply Rmult_lt_0_compat; lra|]. apply Rle_trans with (1 * 1); [|lra]. apply Rmult_le_compat; lra. Qed.
Lemma hi_pos j : 1 <= (1 + ulp1) ^ j.
Proof. pose proof ulp_pos. apply pow_R1_Rle. lra. Qed.
Lemma near_pos j x y : near j x y -> 0 < x. Proof. intros (P & L & _). pose proof (lo_pos j) as [Q _]. pose proof (Rmult_lt_0_compat _ _ Q P). lra. Qed.
Lemma lo_half j : (j <= 6)%nat -> 1 / 2 <= (1 - ulp1) ^ j.
Proof.
  intros H. pose proof ulp_pos as [U0 U1]. apply Rle_trans with ((1 - ulp1) ^ 6).
  - unfold ulp1. cbn. lra.
  - replace 6%nat with (j + (6 - j))%nat by lia. rewrite pow_add. pose proof (lo_pos j). pose proof (lo_pos (6 - j)). rewrite <- (Rmult_1_r ((1 - ulp1) ^ j)) at 2. apply Rmult_le_compat_l; lra.
Qed.
Lemma near_float j x y : (j <= 6)%nat -> 2 / 1000000000000000000000000000000 <= y -> near j x y -> near (S j) (float64 x) y.
Proof.
  intros Hj Hy (P & Lo & Hi). pose proof (lo_half j Hj) as Hh. pose proof ulp_pos as [U0 U1]. assert (B : 1 / 1000000000000000000000000000000 <= x). { apply Rle_trans with (1 / 2 * y); [lra|]. eapply Rle_trans; [|exact Lo]. apply Rmult_le_compat_r; lra. }
  destruct (float_b x B) as [F1 F2]. split; [exact P|]. cbn [pow]. rewrite !Rmult_assoc. split; [apply Rle_trans with (2 := F1)|apply Rle_trans with (1 := F2)]; apply Rmult_le_compat_l; lra.
Qed.
Lemma near_mul i j x y x' y' : near i x y -> near j x' y' -> near (i + j) (x * x') (y * y').
Proof.
  intros N1 N2. pose proof (near_pos _ _ _ N1) as X. pose proof (near_pos _ _ _ N2) as X'. destruct N1 as (P & Lo & Hi), N2 as (P' & Lo' & Hi'). split; [apply Rmult_lt_0_compat; assumption|]. rewrite !pow_add. pose proof (lo_pos i). pose proof (lo_pos j).
  replace ((1 - ulp1) ^ i * (1 - ulp1) ^ j * (y * y')) with (((1 - ulp1) ^ i * y) * ((1 - ulp1) ^ j * y')) by ring. replace ((1 + ulp1) ^ i * (1 + ulp1) ^ j * (y * y')) with (((1 + ulp1) ^ i * y) * ((1 + ulp1) ^ j * y')) by ring.
  split; apply Rmult_le_compat; try lra; (apply Rmult_le_pos; lra).
Qed.
Lemma near_refl y : 0 < y -> near 0 y y. Proof. intros P. split; [exact P|]. cbn [pow]. lra. Qed.
Lemma near_add j x y z : 0 <= z -> near j x y -> near j (x + z) (y + z).
Proof. intros Hz (P & Lo & Hi). pose proof (lo_pos j) as [_ A]. pose proof (hi_pos j) as B. split; [lra|]. rewrite !Rmult_plus_distr_l. pose proof (Rmult_le_compat_r z _ _ Hz A). pose proof (Rmult_le_compat_r z _ _ Hz B). lra. Qed.
Lemma computed_bounds Ns n : 1 <= n <= 100000000000000 -> 1 <= Ns -> (1 - 6 * ulp1) * exact Ns n <= computed Ns n <= (1 + 7 * ulp1) * exact Ns n.
Proof.
  intros Hn HN. assert (I1 : 1 / 100000000000000 <= 1 / n). { apply Rmult_le_compat_l; [lra|]. apply Rinv_le_contravar; lra. }
  assert (Pn : 0 < 1 / n) by lra. assert (K1 : near 1 (float64 (1 / n)) (1 / n)) by (apply near_float; [lia|lra|apply near_refl, Pn]).
  assert (K2 : near 2 (float64 (1 + float64 (1 / n))) (1 + 1 / n)). { rewrite (Rplus_comm 1 (float64 _)), (Rplus_comm 1 (1 / n)). apply near_float; [lia|lra|]. apply near_add; [lra|exact K1]. }
  assert (K3 : near 1 (float64 Ns) Ns) by (apply near_float; [lia|lra|apply near_refl; lra]).
  assert (B : 1 <= (1 + 1 / n) * Ns) by (replace 1 with (1 * 1) at 1 by ring; apply Rmult_le_compat; lra).
  assert (K4 : near 4 (float64 (float64 (1 + float64 (1 / n)) * float64 Ns)) ((1 + 1 / n) * Ns)) by (apply near_float; [lia|lra|]; exact (near_mul 2 1 _ _ _ _ K2 K3)).
  assert (B' : 1 / 100000000000000 <= (1 + 1 / n) * Ns * (1 / n)). { replace (1 / 100000000000000) with (1 * (1 / 100000000000000)) by ring. apply Rmult_le_compat; lra. }
  assert (K5 : near 5 (float64 (float64 (float64 (1 + float64 (1 / n)) * float64 Ns) / n)) ((1 + 1 / n) * Ns / n)).
  { replace ((1 + 1 / n) * Ns / n) with ((1 + 1 / n) * Ns * (1 / n)) by (field; lra). apply near_float; [lia|lra|]. replace (float64 (float64 (1 + float64 (1 / n)) * float64 Ns) / n) with (float64 (float64 (1 + float64 (1 / n)) * float64 Ns) * (1 / n)) by (field; lra). exact (near_mul 4 0 _ _ _ _ K4 (near_refl _ Pn)). }
  assert (K6 : near 6 (computed Ns n) (exact Ns n)).
  { unfold computed, exact. apply near_float; [lia| |apply near_add; [lra|exact K5]]. replace ((1 + 1 / n) * Ns / n) with ((1 + 1 / n) * Ns * (1 / n)) by (field; lra). lra. }
  destruct K6 as (P & Lo & Hi). assert (W1 : 1 - 6 * ulp1 <= (1 - ulp1) ^ 6) by (unfold ulp1; cbn; lra). assert (W2 : (1 + ulp1) ^ 6 <= 1 + 7 * ulp1) by (unfold ulp1; cbn; lra).
  split; [eapply Rle_trans; [|exact Lo]|eapply Rle_trans; [exact Hi|]]; apply Rmult_le_compat_r; lra.
Qed.
Lemma estimate_ge (Ns : Z) (n K : nat) : (1 <= n)%nat -> (INR n <= 70368744177664) -> (1 <= Ns)%Z -> (IZR Ns <= 70368744177664) -> INR K + 1 / 4 <= exact (IZR Ns) (INR n) -> (Z.of_nat K <= estimate Ns n)%Z.
Proof.
  intros Hn Bn HN BN H. assert (N1 : 1 <= INR n) by (apply (le_INR 1), Hn). assert (Z1 : 1 <= IZR Ns) by (apply IZR_le, HN). destruct (computed_bounds (IZR Ns) (INR n) ltac:(lra) Z1) as [Lo _].
  assert (Ex : exact (IZR Ns) (INR n) <= 211106232532992).
  { unfold exact. assert (I1 : 1 / INR n <= 1) by (replace 1 with (1 / 1) at 2 by lra; apply Rmult_le_compat_l; [lra|]; apply Rinv_le_contravar; lra). assert (I0 : 0 < / INR n) by (apply Rinv_0_lt_compat; lra). unfold Rdiv in *. rewrite Rmult_1_l in *. set (i := / INR n) in *. assert (Q : (1 + i) * i <= 2 * 1) by (apply Rmult_le_compat; lra). pose proof (Rmult_le_compat_r (IZR Ns) _ _ ltac:(lra) Q). lra. }
  assert (U : 6 * ulp1 * 211106232532992 <= 1 / 4) by (unfold ulp1; cbn; lra). pose proof ulp_pos as [U0 _]. assert (E0 : 0 <= exact (IZR Ns) (INR n)) by (pose proof (pos_INR K); lra).
  assert (G : INR K <= computed (IZR Ns) (INR n)) by (pose proof (Rmult_le_compat_l (6 * ulp1) _ _ ltac:(lra) Ex); lra). unfold estimate. fold (computed (IZR Ns) (INR n)). rewrite Ztrunc_floor by (pose proof (pos_INR K); lra). apply Zfloor_lub. rewrite <- INR_IZR_INZ. exact G.
Qed.
Lemma estimate_lt (Ns : Z) (n : nat) (K : Z) : (1 <= n)%nat -> (INR n <= 70368744177664) -> (1 <= Ns)%Z -> (1 + 7 * ulp1) * exact (IZR Ns) (INR n) < IZR K -> (estimate Ns n < K)%Z.
Proof.
  intros Hn Bn HN H. assert (N1 : 1 <= INR n) by (apply (le_INR 1), Hn). assert (Z1 : 1 <= IZR Ns) by (apply IZR_le, HN). destruct (computed_bounds (IZR Ns) (INR n) ltac:(lra) Z1) as [Lo Hi]. pose proof ulp_pos as [U0 U1].
  assert (E0 : 0 <= exact (IZR Ns) (INR n)). { unfold exact. assert (0 < / INR n) by (apply Rinv_0_lt_compat; lra). unfold Rdiv. assert (0 <= (1 + 1 * / INR n) * IZR Ns * / INR n) by (repeat apply Rmult_le_pos; lra). lra. }
  assert (P : 0 <= computed (IZR Ns) (INR n)) by (apply Rle_trans with (2 := Lo); apply Rmult_le_pos; lra). unfold estimate. fold (computed (IZR Ns) (INR n)). rewrite Ztrunc_floor by exact P. apply lt_IZR. eapply Rle_lt_trans; [apply Zfloor_lb|]. lra.
Qed.

(* ---------- sizes of sectors ---------- *)
Local Open Scope nat_scope.
Lemma nsum_digits B s n m : m <= n -> nsum m (fun i => digit B s (m - 1 - i)) = digit_sum B s m.
Proof.
  intros _. rewrite digit_sum_vals. unfold vals, site_val. transitivity (lsum (map (fun j => digit B s (m - 1 - j)) (seq 0 m))); [|reflexivity].
  generalize (fun j => digit B s (m - 1 - j)). intros f. clear. induction m as [|m IH]; [reflexivity|]. rewrite seq_S, map_app, lsum_app. cbn [nsum map Nat.add]. rewrite IH. unfold lsum at 3. cbn. lia.
Qed.
Lemma number_digits k L s : number k L s = digit_sum (levels k) s (sites k L).
Proof. unfold number. rewrite on_seq. rewrite <- (nsum_digits (levels k) s (sites k L) (sites k L) (le_n _)). apply nsum_ext. intros i _. reflexivity. Qed.
Lemma div_digit s L i : digit 2 (s / 2 ^ N.of_nat L) i = digit 2 s (L + i).
Proof. unfold digit. rewrite N.div_div by (apply N.pow_nonzero; lia). rewrite <- N.pow_add_r. do 3 f_equal. lia. Qed.
Lemma mod_digit s L i : i < L -> digit 2 (s mod 2 ^ N.of_nat L) i = digit 2 s i.
Proof.
  intros H. unfold digit. replace (2 ^ N.of_nat L)%N with (2 ^ N.of_nat i * (2 * 2 ^ N.of_nat (L - i - 1)))%N by (rewrite <- N.pow_succ_r', <- N.pow_add_r; f_equal; lia).
  assert (P1 : (2 ^ N.of_nat i <> 0)%N) by (apply N.pow_nonzero; lia). assert (P2 : (2 ^ N.of_nat (L - i - 1) <> 0)%N) by (apply N.pow_nonzero; lia). rewrite N.mod_mul_r by (try apply N.neq_mul_0; lia || auto).
  rewrite N.add_comm, (N.mul_comm (2 ^ N.of_nat i)), N.div_add_l by exact P1. rewrite (N.div_small (s mod _)) by (apply N.mod_lt, P1). rewrite N.add_0_r, N.mod_mul_r by lia.
  rewrite N.add_mod, N.mul_comm, N.mod_mul, N.add_0_r, !N.mod_mod by lia. reflexivity.
Qed.
Lemma species L s : is_state Spf L s -> ups L s = digit_sum 2 (s / 2 ^ N.of_nat L) L /\ downs L s = digit_sum 2 (s mod 2 ^ N.of_nat L) L.
Proof.
  intros _. unfold ups, downs. rewrite !on_seq. rewrite <- !(nsum_digits 2 _ L L (le_n _)). cbn [levels sites]. split; apply nsum_ext; intros i Hi; unfold site_val.
  - rewrite div_digit. f_equal. lia.
  - rewrite mod_digit by lia. f_equal. lia.
Qed.
Lemma in_bsector B n p s : (2 <= B)%N -> In s (bsector B n p) <-> (s < B ^ N.of_nat n)%N /\ digit_sum B s n = p.
Proof. intros HB. apply (proj2 (bsector_ok B HB n p) s). Qed.
Lemma bsector_size B n p : (2 <= B)%N -> 1 <= n -> Z.of_nat (length (bsector B n p)) = H_dim (N.to_nat p) n (N.to_nat B - 1).
Proof. intros HB Hn. symmetry. apply H_dim_counts; [exact HB|exact Hn|apply bsector_ok, HB]. Qed.
Lemma sector_count k L np l : 1 <= L -> (2 <= levels k)%N -> NoDup l -> (forall s, In s l -> in_number k L np s) -> (Z.of_nat (length l) <= sector_size k L np)%Z.
Proof.
  intros HL HB ND H. assert (Case : k = Spf \/ sites k L = L /\ sector_size k L np = H_dim (fst np) L (N.to_nat (levels k) - 1) /\ forall s, in_number k L np s -> is_state k L s /\ number k L s = N.of_nat (fst np)).
  { destruct k; [right|right|left; reflexivity]; (split; [reflexivity|]; split; [reflexivity|]; intros s Hs; exact Hs). }
  destruct Case as [->|(Es & -> & Hn)].
  - cbn [sector_size levels]. set (A := bsector 2 L (N.of_nat (fst np))). set (D := bsector 2 L (N.of_nat (snd np))).
    assert (Le : length l <= length A * length D).
    { rewrite <- prod_length. rewrite <- (map_length (fun s => (s / 2 ^ N.of_nat L, s mod 2 ^ N.of_nat L)%N) l). assert (P2 : (2 ^ N.of_nat L <> 0)%N) by (apply N.pow_nonzero; lia). apply NoDup_incl_length.
      - apply P_block1d.map_nodup; [|exact ND]. intros x y _ _ E. injection E as E1 E2. rewrite (N.div_mod x _ P2), (N.div_mod y _ P2), E1, E2. reflexivity.
      - intros [a d] I. apply in_map_iff in I. destruct I as (s & E & I). injection E as <- <-. destruct (H s I) as (St & Hu & Hd). destruct (species L s St) as [Su Sd]. cbn [levels sites] in St. apply in_prod_iff. unfold A, D. rewrite !in_bsector by lia. split; (split; [|congruence]).
        + apply N.div_lt_upper_bound; [exact P2|]. rewrite <- N.pow_add_r. eapply N.lt_le_trans; [exact St|]. apply N.pow_le_mono_r; lia.
        + apply N.mod_lt, P2. }
    pose proof (bsector_size 2 L (N.of_nat (fst np)) ltac:(lia) HL) as S1. pose proof (bsector_size 2 L (N.of_nat (snd np)) ltac:(lia) HL) as S2. rewrite Nat2N.id in S1, S2. change (N.to_nat 2 - 1) with 1 in *. rewrite <- S1, <- S2. fold A D. lia.
  - pose proof (bsector_size (levels k) L (N.of_nat (fst np)) HB HL) as S1. rewrite Nat2N.id in S1. rewrite <- S1. apply inj_le. apply NoDup_incl_length; [exact ND|]. intros s Is. apply in_bsector; [exact HB|]. destruct (Hn s (H s Is)) as [St Nu]. rewrite number_digits, Es in Nu. rewrite Es in St. split; assumption.
Qed.
