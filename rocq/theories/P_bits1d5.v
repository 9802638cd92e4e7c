(* Group relations of the one-dimensional bit operations. *)
From Verif Require Import AuxN SpecMaps SpecFermi SpecChain M_bits1d SpecChain1d P_maps P_square P_bits1d P_bits1d4.
Local Open Scope nat_scope.

Definition off (k : kind) (L c : nat) : Prop := c = 0 \/ (k = Spf /\ c = L).
Lemma two_cases k L j : j < sites k L -> exists c i, j = c + i /\ i < L /\ off k L c.
Proof.
  intros H. destruct (Nat.lt_ge_cases j L) as [Hj|Hj]; [exists 0, j; repeat split; [exact Hj|left; reflexivity]|]. exists L, (j - L).
  destruct k; cbn [sites] in H; try lia. repeat split; [lia|lia|right; auto].
Qed.
Lemma off_sites k L c i : off k L c -> i < L -> c + i < sites k L.
Proof. intros [->|[-> ->]] H; [destruct k; cbn [sites]; lia|cbn [sites]; lia]. Qed.
Definition sh (L : nat) (x : Z) (i : nat) : nat := Z.to_nat ((Z.of_nat i - x) mod Z.of_nat L).
Lemma sh_lt L x i : 1 <= L -> sh L x i < L. Proof. intros H. unfold sh. pose proof (Z.mod_pos_bound (Z.of_nat i - x) (Z.of_nat L) ltac:(lia)). lia. Qed.
Lemma sh_nat L x i : 1 <= L -> Z.of_nat (sh L x i) = ((Z.of_nat i - x) mod Z.of_nat L)%Z. Proof. intros H. unfold sh. pose proof (Z.mod_pos_bound (Z.of_nat i - x) (Z.of_nat L) ltac:(lia)). lia. Qed.
Lemma shift_raw L x i : 1 <= L -> i < L -> nth i (chain_shift L x) 0%Z = Z.of_nat (sh L x i).
Proof. intros H Hi. rewrite sh_nat by exact H. unfold chain_shift. rewrite nth_ms by exact Hi. reflexivity. Qed.
Lemma step_nat m j q b : nth j m 0%Z = Z.of_nat q -> step m (j, b) = (q, b).
Proof. intros E. unfold step. cbn [fst snd]. rewrite E, target_nat, flips_nat, xorb_false_r. reflexivity. Qed.
Lemma both_raw L m c i q : length m = L -> i < L -> (c = 0 \/ c = L) -> nth i m 0%Z = Z.of_nat q -> nth (c + i) (both_species L m) 0%Z = Z.of_nat (c + q).
Proof.
  intros Hl Hi Hc E. rewrite both_nth by (try exact Hl; lia). destruct Hc as [-> | ->].
  - destruct (Nat.ltb_spec (0 + i) L); [exact E|lia].
  - destruct (Nat.ltb_spec (L + i) L); [lia|]. replace (L + i - L) with i by lia. rewrite E. lia.
Qed.
Lemma off_c k L c : off k L c -> c = 0 \/ c = L. Proof. intros [->|[_ ->]]; auto. Qed.
Lemma step_shift k L x c i b : 1 <= L -> i < L -> off k L c -> step (shift_map k L x) (c + i, b) = (c + sh L x i, b).
Proof.
  intros H Hi Hc. apply step_nat. destruct k; cbn [shift_map].
  1, 2: destruct Hc as [->|[X _]]; [|discriminate]; apply shift_raw; assumption.
  apply both_raw; [apply shift_len|exact Hi|exact (off_c _ _ _ Hc)|apply shift_raw; assumption].
Qed.
Lemma step_flip k L c i b : i < L -> off k L c -> step (flip_map k L) (c + i, b) = (c + (L - 1 - i), b).
Proof.
  intros Hi Hc. apply step_nat. destruct k; cbn [flip_map].
  1, 2: destruct Hc as [->|[X _]]; [|discriminate]; apply flip_nth; assumption.
  apply both_raw; [unfold chain_flip; rewrite map_length, seq_length; reflexivity|exact Hi|exact (off_c _ _ _ Hc)|apply flip_nth; assumption].
Qed.
Definition other (k : kind) (L c : nat) : nat := match k with Spf => L - c | _ => c end.
Definition tog (k : kind) (b : bool) : bool := match k with Spf => b | _ => negb b end.
Lemma step_sub L p i b : i < L -> step (chain_inv L p) (i, b) = (i, xorb b (p i)).
Proof. intros H. unfold step. cbn [fst snd]. rewrite inv_target, inv_flips by exact H. reflexivity. Qed.
Lemma step_inv k L c i b : i < L -> off k L c -> step (inv_map k L) (c + i, b) = (other k L c + i, tog k b).
Proof.
  intros Hi Hc. destruct k; cbn [inv_map other tog].
  1, 2: destruct Hc as [->|[X _]]; [|discriminate]; cbn [Nat.add]; rewrite step_sub by exact Hi; rewrite xorb_true_r; reflexivity.
  apply step_nat. rewrite exch_nth by (destruct (off_c _ _ _ Hc); lia). unfold rot. f_equal. destruct (off_c _ _ _ Hc) as [-> | ->].
  - destruct (Nat.ltb_spec (0 + i) L); lia.
  - destruct (Nat.ltb_spec (L + i) L); lia.
Qed.
Lemma other_off k L c : off k L c -> off k L (other k L c). Proof. intros [->|[-> ->]]; unfold off, other; [destruct k; [left; reflexivity|left; reflexivity|right; split; [reflexivity|lia]]|left; lia]. Qed.
Lemma other_other k L c : off k L c -> other k L (other k L c) = c. Proof. intros [->|[-> ->]]; unfold other; [destruct k|]; lia. Qed.
Lemma tog_tog k b : tog k (tog k b) = b. Proof. destruct k, b; reflexivity. Qed.

Ltac f2 := repeat (apply Forall2_cons || apply Forall2_nil).
Section G.
Variables (w : btype) (k : kind) (L : nat).
Hypothesis SF : states_fit w k L.
Notation G := (good (fermionic k) (levels k) (sites k L)).
Lemma HL1 : 1 <= L. Proof. apply SF. Qed.
Lemma HB2 : (2 <= levels k)%N. Proof. destruct SF as [_ F]. destruct k; cbn [levels]; [lia|apply F|lia]. Qed.
Lemma HF2 : fermionic k = true -> levels k = 2%N. Proof. destruct k; cbn; [reflexivity|discriminate|reflexivity]. Qed.
Lemma good_shift x : (- Z.of_nat L <= x)%Z -> shift_fits w k L x -> G (shift_map k L x) (op_shift w k L x).
Proof. intros Hx H. split; [apply op_shift_acts; assumption|]. destruct (shift_map_perm k L x HL1). auto. Qed.
Lemma good_flip : G (flip_map k L) (op_flip w k L).
Proof. split; [apply op_flip_acts, SF|]. destruct (flip_map_perm k L). auto. Qed.
Lemma good_inv : has_inversion k -> G (inv_map k L) (op_inv w k L).
Proof. intros H. split; [apply op_inv_acts; assumption|]. split; [apply inv_map_perm|]. destruct k as [[|]|b|]; cbn; try discriminate; [destruct H|]. intros _. apply exch_no. Qed.
Lemma sub_sites : has_sublattices k -> sites k L = L /\ fermionic k = false. Proof. destruct k as [[|]|b|]; cbn; intros []; auto. Qed.
Lemma good_A : has_sublattices k -> G (chain_inv L (from_right L 0)) (op_invA w k L).
Proof. intros H. split; [apply op_invA_acts; assumption|]. destruct (sub_sites H) as [E F]. rewrite E. split; [apply inv_perm|congruence]. Qed.
Lemma good_B : has_sublattices k -> G (chain_inv L (from_right L 1)) (op_invB w k L).
Proof. intros H. split; [apply op_invB_acts; assumption|]. destruct (sub_sites H) as [E F]. rewrite E. split; [apply inv_perm|congruence]. Qed.
Lemma sub_inversion : has_sublattices k -> has_inversion k. Proof. destruct k as [[|]|b|]; cbn; auto. Qed.
Lemma unit_fits x : (x = 1 \/ x = -1)%Z -> shift_fits w k L x.
Proof.
  intros Hx. pose proof HL1 as HL. split; [exact SF|]. clear SF. destruct k as [[|]|b|]; auto. destruct (Nat.eq_dec L 1) as [E|E].
  - left. rewrite E. unfold less_than. destruct w; cbn; [lia|lia|exact I].
  - right. destruct Hx as [-> | ->]; [rewrite Z.mod_small by lia; lia|]. replace (-1)%Z with (Z.of_nat L - 1 + (-1) * Z.of_nat L)%Z by lia. rewrite Z.mod_add, Z.mod_small by lia. lia.
Qed.

(* state s of the chain *)
Notation st s := (s < levels k ^ N.of_nat (sites k L))%N.
Lemma walk_repeat x r : forall c i b, off k L c -> i < L -> walk (repeat (shift_map k L x) r) (c + i, b) = (c + sh L (Z.of_nat r * x) i, b).
Proof.
  pose proof HL1 as HL. induction r as [|r IH]; intros c i b Hc Hi.
  - cbn [repeat walk fold_left]. f_equal. f_equal. unfold sh. cbn. rewrite Z.sub_0_r, Z.mod_small by lia. lia.
  - cbn [repeat walk fold_left]. rewrite step_shift by assumption. unfold walk in IH. rewrite IH by (try apply sh_lt; assumption). f_equal. f_equal. apply Nat2Z.inj. rewrite !sh_nat by exact HL.
    rewrite Zminus_mod_idemp_l. f_equal. lia.
Qed.
Lemma Forall2_repeat {X Y} (R : X -> Y -> Prop) x y r : R x y -> Forall2 R (repeat x r) (repeat y r). Proof. intros H. induction r; cbn; constructor; auto. Qed.
Theorem rel_period x r s sg : (- Z.of_nat L <= x)%Z -> shift_fits w k L x -> ((Z.of_nat r * x) mod Z.of_nat L = 0)%Z -> st s -> run_ops (repeat (op_shift w k L x) r) (s, sg) = Some (s, sg).
Proof.
  intros Hx HS Hr Hs. pose proof HL1 as HL. apply (run_id (fermionic k) (levels k) (sites k L) HB2 (repeat (shift_map k L x) r)); [exact HF2|apply Forall2_repeat, good_shift; assumption| |exact Hs].
  intros j Hj. destruct (two_cases k L j Hj) as (c & i & -> & Hi & Hc). rewrite walk_repeat by assumption. f_equal. f_equal. apply Nat2Z.inj. rewrite sh_nat by exact HL. rewrite <- Zminus_mod_idemp_r, Hr, Z.sub_0_r, Z.mod_small; lia.
Qed.
Theorem rel_add x y s sg : (- Z.of_nat L <= x)%Z -> (- Z.of_nat L <= y)%Z -> (- Z.of_nat L <= x + y)%Z -> shift_fits w k L x -> shift_fits w k L y -> shift_fits w k L (x + y) -> st s ->
  exists z, run_ops [op_shift w k L x; op_shift w k L y] (s, sg) = Some z /\ run_ops [op_shift w k L (x + y)] (s, sg) = Some z /\ st (fst z).
Proof.
  intros Hx Hy Hxy Fx Fy Fxy Hs. pose proof HL1 as HL. refine (run_rel (fermionic k) (levels k) (sites k L) HB2 [shift_map k L x; shift_map k L y] _ [shift_map k L (x + y)] _ HF2 _ _ _ s sg Hs); try (f2; apply good_shift; assumption).
  intros j Hj. destruct (two_cases k L j Hj) as (c & i & -> & Hi & Hc). cbn [walk fold_left]. rewrite !step_shift by (try apply sh_lt; assumption). f_equal. f_equal. apply Nat2Z.inj. rewrite !sh_nat by exact HL.
  rewrite Zminus_mod_idemp_l. f_equal. lia.
Qed.
Theorem rel_pp s sg : st s -> run_ops [op_flip w k L; op_flip w k L] (s, sg) = Some (s, sg).
Proof.
  intros Hs. apply (run_id (fermionic k) (levels k) (sites k L) HB2 [flip_map k L; flip_map k L]); [exact HF2|f2; apply good_flip| |exact Hs].
  intros j Hj. destruct (two_cases k L j Hj) as (c & i & -> & Hi & Hc). cbn [walk fold_left]. rewrite !step_flip by (assumption || lia). f_equal. lia.
Qed.
Theorem rel_zz s sg : has_inversion k -> st s -> run_ops [op_inv w k L; op_inv w k L] (s, sg) = Some (s, sg).
Proof.
  intros HI Hs. apply (run_id (fermionic k) (levels k) (sites k L) HB2 [inv_map k L; inv_map k L]); [exact HF2|f2; apply good_inv, HI| |exact Hs].
  intros j Hj. destruct (two_cases k L j Hj) as (c & i & -> & Hi & Hc). cbn [walk fold_left]. rewrite !step_inv by (try apply other_off; assumption). rewrite other_other, tog_tog by exact Hc. reflexivity.
Qed.
Theorem rel_ptp x s sg : (- Z.of_nat L <= x <= Z.of_nat L)%Z -> shift_fits w k L x -> shift_fits w k L (- x) -> st s ->
  exists z, run_ops [op_flip w k L; op_shift w k L x; op_flip w k L] (s, sg) = Some z /\ run_ops [op_shift w k L (- x)] (s, sg) = Some z /\ st (fst z).
Proof.
  intros Hx Fx Fy Hs. pose proof HL1 as HL. refine (run_rel (fermionic k) (levels k) (sites k L) HB2 [flip_map k L; shift_map k L x; flip_map k L] _ [shift_map k L (- x)] _ HF2 _ _ _ s sg Hs); try (f2; try apply good_flip; apply good_shift; (assumption || lia)).
  intros j Hj. destruct (two_cases k L j Hj) as (c & i & -> & Hi & Hc). cbn [walk fold_left]. rewrite step_flip by assumption. rewrite !step_shift by (assumption || lia). rewrite step_flip by (try apply sh_lt; assumption). f_equal. f_equal.
  apply Nat2Z.inj. rewrite sh_nat by exact HL. pose proof (sh_lt L x (L - 1 - i) HL). rewrite Nat2Z.inj_sub by lia. rewrite sh_nat by exact HL. replace (Z.of_nat (L - 1)) with (Z.of_nat L - 1)%Z by lia. replace (Z.of_nat (L - 1 - i)) with (Z.of_nat L - 1 - Z.of_nat i)%Z by lia.
  set (a := (Z.of_nat L - 1 - Z.of_nat i - x)%Z). replace (Z.of_nat i - - x)%Z with (Z.of_nat L - 1 - a)%Z by lia. clearbody a. rewrite <- (Zminus_mod_idemp_r (Z.of_nat L - 1) a). rewrite (Z.mod_small (Z.of_nat L - 1 - _)); [reflexivity|]. pose proof (Z.mod_pos_bound a (Z.of_nat L) ltac:(lia)). lia.
Qed.
Theorem rel_zt x s sg : has_inversion k -> (- Z.of_nat L <= x)%Z -> shift_fits w k L x -> st s ->
  exists z, run_ops [op_inv w k L; op_shift w k L x] (s, sg) = Some z /\ run_ops [op_shift w k L x; op_inv w k L] (s, sg) = Some z /\ st (fst z).
Proof.
  intros HI Hx Fx Hs. pose proof HL1 as HL. refine (run_rel (fermionic k) (levels k) (sites k L) HB2 [inv_map k L; shift_map k L x] _ [shift_map k L x; inv_map k L] _ HF2 _ _ _ s sg Hs); try (f2; try apply (good_inv HI); apply good_shift; assumption).
  intros j Hj. destruct (two_cases k L j Hj) as (c & i & -> & Hi & Hc). cbn [walk fold_left]. rewrite step_inv by assumption. rewrite step_shift by (try apply other_off; assumption). rewrite step_shift by assumption. rewrite step_inv by (try apply sh_lt; assumption). reflexivity.
Qed.
Theorem rel_pz s sg : has_inversion k -> st s ->
  exists z, run_ops [op_flip w k L; op_inv w k L] (s, sg) = Some z /\ run_ops [op_inv w k L; op_flip w k L] (s, sg) = Some z /\ st (fst z).
Proof.
  intros HI Hs. refine (run_rel (fermionic k) (levels k) (sites k L) HB2 [flip_map k L; inv_map k L] _ [inv_map k L; flip_map k L] _ HF2 _ _ _ s sg Hs); try (f2; try apply (good_inv HI); apply good_flip).
  intros j Hj. destruct (two_cases k L j Hj) as (c & i & -> & Hi & Hc). cbn [walk fold_left]. rewrite step_flip by assumption. rewrite !step_inv by (assumption || lia). rewrite step_flip by (try apply other_off; assumption). reflexivity.
Qed.
(* sublattices *)
Lemma sub_case j : has_sublattices k -> j < sites k L -> j < L. Proof. intros H. destruct (sub_sites H) as [-> _]. auto. Qed.
Lemma fr_both i : xorb (from_right L 0 i) (from_right L 1 i) = true.
Proof. unfold from_right. pose proof (Nat.mod_upper_bound (L - 1 - i) 2 ltac:(lia)). destruct ((L - 1 - i) mod 2) as [|[|?]]; [reflexivity|reflexivity|lia]. Qed.
Theorem rel_aa s sg : has_sublattices k -> st s -> run_ops [op_invA w k L; op_invA w k L] (s, sg) = Some (s, sg) /\ run_ops [op_invB w k L; op_invB w k L] (s, sg) = Some (s, sg).
Proof.
  intros HS Hs. split.
  - apply (run_id (fermionic k) (levels k) (sites k L) HB2 [chain_inv L (from_right L 0); chain_inv L (from_right L 0)]); [exact HF2|f2; apply good_A, HS| |exact Hs].
    intros j Hj. apply (sub_case j HS) in Hj. cbn [walk fold_left]. rewrite !step_sub by exact Hj. rewrite xorb_assoc, xorb_nilpotent. reflexivity.
  - apply (run_id (fermionic k) (levels k) (sites k L) HB2 [chain_inv L (from_right L 1); chain_inv L (from_right L 1)]); [exact HF2|f2; apply good_B, HS| |exact Hs].
    intros j Hj. apply (sub_case j HS) in Hj. cbn [walk fold_left]. rewrite !step_sub by exact Hj. rewrite xorb_assoc, xorb_nilpotent. reflexivity.
Qed.
Theorem rel_ab s sg : has_sublattices k -> st s -> exists z, run_ops [op_invA w k L; op_invB w k L] (s, sg) = Some z /\ run_ops [op_inv w k L] (s, sg) = Some z /\ st (fst z).
Proof.
  intros HS Hs. pose proof (good_inv (sub_inversion HS)). pose proof (good_A HS). pose proof (good_B HS).
  refine (run_rel (fermionic k) (levels k) (sites k L) HB2 [chain_inv L (from_right L 0); chain_inv L (from_right L 1)] _ [inv_map k L] _ HF2 _ _ _ s sg Hs); try (f2; assumption).
  intros j Hj. pose proof (sub_case j HS Hj) as Hj'. cbn [walk fold_left]. rewrite !step_sub by exact Hj'. change j with (0 + j) at 4. rewrite step_inv by (try exact Hj'; left; reflexivity). rewrite xorb_assoc, fr_both.
  destruct k as [[|]|b|]; cbn in HS; try destruct HS; reflexivity.
Qed.
Theorem rel_ba s sg : has_sublattices k -> st s -> exists z, run_ops [op_invA w k L; op_invB w k L] (s, sg) = Some z /\ run_ops [op_invB w k L; op_invA w k L] (s, sg) = Some z /\ st (fst z).
Proof.
  intros HS Hs. pose proof (good_A HS). pose proof (good_B HS).
  refine (run_rel (fermionic k) (levels k) (sites k L) HB2 [chain_inv L (from_right L 0); chain_inv L (from_right L 1)] _ [chain_inv L (from_right L 1); chain_inv L (from_right L 0)] _ HF2 _ _ _ s sg Hs); try (f2; assumption).
  intros j Hj. pose proof (sub_case j HS Hj) as Hj'. cbn [walk fold_left]. rewrite !step_sub by exact Hj'. rewrite !xorb_false_l, xorb_comm. reflexivity.
Qed.
(* a shift by an even number of sites preserves the sublattices of an even chain, a shift by an odd number exchanges them *)
Lemma sh_parity x i : Nat.even L = true -> i < L -> forall r, from_right L r (sh L x i) = from_right L (if Z.even x then r else 1 - r) i \/ 2 <= r.
Proof.
  intros HE Hi r. pose proof HL1 as HL. destruct (Nat.le_gt_cases 2 r) as [|Hr]; [auto|left]. unfold from_right.
  pose proof (sh_lt L x i HL) as Hl. pose proof (sh_nat L x i HL) as En. apply Nat.even_spec in HE. destruct HE as [h EL].
  pose proof (Z.div_mod (Z.of_nat i - x) (Z.of_nat L) ltac:(lia)) as D. rewrite <- En in D. set (q := ((Z.of_nat i - x) / Z.of_nat L)%Z) in D. clearbody q. set (u := sh L x i) in *. clearbody u. clear En.
  destruct (Z.even x) eqn:Ex.
  - apply Z.even_spec in Ex. destruct Ex as [y Ey]. f_equal. assert (E : exists z, (Z.of_nat u = Z.of_nat i + 2 * z)%Z) by (exists (- y - Z.of_nat h * q)%Z; nia). destruct E as [z Ez].
    destruct (Nat.le_ge_cases u i). + replace (L - 1 - u) with (L - 1 - i + Z.to_nat (- z) * 2) by lia. rewrite Nat.mod_add by lia. reflexivity.
    + replace (L - 1 - i) with (L - 1 - u + Z.to_nat z * 2) by lia. rewrite Nat.mod_add by lia. reflexivity.
  - rewrite <- Z.negb_odd in Ex. apply negb_false_iff, Z.odd_spec in Ex. destruct Ex as [y Ey]. assert (E : exists z, (Z.of_nat u = Z.of_nat i + 1 + 2 * z)%Z) by (exists (- y - 1 - Z.of_nat h * q)%Z; nia). destruct E as [z Ez].
    assert (M : (L - 1 - u) mod 2 = 1 - (L - 1 - i) mod 2).
    { destruct (Nat.le_ge_cases u i).
      - replace (L - 1 - u) with (L - 1 - i + 1 + Z.to_nat (- z - 1) * 2) by lia. rewrite Nat.mod_add by lia. rewrite Nat.add_mod by lia. pose proof (Nat.mod_upper_bound (L - 1 - i) 2 ltac:(lia)). destruct ((L - 1 - i) mod 2) as [|[|?]]; [reflexivity|reflexivity|lia].
      - replace (L - 1 - i) with (L - 1 - u + 1 + Z.to_nat z * 2) by lia. rewrite Nat.mod_add by lia. rewrite (Nat.add_mod (L - 1 - u)) by lia. pose proof (Nat.mod_upper_bound (L - 1 - u) 2 ltac:(lia)). destruct ((L - 1 - u) mod 2) as [|[|?]]; [reflexivity|reflexivity|lia]. }
    rewrite M. pose proof (Nat.mod_upper_bound (L - 1 - i) 2 ltac:(lia)). destruct ((L - 1 - i) mod 2) as [|[|?]], r as [|[|?]]; try reflexivity; lia.
Qed.
Theorem rel_ta x s sg : has_sublattices k -> Nat.even L = true -> (- Z.of_nat L <= x)%Z -> shift_fits w k L x -> st s ->
  exists z, run_ops [op_invA w k L; op_shift w k L x] (s, sg) = Some z /\ run_ops [op_shift w k L x; if Z.even x then op_invA w k L else op_invB w k L] (s, sg) = Some z /\ st (fst z).
Proof.
  intros HS HE Hx Fx Hs. pose proof HL1 as HL. pose proof (good_A HS). pose proof (good_B HS). pose proof (good_shift x Hx Fx).
  refine (run_rel (fermionic k) (levels k) (sites k L) HB2 [chain_inv L (from_right L 0); shift_map k L x] _ [shift_map k L x; chain_inv L (from_right L (if Z.even x then 0 else 1))] _ HF2 _ _ _ s sg Hs).
  - f2; assumption.
  - f2; try assumption; destruct (Z.even x); assumption.
  - intros j Hj. pose proof (sub_case j HS Hj) as Hj'. cbn [walk fold_left]. rewrite step_sub by exact Hj'. change j with (0 + j) at 1 3. rewrite !step_shift by (try exact Hj'; try assumption; left; reflexivity). cbn [Nat.add]. rewrite step_sub by (apply sh_lt, HL). f_equal. f_equal.
    destruct (sh_parity x j HE Hj' (if Z.even x then 0 else 1)) as [E|E]; [rewrite E; destruct (Z.even x); reflexivity|destruct (Z.even x); lia].
Qed.
Theorem rel_pa s sg : has_sublattices k -> st s ->
  exists z, run_ops [op_invA w k L; op_flip w k L] (s, sg) = Some z /\ run_ops [op_flip w k L; if Nat.even L then op_invB w k L else op_invA w k L] (s, sg) = Some z /\ st (fst z).
Proof.
  intros HS Hs. pose proof HL1 as HL. pose proof (good_A HS). pose proof (good_B HS). pose proof good_flip.
  refine (run_rel (fermionic k) (levels k) (sites k L) HB2 [chain_inv L (from_right L 0); flip_map k L] _ [flip_map k L; chain_inv L (from_right L (if Nat.even L then 1 else 0))] _ HF2 _ _ _ s sg Hs).
  - f2; assumption.
  - f2; try assumption; destruct (Nat.even L); assumption.
  - intros j Hj. pose proof (sub_case j HS Hj) as Hj'. cbn [walk fold_left]. rewrite step_sub by exact Hj'. change j with (0 + j) at 1 3. rewrite !step_flip by (try exact Hj'; left; reflexivity). cbn [Nat.add]. rewrite step_sub by lia. f_equal. f_equal. unfold from_right. replace (L - 1 - (L - 1 - j)) with j by lia.
    pose proof (Nat.mod_upper_bound j 2 ltac:(lia)) as U. destruct (Nat.even L) eqn:E.
    + apply Nat.even_spec in E. destruct E as [h E]. destruct (j mod 2) as [|[|?]] eqn:M; [| |lia].
      * apply Nat.mod_divides in M; [|lia]. destruct M as [c M]. replace (L - 1 - j) with (1 + (h - 1 - c) * 2) by lia. rewrite Nat.mod_add by lia. reflexivity.
      * pose proof (Nat.div_mod j 2 ltac:(lia)) as D. replace (L - 1 - j) with (0 + (h - 1 - j / 2) * 2) by lia. rewrite Nat.mod_add by lia. reflexivity.
    + rewrite <- Nat.negb_odd in E. apply negb_false_iff, Nat.odd_spec in E. destruct E as [h E]. destruct (j mod 2) as [|[|?]] eqn:M; [| |lia].
      * apply Nat.mod_divides in M; [|lia]. destruct M as [c M]. replace (L - 1 - j) with (0 + (h - c) * 2) by lia. rewrite Nat.mod_add by lia. reflexivity.
      * pose proof (Nat.div_mod j 2 ltac:(lia)) as D. replace (L - 1 - j) with (1 + (h - 1 - j / 2) * 2) by lia. rewrite Nat.mod_add by lia. reflexivity.
Qed.
End G.
