(* The width that get_basis_type chooses. *)
From Verif Require Import AuxN SpecDigits M_conv P_boson P_conv.
Local Open Scope N_scope.

Section G.
Variable B : N.
Hypothesis HB : 2 <= B.
(* all particles as far left as possible *)
Fixpoint greedy (n : nat) (k : N) : N :=
  match n with O => 0 | S n' => if B - 1 <=? k then (B - 1) * B ^ N.of_nat n' + greedy n' (k - (B - 1)) else k * B ^ N.of_nat n' end.
Lemma powpos n : 0 < B ^ n. Proof. apply N.neq_0_lt_0, N.pow_nonzero. lia. Qed.
Lemma pow_S n : B ^ N.of_nat (S n) = B * B ^ N.of_nat n. Proof. rewrite Nat2N.inj_succ, N.pow_succ_r'. reflexivity. Qed.
Lemma top s n : s < B ^ N.of_nat (S n) -> let d := s / B ^ N.of_nat n in let r := s mod B ^ N.of_nat n in s = r + B ^ N.of_nat n * d /\ r < B ^ N.of_nat n /\ d < B /\ digit_sum B s (S n) = digit_sum B r n + d.
Proof.
  intros H d r. pose proof (powpos (N.of_nat n)). assert (E : s = r + B ^ N.of_nat n * d) by (rewrite N.add_comm; apply N.div_mod; lia). assert (R : r < B ^ N.of_nat n) by (apply N.mod_lt; lia).
  assert (D : d < B) by (apply N.div_lt_upper_bound; [lia|]; rewrite N.mul_comm, <- pow_S; exact H). split; [exact E|]. split; [exact R|]. split; [exact D|].
  rewrite E at 1. replace (S n) with (n + 1)%nat by lia. rewrite (digit_sum_split B HB r d n 1 R), (digit_sum_small B HB d 1 D (le_n 1)). reflexivity.
Qed.
Lemma greedy_max n : forall s, s < B ^ N.of_nat n -> s <= greedy n (digit_sum B s n).
Proof.
  induction n as [|n IH]; intros s H; [cbn in *; lia|]. destruct (top s n H) as (E & R & D & S). revert E R D S. set (d := s / B ^ N.of_nat n). set (r := s mod B ^ N.of_nat n). intros E R D S.
  cbn [greedy]. rewrite S. specialize (IH r R). set (P := B ^ N.of_nat n) in *. set (k := digit_sum B r n) in *. rewrite E. destruct (N.leb_spec (B - 1) (k + d)) as [L|L].
  - destruct (N.eq_dec d (B - 1)) as [-> |Dn]; [replace (k + (B - 1) - (B - 1)) with k by lia; nia|]. assert (d + 1 <= B - 1) by lia. clear IH S E. clearbody d r P k. nia.
  - assert (C : k = 0 \/ 1 <= k) by lia. destruct C as [C|C].
    + rewrite C in *. assert (G0 : forall m, greedy m 0 = 0) by (intros m; destruct m; [reflexivity|]; cbn [greedy]; rewrite (proj2 (N.leb_gt _ _)) by lia; lia). rewrite G0 in IH. nia.
    + clear IH S E. clearbody d r P k. nia.
Qed.
Lemma greedy_mono n : forall k k', k <= k' -> greedy n k <= greedy n k'.
Proof.
  induction n as [|n IH]; intros k k' H; [cbn; lia|]. cbn [greedy]. pose proof (powpos (N.of_nat n)). destruct (N.leb_spec (B - 1) k); destruct (N.leb_spec (B - 1) k'); try lia.
  - specialize (IH (k - (B - 1)) (k' - (B - 1)) ltac:(lia)). lia.
  - assert (k * B ^ N.of_nat n <= (B - 1) * B ^ N.of_nat n) by (apply N.mul_le_mono_r; lia). lia.
  - apply N.mul_le_mono_r. exact H.
Qed.
Lemma greedy_in n : forall k, k <= N.of_nat n * (B - 1) -> greedy n k < B ^ N.of_nat n /\ digit_sum B (greedy n k) n = k.
Proof.
  induction n as [|n IH]; intros k H; [cbn in *; lia|]. cbn [greedy]. pose proof (powpos (N.of_nat n)). destruct (N.leb_spec (B - 1) k) as [L|L].
  - destruct (IH (k - (B - 1))) as [I1 I2]; [rewrite Nat2N.inj_succ, N.mul_succ_l in H; lia|]. rewrite pow_S. split; [nia|]. replace (S n) with (n + 1)%nat by lia. rewrite N.add_comm, (N.mul_comm (B - 1)). rewrite (digit_sum_split B HB _ (B - 1) n 1 I1), (digit_sum_small B HB (B - 1) 1) by lia. lia.
  - rewrite pow_S. split; [apply N.mul_lt_mono_pos_r; lia|]. replace (S n) with (n + 1)%nat by lia. rewrite <- (N.add_0_l (k * B ^ N.of_nat n)), (N.mul_comm k). rewrite (digit_sum_split B HB 0 k n 1) by lia. rewrite (digit_sum_small B HB k 1) by lia. rewrite digit_sum_0 by exact HB. lia.
Qed.
Lemma left_shift n l : (l <= n)%nat -> left_sum B (N.of_nat (S n)) (S l) = (B - 1) * B ^ N.of_nat n + left_sum B (N.of_nat n) l.
Proof.
  induction l as [|l IH]; intros H; [cbn [left_sum]; replace (N.of_nat (S n) - 1 - N.of_nat 0) with (N.of_nat n) by lia; lia|].
  change (left_sum B (N.of_nat (S n)) (S (S l))) with (left_sum B (N.of_nat (S n)) (S l) + (B - 1) * B ^ (N.of_nat (S n) - 1 - N.of_nat (S l))). rewrite IH by lia. cbn [left_sum].
  replace (N.of_nat (S n) - 1 - N.of_nat (S l)) with (N.of_nat n - 1 - N.of_nat l) by lia. lia.
Qed.
Lemma greedy_sum n : forall l r, r < B - 1 -> (l < n)%nat -> greedy n (N.of_nat l * (B - 1) + r) = left_sum B (N.of_nat n) l + r * B ^ (N.of_nat n - N.of_nat l - 1).
Proof.
  induction n as [|n IH]; intros l r Hr Hl; [lia|]. cbn [greedy]. destruct l as [|l].
  - cbn [left_sum]. rewrite (proj2 (N.leb_gt _ _)) by lia. replace (N.of_nat (S n) - N.of_nat 0 - 1) with (N.of_nat n) by lia. lia.
  - assert (ES : N.of_nat (S l) * (B - 1) = N.of_nat l * (B - 1) + (B - 1)) by (rewrite Nat2N.inj_succ, N.mul_succ_l; reflexivity). rewrite ES. rewrite (proj2 (N.leb_le (B - 1) (N.of_nat l * (B - 1) + (B - 1) + r))) by (clear; generalize (N.of_nat l * (B - 1)); intros; lia). replace (N.of_nat l * (B - 1) + (B - 1) + r - (B - 1)) with (N.of_nat l * (B - 1) + r) by (clear; generalize (N.of_nat l * (B - 1)); intros; lia). rewrite left_shift by lia. rewrite IH by lia.
    replace (N.of_nat (S n) - N.of_nat (S l) - 1) with (N.of_nat n - N.of_nat l - 1) by lia. lia.
Qed.
Lemma full_sum n : left_sum B (N.of_nat n) n + 1 = B ^ N.of_nat n.
Proof. induction n as [|n IH]; [reflexivity|]. rewrite left_shift by lia. rewrite pow_S. nia. Qed.
End G.
Lemma nbits_det fuel : forall v nb r, nbits_loop fuel v nb = Some r -> r = nb + N.size v.
Proof.
  induction fuel as [|f IH]; intros v nb r; cbn [nbits_loop]; destruct (N.eqb_spec v 0) as [-> |H]; try discriminate; try (intros E; injection E as <-; cbn; lia). intros E. apply IH in E. rewrite (size_shift v H). lia.
Qed.
Lemma to_double_ge s x : to_double s = Some x -> N.size s <= N.size x.
Proof.
  unfold to_double. cbv zeta. destruct (N.leb_spec (N.size s) 53) as [L|L]; [intros E; injection E as <-; lia|]. set (sh := N.size s - 53). set (q := s / 2 ^ sh). match goal with |- context [if ?c then q + 1 else q] => set (q' := if c then q + 1 else q) end.
  destruct (N.leb_spec (2 ^ 1024) (q' * 2 ^ sh)); [discriminate|]. intros E. injection E as <-. assert (Hq : q <= q') by (subst q'; destruct (_ || _); lia).
  assert (Hs : 2 ^ (N.size s - 1) <= s) by (apply N.nlt_ge; rewrite <- size_le; lia).
  assert (Hq2 : 2 ^ 52 <= q). { apply N.div_le_lower_bound; [apply N.pow_nonzero; lia|]. rewrite <- N.pow_add_r. replace (sh + 52) with (N.size s - 1) by lia. exact Hs. }
  assert (Hx : 2 ^ (N.size s - 1) <= q' * 2 ^ sh). { replace (N.size s - 1) with (52 + sh) by lia. rewrite N.pow_add_r. apply N.mul_le_mono_r. lia. }
  assert (H1 : ~ N.size (q' * 2 ^ sh) <= N.size s - 1) by (rewrite size_le; lia). lia.
Qed.
Lemma width_spec nb : match width_of nb with Bt w => In w widths /\ nb <= w /\ (forall w', In w' widths -> nb <= w' -> w <= w') | B_value_error => forall w', In w' widths -> w' < nb | _ => False end.
Proof.
  unfold width_of. repeat match goal with |- context [?a <=? ?b] => destruct (N.leb_spec a b) end; unfold widths; cbn [In];
  try (split; [tauto|split; [assumption|intros w' I Hw; repeat (destruct I as [<- |I]; [lia|]); contradiction]]).
  intros w' I. repeat (destruct I as [<- |I]; [lia|]). contradiction.
Qed.
(* which states a basis can have to represent *)
Definition in_sector (sps : N) (n : nat) (np : npart) (s : N) : Prop :=
  s < sps ^ N.of_nat n /\ match np with NP_none => True | NP_int k => digit_sum sps s n = k | NP_list l => In (digit_sum sps s n) l end.
Lemma max_list_spec l k : max_list l = Some k -> In k l /\ forall x, In x l -> x <= k.
Proof.
  destruct l as [|x l]; [discriminate|]. cbn [max_list]. intros E. injection E as <-.
  assert (G : forall l x, In (fold_left N.max l x) (x :: l) /\ (forall y, In y (x :: l) -> y <= fold_left N.max l x)).
  { clear. induction l as [|y l IH]; intros x; cbn [fold_left]; [split; [left; reflexivity|]; intros y [<- |[]]; lia|]. destruct (IH (N.max x y)) as [A C]. split.
    - destruct A as [A|A]; [|right; right; exact A]. rewrite <- A. destruct (N.max_spec x y) as [[_ ->]|[_ ->]]; [right; left; reflexivity|left; reflexivity].
    - intros z [<- |[<- |I]]; [|  |apply C; right; exact I]; eapply N.le_trans; [|apply C; left; reflexivity| |apply C; left; reflexivity]; lia. }
  apply G.
Qed.
Lemma s_max_ge sps n k s x : 2 < sps -> (1 <= n)%nat -> match k with Some k => k <= N.of_nat n * (sps - 1) | None => True end ->
  s < sps ^ N.of_nat n -> match k with Some k => digit_sum sps s n <= k | None => True end -> s_max sps (N.of_nat n) k = Some x -> N.size s <= N.size x.
Proof.
  intros Hs Hn Hk L D E. assert (HB : 2 <= sps) by lia. assert (Mono : forall a b, a <= b -> N.size a <= N.size b) by (intros a b Hab; apply size_le; apply N.le_lt_trans with b; [exact Hab|]; apply size_le; lia).
  unfold s_max in E. destruct k as [k|]; [|injection E as <-; apply Mono; lia]. cbv zeta in E. set (l := k / (sps - 1)) in *.
  assert (Ek : k = l * (sps - 1) + k mod (sps - 1)) by (rewrite N.mul_comm; apply N.div_mod; lia). assert (Hr : k mod (sps - 1) < sps - 1) by (apply N.mod_lt; lia).
  assert (Hle : s <= greedy sps n k) by (eapply N.le_trans; [apply (greedy_max sps HB n s L)|apply greedy_mono; assumption]).
  destruct (N.leb_spec (l + 1) (N.of_nat n)) as [C|C].
  - injection E as <-. apply Mono. eapply N.le_trans; [exact Hle|]. rewrite Ek at 1. rewrite <- (N2Nat.id l) at 1. rewrite greedy_sum by (try exact HB; try exact Hr; lia). rewrite N2Nat.id. lia.
  - assert (El : l = N.of_nat n) by nia. rewrite El, Nat2N.id in E. apply to_double_ge in E. eapply N.le_trans; [|exact E]. apply Mono. pose proof (full_sum sps HB n). lia.
Qed.
Lemma type_fits fuel n np sps w s : 2 <= sps -> (1 <= n)%nat -> get_basis_type fuel (N.of_nat n) np sps = Bt w -> in_sector sps n np s -> s < 2 ^ w.
Proof.
  intros Hs Hn E [L I]. unfold get_basis_type in E.
  assert (Hnp : exists k, (match np with NP_none => Some None | NP_int k => Some (Some k) | NP_list l => match max_list l with None => None | Some k => Some (Some k) end end) = Some k /\
    match k with Some k => digit_sum sps s n <= k | None => True end /\ k = (match np with NP_none => None | NP_int k => Some k | NP_list l => max_list l end)).
  { destruct np as [|k|l]; [exists None; auto|exists (Some k); split; [reflexivity|split; [lia|reflexivity]]|]. destruct (max_list l) as [k|] eqn:M; [|exfalso; discriminate E]. exists (Some k). split; [reflexivity|]. split; [|reflexivity]. apply (max_list_spec l k M), I. }
  destruct Hnp as (k & Ek & Dk & Kk). rewrite Ek in E. clear Ek Kk.
  destruct (match k with Some k => N.of_nat n * (sps - 1) <? k | None => false end) eqn:T; [discriminate|].
  destruct (N.ltb_spec 2 sps) as [S2|S2].
  - destruct (s_max sps (N.of_nat n) k) as [x|] eqn:SM; [|discriminate]. destruct (nbits_loop fuel x 0) as [nb|] eqn:NB; [|discriminate]. apply nbits_det in NB. rewrite N.add_0_l in NB. subst nb. pose proof (width_spec (N.size x)) as W. rewrite E in W. destruct W as (_ & W & _).
    apply size_le. eapply N.le_trans; [|exact W]. apply (s_max_ge sps n k s x S2 Hn); [|exact L|exact Dk|exact SM]. destruct k as [k|]; [|exact Logic.I]. apply N.ltb_ge in T. exact T.
  - assert (sps = 2) as -> by lia. cbn in E. pose proof (width_spec (N.of_nat n)) as W. unfold N.eqb in E. cbn in E. rewrite E in W. destruct W as (_ & W & _). eapply N.lt_le_trans; [exact L|]. apply N.pow_le_mono_r; [lia|exact W].
Qed.
(* no smaller type would do, unless every site is full *)
Lemma s_max_in sps n k x : 2 < sps -> (1 <= n)%nat -> match k with Some k => k < N.of_nat n * (sps - 1) | None => True end -> s_max sps (N.of_nat n) k = Some x ->
  x < sps ^ N.of_nat n /\ match k with Some k => digit_sum sps x n = k | None => True end.
Proof.
  intros Hs Hn Hk E. assert (HB : 2 <= sps) by lia. unfold s_max in E. destruct k as [k|]; [|injection E as <-; split; [pose proof (powpos sps HB (N.of_nat n)); lia|exact I]]. cbv zeta in E. set (l := k / (sps - 1)) in *.
  assert (Ek : k = l * (sps - 1) + k mod (sps - 1)) by (rewrite N.mul_comm; apply N.div_mod; lia). assert (Hr : k mod (sps - 1) < sps - 1) by (apply N.mod_lt; lia).
  assert (C : l + 1 <= N.of_nat n) by nia. rewrite (proj2 (N.leb_le _ _) C) in E. injection E as <-.
  assert (G : left_sum sps (N.of_nat n) (N.to_nat l) + k mod (sps - 1) * sps ^ (N.of_nat n - l - 1) = greedy sps n k).
  { rewrite Ek at 2. rewrite <- (N2Nat.id l) at 3. rewrite greedy_sum by (try exact HB; try exact Hr; lia). rewrite N2Nat.id. reflexivity. }
  rewrite G. apply greedy_in; [exact HB|lia].
Qed.
Lemma type_smallest fuel n np sps w w' : 2 < sps -> (1 <= n)%nat -> get_basis_type fuel (N.of_nat n) np sps = Bt w ->
  match np with NP_none => True | NP_int k => k < N.of_nat n * (sps - 1) | NP_list l => forall k, In k l -> k < N.of_nat n * (sps - 1) end ->
  In w' widths -> w' < w -> exists s, in_sector sps n np s /\ 2 ^ w' <= s.
Proof.
  intros Hs Hn E Hk I' L'. unfold get_basis_type in E.
  assert (Hnp : exists k, (match np with NP_none => Some None | NP_int k => Some (Some k) | NP_list l => match max_list l with None => None | Some k => Some (Some k) end end) = Some k /\
    match k with Some k => k < N.of_nat n * (sps - 1) | None => True end /\ k = (match np with NP_none => None | NP_int k => Some k | NP_list l => max_list l end) /\
    forall s, s < sps ^ N.of_nat n -> match k with Some k => digit_sum sps s n = k | None => True end -> in_sector sps n np s).
  { destruct np as [|k|l]; [exists None; repeat split; auto|exists (Some k); repeat split; auto|]. destruct (max_list l) as [k|] eqn:M; [|exfalso; discriminate E]. destruct (max_list_spec l k M) as [Ik _]. exists (Some k). repeat split; auto. rewrite H0. exact Ik. }
  destruct Hnp as (k & Ek & Dk & Kk & Sk). rewrite Ek in E. clear Ek Kk.
  destruct (match k with Some k => N.of_nat n * (sps - 1) <? k | None => false end) eqn:T; [discriminate|]. rewrite (proj2 (N.ltb_lt _ _) Hs) in E.
  destruct (s_max sps (N.of_nat n) k) as [x|] eqn:SM; [|discriminate]. destruct (nbits_loop fuel x 0) as [nb|] eqn:NB; [|discriminate]. apply nbits_det in NB. rewrite N.add_0_l in NB. subst nb. pose proof (width_spec (N.size x)) as W. rewrite E in W. destruct W as (_ & W & M).
  destruct (s_max_in sps n k x Hs Hn Dk SM) as [X1 X2]. exists x. split; [apply Sk; assumption|]. apply N.nlt_ge. rewrite <- size_le. intros C. specialize (M w' I' C). lia.
Qed.
