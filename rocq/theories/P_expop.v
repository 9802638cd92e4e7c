(* Lemmas for C60: products of matrices, the generators over a grid. *)
From Verif Require Import AuxN SpecC SpecExpm SpecHam SpecExpop M_block M_expop.
Local Open Scope nat_scope.
Definition Z0 : cmat := fun _ _ => C0.

Section N.
Variable n : nat.
Lemma mul_agree A A' B B' : same n A A' -> (forall i j, i < n -> B i j = B' i j) -> forall i j, i < n -> mat_mul n A B i j = mat_mul n A' B' i j.
Proof. intros HA HB i j Hi. apply Csum_ext. intros k Hk. apply in_seq in Hk. rewrite HA, HB by lia. reflexivity. Qed.
Lemma mul_agree2 A A' B B' j : (forall i k, i < n -> k < n -> A i k = A' i k) -> (forall k, k < n -> B k j = B' k j) -> forall i, i < n -> mat_mul n A B i j = mat_mul n A' B' i j.
Proof. intros HA HB i Hi. apply Csum_ext. intros k Hk. apply in_seq in Hk. rewrite HA, HB by lia. reflexivity. Qed.
Lemma mul_assoc A B X i j : mat_mul n (mat_mul n A B) X i j = mat_mul n A (mat_mul n B X) i j.
Proof.
  unfold mat_mul. rewrite (Csum_ext _ _ (fun k => Csum (seq 0 n) (fun l => A i l * (B l k * X k j)))%C).
  2:{ intros k _. rewrite <- Csum_mul_r. apply Csum_ext. intros. ring. }
  rewrite Csum_swap. apply Csum_ext. intros l _. now rewrite Csum_mul_l.
Qed.
Lemma mul_id X i j : i < n -> mat_mul n identity_mat X i j = X i j.
Proof.
  intro Hi. unfold mat_mul, identity_mat. rewrite (Csum_single (seq 0 n) _ i); [rewrite Nat.eqb_refl; ring|apply seq_NoDup|apply in_seq; lia|].
  intros k _ Hk. destruct (Nat.eqb_spec i k); [congruence|ring].
Qed.
Lemma mul_H A B i j : mat_H (mat_mul n A B) i j = mat_mul n (mat_H B) (mat_H A) i j.
Proof. unfold mat_H, mat_mul. rewrite Csum_conj. apply Csum_ext. intros. rewrite Cconj_mul. ring. Qed.
Variables (K : cmat -> Prop) (E : cmat -> cmat).
Hypothesis L : exponential_on n K E.
Lemma same_scaled t M M' : same n M M' -> same n (scaled t M) (scaled t M').
Proof. intros H i j Hi Hj. unfold scaled, mat_scale. now rewrite H. Qed.

(* --- stepping along a grid --- *)
Section Act.
Variables (act : cmat -> cmat -> cmat) (dom : nat -> nat -> Prop).
Hypothesis act_ext : forall M M' A B, K M -> same n M M' -> (forall i j, dom i j -> A i j = B i j) -> forall i j, dom i j -> act M A i j = act M' B i j.
Hypothesis act_add : forall s t M A, K M -> forall i j, dom i j -> act (scaled s M) (act (scaled t M) A) i j = act (scaled (s + t) M) A i j.
Hypothesis act_zero : forall M A, K M -> forall i j, dom i j -> act (scaled 0 M) A i j = A i j.
Variables (M : cmat) (x : operand).
Hypothesis HM : K M.
Definition is_at (t : R) (y : operand) : Prop := knd y = knd x /\ rows y = rows x /\ cols y = cols x /\ length (parts y) = length (parts x) /\
  forall p, p < length (parts x) -> forall i j, dom i j -> nth p (parts y) Z0 i j = act (scaled t M) (nth p (parts x) Z0) i j.
Lemma nth_parts f (l : list cmat) p : p < length l -> nth p (map f l) Z0 = f (nth p l Z0).
Proof. revert p. induction l as [|y l IH]; intros [|p] H; cbn in *; try lia; [reflexivity|apply IH; lia]. Qed.
Lemma is_at_step M' s t y : same n M M' -> is_at t y -> is_at (s + t) (on_parts (act (scaled s M')) y).
Proof.
  intros HS (H1 & H2 & H3 & H4 & H5). unfold on_parts. repeat (split; [cbn; try rewrite map_length; assumption|]).
  intros p Hp i j Hd. cbn [parts]. rewrite nth_parts by lia. rewrite <- act_add by assumption. symmetry.
  apply act_ext; [now apply (K_scale _ _ _ L)|now apply same_scaled| |exact Hd]. intros i' j' Hd'. symmetry. now apply H5.
Qed.
Lemma is_at_zero : is_at 0 x.
Proof. repeat (split; [reflexivity|]). intros. symmetry. now apply act_zero. Qed.
Lemma steps_at o M' d : same n M M' -> forall m t y, is_at t y -> length (steps (fun M => on_parts (act M)) o (scaled d M') y m) = m /\
  forall k, k < m -> exists z, nth_error (steps (fun M => on_parts (act M)) o (scaled d M') y m) k = Some (o z) /\ is_at (t + INR (S k) * d) z.
Proof.
  intro HS. induction m as [|m IH]; intros t y Hy; [split; [reflexivity|intros; lia]|]. cbn [steps length].
  assert (Hz := is_at_step M' d t y HS Hy). destruct (IH _ _ Hz) as [I1 I2]. split; [now rewrite I1|]. intros [|k] Hk.
  - eexists. split; [reflexivity|]. replace (t + INR 1 * d)%R with (d + t)%R by (cbn; ring). exact Hz.
  - destruct (I2 k) as (z & Ez & Az); [lia|]. exists z. split; [exact Ez|]. replace (t + INR (S (S k)) * d)%R with (d + t + INR (S k) * d)%R; [exact Az|]. rewrite (S_INR (S k)). ring.
Qed.
Lemma iter_at o b d m : 0 < m -> exists l, iter (fun M => on_parts (act M)) o M x d (map (fun k => (b + INR k * d)%R) (seq 0 m)) = Some l /\ length l = m /\
  forall k, k < m -> exists z, nth_error l k = Some (o z) /\ is_at (b + INR k * d) z.
Proof.
  intro Hm. destruct m as [|m]; [lia|]. cbn [seq map iter]. replace (b + INR 0 * d)%R with b by (cbn; ring).
  rewrite map_length, seq_length.
  set (x0 := if Req_EM_T b 0 then x else on_parts (act (scaled b M)) x).
  set (M' := if Req_EM_T b 0 then M else scaled (/ b) (scaled b M)).
  assert (HS : same n M M').
  { unfold M'. destruct (Req_EM_T b 0) as [|Hb]; [intros i j _ _; reflexivity|]. intros i j _ _. unfold scaled, mat_scale.
    transitivity (RtoC (/ b * b) * M i j)%C; [|apply C_eq; cbn; ring]. rewrite Rinv_l by exact Hb. apply C_eq; cbn; ring. }
  assert (H0 : is_at b x0).
  { unfold x0. destruct (Req_EM_T b 0) as [->|Hb]; [exact is_at_zero|]. replace b with (b + 0)%R at 1 by ring. apply is_at_step; [intros i j _ _; reflexivity|exact is_at_zero]. }
  destruct (steps_at o M' d HS m b x0 H0) as [S1 S2]. eexists. split; [reflexivity|]. split; [cbn [length]; now rewrite S1|].
  intros [|k] Hk.
  - exists x0. split; [reflexivity|]. replace (b + INR 0 * d)%R with b by (cbn; ring). exact H0.
  - destruct (S2 k) as (z & Ez & Az); [lia|]. exists z. split; [exact Ez|exact Az].
Qed.
End Act.

(* --- from the left --- *)
Definition left (M A : cmat) : cmat := mat_mul n (E M) A.
Definition rows_in (i j : nat) : Prop := i < n.
Lemma left_ext M M' A B : K M -> same n M M' -> (forall i j, rows_in i j -> A i j = B i j) -> forall i j, rows_in i j -> left M A i j = left M' B i j.
Proof. intros HM HS HB i j Hi. apply mul_agree; [now apply (E_same _ _ _ L)|exact HB|exact Hi]. Qed.
Lemma left_add s t M A : K M -> forall i j, rows_in i j -> left (scaled s M) (left (scaled t M) A) i j = left (scaled (s + t) M) A i j.
Proof.
  intros HM i j Hi. unfold left. rewrite <- mul_assoc. apply mul_agree; [|reflexivity|exact Hi].
  intros i' j' Hi' Hj'. symmetry. now apply (E_add _ _ _ L).
Qed.
Lemma left_zero M A : K M -> forall i j, rows_in i j -> left (scaled 0 M) A i j = A i j.
Proof.
  intros HM i j Hi. transitivity (mat_mul n identity_mat A i j); [|now apply mul_id]. apply mul_agree; [now apply (E_zero _ _ _ L)|reflexivity|exact Hi].
Qed.
(* --- from both sides --- *)
Definition square_in (i j : nat) : Prop := i < n /\ j < n.
Lemma both_eq M A i j : both_sides n E M A i j = mat_mul n (mat_mul n (E M) A) (mat_H (E M)) i j.
Proof.
  unfold both_sides. rewrite mul_H. unfold mat_mul at 1 3. apply Csum_ext. intros k _. f_equal. unfold mat_H. now rewrite Cconj_invol.
Qed.
Lemma both_ext M M' A B : K M -> same n M M' -> (forall i j, square_in i j -> A i j = B i j) -> forall i j, square_in i j -> both_sides n E M A i j = both_sides n E M' B i j.
Proof.
  intros HM HS HB i j [Hi Hj]. rewrite !both_eq. assert (HE := E_same _ _ _ L M M' HM HS).
  apply mul_agree2; [| |exact Hi].
  - intros i' k Hi' Hk. apply mul_agree2; [intros; now apply HE| |exact Hi']. intros l Hl. apply HB. split; assumption.
  - intros k Hk. unfold mat_H. now rewrite HE.
Qed.
Lemma both_add s t M A : K M -> forall i j, square_in i j -> both_sides n E (scaled s M) (both_sides n E (scaled t M) A) i j = both_sides n E (scaled (s + t) M) A i j.
Proof.
  intros HM i j [Hi Hj]. rewrite !both_eq.
  set (S := E (scaled s M)). set (T := E (scaled t M)). set (U := E (scaled (s + t) M)).
  assert (HU : same n U (mat_mul n S T)) by now apply (E_add _ _ _ L).
  transitivity (mat_mul n (mat_mul n S (mat_mul n (mat_mul n T A) (mat_H T))) (mat_H S) i j).
  { apply mul_agree2; [|reflexivity|exact Hi]. intros i' k Hi' Hk. apply mul_agree2; [reflexivity| |exact Hi']. intros l Hl. unfold T. now rewrite both_eq. }
  transitivity (mat_mul n (mat_mul n (mat_mul n S T) A) (mat_H (mat_mul n S T)) i j).
  - transitivity (mat_mul n (mat_mul n (mat_mul n (mat_mul n S T) A) (mat_H T)) (mat_H S) i j).
    + apply mul_agree2; [|reflexivity|exact Hi]. intros i' k Hi' Hk. rewrite <- mul_assoc. apply mul_agree2; [|reflexivity|exact Hi'].
      intros i2 k2 _ _. now rewrite <- mul_assoc.
    + rewrite mul_assoc. apply mul_agree2; [reflexivity| |exact Hi]. intros k Hk. symmetry. apply mul_H.
  - symmetry. apply mul_agree2; [| |exact Hi].
    + intros i' k Hi' Hk. apply mul_agree2; [intros; now apply HU|reflexivity|exact Hi'].
    + intros k Hk. unfold mat_H. now rewrite HU.
Qed.
Lemma both_zero M A : K M -> forall i j, square_in i j -> both_sides n E (scaled 0 M) A i j = A i j.
Proof.
  intros HM i j [Hi Hj]. rewrite both_eq. assert (HZ := E_zero _ _ _ L M HM).
  transitivity (mat_mul n (mat_mul n identity_mat A) (mat_H identity_mat) i j).
  { apply mul_agree2; [| |exact Hi]; [intros i' k Hi' Hk; apply mul_agree2; [intros; now apply HZ|reflexivity|exact Hi']|]. intros k Hk. unfold mat_H. now rewrite HZ. }
  unfold mat_mul at 1. rewrite (Csum_single (seq 0 n) _ j); [|apply seq_NoDup|apply in_seq; lia|].
  - unfold mat_H, identity_mat at 2. rewrite Nat.eqb_refl, mul_id by exact Hi. apply C_eq; cbn; ring.
  - intros k _ Hk. unfold mat_H, identity_mat at 2. destruct (Nat.eqb_spec j k); [congruence|]. apply C_eq; cbn; ring.
Qed.
End N.
