From Verif Require Import AuxN SpecC SpecExpm SpecLanczos SpecExpect M_expect.
Local Open Scope nat_scope.

Lemma fold_sum {X} (F : X -> C) l : forall z, fold_left (fun acc d => acc + F d)%C l z = (z + Csum l F)%C.
Proof. induction l as [|d l IH]; intros z; cbn [fold_left]; [rewrite Csum_nil; ring|]. rewrite IH, Csum_cons. ring. Qed.
Lemma product_apply H t v i : product H t v i = apply (Ns H) (at_time H t) v i.
Proof.
  unfold product, apply, at_time. set (n := Ns H).
  transitivity (Csum (seq 0 n) (fun j => fixed H i j * v j)%C + Csum (driven H) (fun d => fst d t * Csum (seq 0 n) (fun j => snd d i j * v j)))%C.
  - apply (fold_sum (fun d => fst d t * Csum (seq 0 n) (fun j => snd d i j * v j))%C).
  - transitivity (Csum (seq 0 n) (fun j => fixed H i j * v j)%C + Csum (seq 0 n) (fun j => Csum (driven H) (fun d => fst d t * snd d i j) * v j))%C.
    + f_equal. erewrite (Csum_ext (seq 0 n)); [|intros j _; rewrite <- Csum_mul_r; reflexivity]. rewrite Csum_swap. apply Csum_ext. intros d _. rewrite <- Csum_mul_l.
      apply Csum_ext. intros j _. ring.
    + rewrite <- Csum_add. apply Csum_ext. intros j _. ring.
Qed.

Section Herm.
Variable n : nat.
Implicit Types A B rho : mat.
Lemma inner_ext u u' v v' : (forall i, i < n -> u i = u' i) -> (forall i, i < n -> v i = v' i) -> inner n u v = inner n u' v'.
Proof. intros E F. unfold inner. apply Csum_ext. intros i Hi. apply in_seq in Hi. rewrite E, F by lia. reflexivity. Qed.
Lemma inner_conj u v : Cconj (inner n u v) = inner n v u.
Proof. unfold inner. rewrite Csum_conj. apply Csum_ext. intros i _. rewrite Cconj_mul, Cconj_invol. ring. Qed.
Lemma self_adjoint A u v : hermitian n A -> inner n u (apply n A v) = inner n (apply n A u) v.
Proof.
  intros HA. unfold inner, apply.
  transitivity (Csum (seq 0 n) (fun i => Csum (seq 0 n) (fun j => Cconj (u i) * A i j * v j)))%C.
  { apply Csum_ext. intros i _. rewrite <- Csum_mul_l. apply Csum_ext. intros. ring. }
  rewrite Csum_swap. apply Csum_ext. intros j Hj. apply in_seq in Hj. rewrite Csum_conj, <- Csum_mul_r. apply Csum_ext. intros i Hi. apply in_seq in Hi.
  rewrite Cconj_mul, (HA j i) by lia. ring.
Qed.
Lemma apply_mul A B v i : apply n (mul n A B) v i = apply n A (apply n B v) i.
Proof.
  unfold apply, mul. transitivity (Csum (seq 0 n) (fun j => Csum (seq 0 n) (fun k => A i k * B k j * v j)))%C.
  { apply Csum_ext. intros j _. rewrite <- Csum_mul_r. reflexivity. }
  rewrite Csum_swap. apply Csum_ext. intros k _. rewrite <- Csum_mul_l. apply Csum_ext. intros. ring.
Qed.
Lemma mul_assoc A B (D : mat) i j : mul n (mul n A B) D i j = mul n A (mul n B D) i j.
Proof.
  unfold mul. transitivity (Csum (seq 0 n) (fun k => Csum (seq 0 n) (fun l => A i l * B l k * D k j)))%C.
  { apply Csum_ext. intros j' _. rewrite <- Csum_mul_r. reflexivity. }
  rewrite Csum_swap. apply Csum_ext. intros k _. rewrite <- Csum_mul_l. apply Csum_ext. intros. ring.
Qed.
Lemma tr_cyclic A B : tr n (mul n A B) = tr n (mul n B A).
Proof. unfold tr, mul. rewrite Csum_swap. apply Csum_ext. intros i _. apply Csum_ext. intros. ring. Qed.
Lemma tr_ext A B : (forall i, i < n -> A i i = B i i) -> tr n A = tr n B.
Proof. intros E. unfold tr. apply Csum_ext. intros i Hi. apply in_seq in Hi. apply E. lia. Qed.
Lemma tr_conj A B : hermitian n A -> hermitian n B -> Cconj (tr n (mul n A B)) = tr n (mul n A B).
Proof.
  intros HA HB. rewrite tr_cyclic at 2. unfold tr, mul. rewrite Csum_conj. apply Csum_ext. intros i Hi. apply in_seq in Hi.
  rewrite Csum_conj. apply Csum_ext. intros j Hj. apply in_seq in Hj. rewrite Cconj_mul, (HA j i), (HB i j) by lia. rewrite !Cconj_invol. ring.
Qed.
Lemma conj_real z : Cconj z = z -> snd z = 0%R. Proof. intros H. apply (f_equal snd) in H. cbn in H. lra. Qed.
Lemma real_conj z : snd z = 0%R -> Cconj z = z. Proof. intros H. apply C_eq; cbn; lra. Qed.
Lemma mean_real A s : hermitian n A -> hermitian_state n s -> snd (mean n A s) = 0%R.
Proof.
  intros HA HS. apply conj_real. destruct s as [v|rho]; cbn [mean].
  - rewrite inner_conj. symmetry. apply self_adjoint, HA.
  - apply tr_conj; assumption.
Qed.
Lemma mul_hermitian A : hermitian n A -> hermitian n (mul n A A).
Proof.
  intros HA i j Hi Hj. unfold mul. rewrite Csum_conj. apply Csum_ext. intros k Hk. apply in_seq in Hk. rewrite Cconj_mul, (HA k i), (HA j k) by lia. rewrite !Cconj_invol. ring.
Qed.
Lemma variance_real A s : hermitian n A -> hermitian_state n s -> snd (variance n A s) = 0%R.
Proof.
  intros HA HS. unfold variance. pose proof (mean_real _ s (mul_hermitian A HA) HS). pose proof (mean_real A s HA HS). cbn. rewrite H, H0. ring.
Qed.
(* A - c *)
Definition less (A : mat) (c : C) : mat := fun i j => (A i j - (if i =? j then c else C0))%C.
Lemma less_hermitian A c : hermitian n A -> snd c = 0%R -> hermitian n (less A c).
Proof.
  intros HA Hc i j Hi Hj. unfold less. rewrite (HA i j Hi Hj). rewrite (Nat.eqb_sym j i). destruct (i =? j); apply C_eq; cbn; try rewrite Hc; ring.
Qed.
Lemma norm_pos v : (0 <= fst (inner n v v))%R.
Proof.
  unfold inner. rewrite Csum_fst. unfold Rsum. induction (seq 0 n) as [|i l IH]; cbn [fold_right]; [lra|]. cbn. pose proof (Rle_0_sqr (fst (v i))). pose proof (Rle_0_sqr (snd (v i))). unfold Rsqr in *.
  replace (fst (v i) * fst (v i) - - snd (v i) * snd (v i))%R with (fst (v i) * fst (v i) + snd (v i) * snd (v i))%R by ring. cbn in IH. lra.
Qed.
Lemma delta_sum (f : nat -> C) c i : i < n -> Csum (seq 0 n) (fun j => (if i =? j then c else C0) * f j)%C = (c * f i)%C.
Proof.
  intros Hi. rewrite (Csum_single (seq 0 n) _ i (seq_NoDup _ _)); [rewrite Nat.eqb_refl; reflexivity|apply in_seq; lia|].
  intros x _ Hx. destruct (Nat.eqb_spec i x); [congruence|ring].
Qed.
Lemma apply_less A c v i : i < n -> apply n (less A c) v i = (apply n A v i - c * v i)%C.
Proof.
  intros Hi. unfold apply, less. rewrite <- (delta_sum v c i Hi). transitivity (Csum (seq 0 n) (fun j => A i j * v j + (- C1) * ((if i =? j then c else C0) * v j)))%C.
  - apply Csum_ext. intros. ring.
  - rewrite Csum_add, Csum_mul_l. ring.
Qed.
Lemma mul_less_l A c (D : mat) i j : i < n -> mul n (less A c) D i j = (mul n A D i j - c * D i j)%C.
Proof. intros Hi. exact (apply_less A c (fun k => D k j) i Hi). Qed.
Lemma mean_less A c s : hermitian n A -> normalised_state n s -> c = mean n A s -> mean n (mul n (less A c) (less A c)) s = variance n A s.
Proof.
  intros HA HS Hc. destruct s as [v|rho]; cbn [mean normalised_state] in *.
  - unfold variance. cbn [mean].
    assert (E : forall B : mat, inner n v (apply n (mul n B B) v) = inner n v (apply n B (apply n B v))) by (intros B; apply inner_ext; [reflexivity|]; intros i _; apply apply_mul).
    rewrite !E. transitivity (inner n v (apply n A (apply n A v)) + (- c) * inner n v (apply n A v) + (- c) * (inner n v (apply n A v) + (- c) * inner n v v))%C.
    2: { rewrite HS, Hc. ring. }
    unfold inner at 1.
    transitivity (Csum (seq 0 n) (fun i => Cconj (v i) * apply n A (apply n A v) i + (- c) * (Cconj (v i) * apply n A v i) + (- c) * (Cconj (v i) * apply n A v i + (- c) * (Cconj (v i) * v i))))%C.
    + apply Csum_ext. intros i Hi. apply in_seq in Hi. rewrite apply_less by lia. rewrite apply_less by lia.
      replace (apply n A (apply n (less A c) v) i) with (apply n A (apply n A v) i - c * apply n A v i)%C; [ring|]. unfold apply at 1 3 4.
      transitivity (Csum (seq 0 n) (fun j => A i j * apply n A v j + (- c) * (A i j * v j)))%C; [rewrite Csum_add, Csum_mul_l; ring|].
      apply Csum_ext. intros j Hj. apply in_seq in Hj. rewrite apply_less by lia. ring.
    + rewrite !Csum_add, !Csum_mul_l, !Csum_add, !Csum_mul_l. reflexivity.
  - destruct HS as (_ & HT & _). unfold variance. cbn [mean].
    assert (E : forall B : mat, tr n (mul n (mul n B B) rho) = tr n (mul n B (mul n B rho))) by (intros B; apply tr_ext; intros i _; apply mul_assoc).
    rewrite !E. transitivity (tr n (mul n A (mul n A rho)) + (- c) * tr n (mul n A rho) + (- c) * (tr n (mul n A rho) + (- c) * tr n rho))%C.
    2: { rewrite HT, Hc. ring. }
    transitivity (Csum (seq 0 n) (fun i => mul n A (mul n A rho) i i + (- c) * mul n A rho i i + (- c) * (mul n A rho i i + (- c) * rho i i)))%C.
    + unfold tr. apply Csum_ext. intros i Hi. apply in_seq in Hi. rewrite mul_less_l by lia. rewrite mul_less_l by lia.
      replace (mul n A (mul n (less A c) rho) i i) with (mul n A (mul n A rho) i i - c * mul n A rho i i)%C; [ring|]. unfold mul at 1 3 4.
      transitivity (Csum (seq 0 n) (fun j => A i j * mul n A rho j i + (- c) * (A i j * rho j i)))%C; [rewrite Csum_add, Csum_mul_l; ring|].
      apply Csum_ext. intros j Hj. apply in_seq in Hj. rewrite mul_less_l by lia. ring.
    + unfold tr. rewrite !Csum_add, !Csum_mul_l, !Csum_add, !Csum_mul_l. reflexivity.
Qed.
Lemma square_pos B s : hermitian n B -> normalised_state n s -> (0 <= fst (mean n (mul n B B) s))%R.
Proof.
  intros HB HS. destruct s as [v|rho]; cbn [mean normalised_state] in *.
  - rewrite (inner_ext v v _ (apply n B (apply n B v))) by (intros; try reflexivity; apply apply_mul). rewrite self_adjoint by exact HB. apply norm_pos.
  - destruct HS as (HR & _ & HP). rewrite (tr_ext _ (mul n B (mul n B rho))) by (intros; apply mul_assoc). rewrite tr_cyclic.
    rewrite (tr_ext _ (mul n B (mul n rho B))) by (intros; apply mul_assoc). unfold tr. rewrite Csum_fst.
    assert (E : forall i, i < n -> mul n B (mul n rho B) i i = inner n (fun j => B j i) (apply n rho (fun k => B k i))).
    { intros i Hi. unfold mul at 1, inner. apply Csum_ext. intros j Hj. apply in_seq in Hj. rewrite (HB j i) by lia. reflexivity. }
    assert (G : forall l, (forall i, In i l -> i < n) -> (0 <= Rsum l (fun i => fst (mul n B (mul n rho B) i i)))%R).
    { induction l as [|i l IH]; intros Hl; unfold Rsum; cbn [fold_right]; [lra|]. rewrite E by (apply Hl; left; reflexivity). pose proof (HP (fun j => B j i)). specialize (IH (fun i I => Hl i (or_intror I))). unfold Rsum in IH. lra. }
    apply G. intros i Hi. apply in_seq in Hi. lia.
Qed.
Lemma variance_pos A s : hermitian n A -> hermitian_state n s -> normalised_state n s -> (0 <= fst (variance n A s))%R.
Proof. intros HA HS HN. rewrite <- (mean_less A _ s HA HN eq_refl). apply square_pos; [|exact HN]. apply less_hermitian; [exact HA|]. apply mean_real; assumption. Qed.
End Herm.
