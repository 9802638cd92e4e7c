(* The evolution over a protocol is linear; with Hermitian Hamiltonians it preserves inner products and is unique. *)
From Verif Require Import AuxN SpecC SpecExpm SpecLanczos SpecExpect SpecFloquet P_expect.
Local Open Scope nat_scope.

Lemma hd_ext f g t d : (forall s, f s = g s) -> has_derivative f t d -> has_derivative g t d.
Proof.
  intros E [H1 H2]. split.
  - intros e He. destruct (H1 e He) as [del Hd]. exists del. intros h Hh Hl. rewrite <- !E. apply Hd; assumption.
  - intros e He. destruct (H2 e He) as [del Hd]. exists del. intros h Hh Hl. rewrite <- !E. apply Hd; assumption.
Qed.
Lemma hd_val f t d d' : d = d' -> has_derivative f t d -> has_derivative f t d'. Proof. now intros ->. Qed.
Lemma hd_const c t : has_derivative (fun _ => c) t C0.
Proof. split; apply derivable_pt_lim_const. Qed.
Lemma hd_add f g t d d' : has_derivative f t d -> has_derivative g t d' -> has_derivative (fun s => f s + g s)%C t (d + d')%C.
Proof.
  intros [H1 H2] [K1 K2]. split; cbn [fst snd Cadd].
  - exact (derivable_pt_lim_plus (fun s => fst (f s)) (fun s => fst (g s)) t _ _ H1 K1).
  - exact (derivable_pt_lim_plus (fun s => snd (f s)) (fun s => snd (g s)) t _ _ H2 K2).
Qed.
Lemma hd_conj f t d : has_derivative f t d -> has_derivative (fun s => Cconj (f s)) t (Cconj d).
Proof.
  intros [H1 H2]. split; cbn [fst snd Cconj]; [exact H1|].
  exact (derivable_pt_lim_opp (fun s => snd (f s)) t _ H2).
Qed.
Lemma hd_mul f g t d d' : has_derivative f t d -> has_derivative g t d' -> has_derivative (fun s => f s * g s)%C t (d * g t + f t * d')%C.
Proof.
  intros [H1 H2] [K1 K2]. split; cbn [fst snd Cmul Cadd].
  - pose proof (derivable_pt_lim_mult (fun s => fst (f s)) (fun s => fst (g s)) t _ _ H1 K1) as M1.
    pose proof (derivable_pt_lim_mult (fun s => snd (f s)) (fun s => snd (g s)) t _ _ H2 K2) as M2.
    pose proof (derivable_pt_lim_minus _ _ t _ _ M1 M2) as M. unfold minus_fct, mult_fct in M.
    replace (fst d * fst (g t) - snd d * snd (g t) + (fst (f t) * fst d' - snd (f t) * snd d'))%R
      with (fst d * fst (g t) + fst (f t) * fst d' - (snd d * snd (g t) + snd (f t) * snd d'))%R by ring. exact M.
  - pose proof (derivable_pt_lim_mult (fun s => fst (f s)) (fun s => snd (g s)) t _ _ H1 K2) as M1.
    pose proof (derivable_pt_lim_mult (fun s => snd (f s)) (fun s => fst (g s)) t _ _ H2 K1) as M2.
    pose proof (derivable_pt_lim_plus _ _ t _ _ M1 M2) as M. unfold plus_fct, mult_fct in M.
    replace (fst d * snd (g t) + snd d * fst (g t) + (fst (f t) * snd d' + snd (f t) * fst d'))%R
      with (fst d * snd (g t) + fst (f t) * snd d' + (snd d * fst (g t) + snd (f t) * fst d'))%R by ring. exact M.
Qed.
Lemma hd_scale c f t d : has_derivative f t d -> has_derivative (fun s => c * f s)%C t (c * d)%C.
Proof. intro H. eapply hd_val; [|apply (hd_mul _ _ _ _ _ (hd_const c t) H)]. ring. Qed.
Lemma hd_sum {X} (l : list X) (f : X -> R -> C) t d : (forall x, In x l -> has_derivative (f x) t (d x)) ->
  has_derivative (fun s => Csum l (fun x => f x s)) t (Csum l d).
Proof.
  induction l as [|x l IH]; intro H; [exact (hd_const C0 t)|].
  apply (hd_ext (fun s => f x s + Csum l (fun x => f x s))%C); [intro; reflexivity|].
  rewrite Csum_cons. apply hd_add; [apply H; now left|apply IH; intros; apply H; now right].
Qed.
(* a function with derivative 0 everywhere is constant *)
Lemma hd_zero f : (forall t, has_derivative f t C0) -> forall x y, f x = f y.
Proof.
  intros H.
  assert (P : forall g : R -> R, (forall t, derivable_pt_lim g t 0%R) -> forall x y, g x = g y).
  { intros g Hg x y.
    pose (pr := fun t => exist (fun l => derivable_pt_abs g t l) 0%R (Hg t) : derivable_pt g t).
    apply (null_derivative_1 g pr). intro z. reflexivity. }
  intros x y. apply C_eq.
  - apply (P (fun s => fst (f s))). intro t. apply H.
  - apply (P (fun s => snd (f s))). intro t. apply H.
Qed.

Section N.
Variable n : nat.

Lemma apply_axpy A c v w k : apply n A (fun j => c * v j + w j)%C k = (c * apply n A v k + apply n A w k)%C.
Proof.
  unfold apply. rewrite <- Csum_mul_l, <- Csum_add. apply Csum_ext. intros. ring.
Qed.
Lemma apply_ext A v w k : (forall j, j < n -> v j = w j) -> apply n A v k = apply n A w k.
Proof. intro E. unfold apply. apply Csum_ext. intros j Hj. apply in_seq in Hj. rewrite E by lia. reflexivity. Qed.

Lemma evolves_zero H T : evolves n H T (fun _ => C0) (fun _ => C0).
Proof.
  exists (fun _ _ => C0). split; [|split; reflexivity].
  intros t k _. eapply hd_val; [|apply hd_const]. unfold apply. rewrite Csum_zero by (intros; ring). ring.
Qed.
Lemma evolves_axpy H T c v w v' w' : evolves n H T v w -> evolves n H T v' w' ->
  evolves n H T (fun k => c * v k + v' k)%C (fun k => c * w k + w' k)%C.
Proof.
  intros (p & S & A & B) (p' & S' & A' & B'). exists (fun t k => c * p t k + p' t k)%C. split; [|split].
  - intros t k Hk. eapply hd_val; [|apply hd_add; [apply hd_scale; apply S; exact Hk|apply S'; exact Hk]].
    rewrite apply_axpy. ring.
  - intros k Hk. rewrite A, A' by exact Hk. reflexivity.
  - intros k Hk. rewrite B, B' by exact Hk. reflexivity.
Qed.
Lemma evolves_ext H T v w v' w' : (forall k, k < n -> v k = v' k) -> (forall k, k < n -> w k = w' k) -> evolves n H T v w -> evolves n H T v' w'.
Proof.
  intros E F (p & S & A & B). exists p. split; [exact S|]. split; intros k Hk; [rewrite <- E|rewrite <- F]; auto.
Qed.
Lemma drives_ext p : forall v w v' w', (forall k, k < n -> v k = v' k) -> (forall k, k < n -> w k = w' k) -> drives n p v w -> drives n p v' w'.
Proof.
  induction p as [|[H T] p IH]; intros v w v' w' E F D; cbn [drives] in *.
  - intros k Hk. rewrite <- F, <- E by exact Hk. now apply D.
  - destruct D as (u & D1 & D2). exists u. split; [apply (evolves_ext H T v u); auto|apply (IH u w); auto].
Qed.
Lemma drives_zero p : drives n p (fun _ => C0) (fun _ => C0).
Proof. induction p as [|[H T] p IH]; cbn [drives]; [reflexivity|]. exists (fun _ => C0). split; [apply evolves_zero|exact IH]. Qed.
Lemma drives_axpy p : forall c v w v' w', drives n p v w -> drives n p v' w' -> drives n p (fun k => c * v k + v' k)%C (fun k => c * w k + w' k)%C.
Proof.
  induction p as [|[H T] p IH]; intros c v w v' w' D D'; cbn [drives] in *.
  - intros k Hk. rewrite D, D' by exact Hk. reflexivity.
  - destruct D as (u & D1 & D2), D' as (u' & D1' & D2'). exists (fun k => c * u k + u' k)%C.
    split; [now apply evolves_axpy|now apply IH].
Qed.
Lemma drives_sum p (l : list nat) (c : nat -> C) (v w : nat -> vec) : (forall i, In i l -> drives n p (v i) (w i)) ->
  drives n p (fun k => Csum l (fun i => c i * v i k)%C) (fun k => Csum l (fun i => c i * w i k)%C).
Proof.
  induction l as [|i l IH]; intro D; [apply drives_zero|].
  apply (drives_ext p (fun k => c i * v i k + Csum l (fun i => c i * v i k))%C (fun k => c i * w i k + Csum l (fun i => c i * w i k))%C);
    [reflexivity|reflexivity|].
  apply drives_axpy; [apply D; now left|apply IH; intros; apply D; now right].
Qed.
Lemma vec_units (v : vec) k : k < n -> Csum (seq 0 n) (fun i => v i * unit_vec i k)%C = v k.
Proof.
  intro Hk. rewrite (Csum_single _ _ k); [|apply seq_NoDup|apply in_seq; lia|].
  - unfold unit_vec, delta. rewrite Nat.eqb_refl. ring.
  - intros i _ Hi. unfold unit_vec, delta. destruct (Nat.eqb_spec i k); [contradiction|ring].
Qed.
(* the rows of a matrix are the evolved basis states: its transpose is the evolution operator *)
Lemma rows_operator p (W : mat) : (forall i, i < n -> drives n p (unit_vec i) (W i)) -> evolution_operator n p (transpose W).
Proof.
  intros D v. apply (drives_ext p (fun k => Csum (seq 0 n) (fun i => v i * unit_vec i k)%C) (fun k => Csum (seq 0 n) (fun i => v i * W i k)%C)).
  - intros k Hk. now apply vec_units.
  - intros k _. unfold apply, transpose. apply Csum_ext. intros. ring.
  - apply drives_sum. intros i Hi. apply in_seq in Hi. apply D. lia.
Qed.

(* inner products are preserved *)
Lemma evolves_inner H T v w v' w' : (forall t, hermitian n (H t)) -> evolves n H T v w -> evolves n H T v' w' -> inner n w w' = inner n v v'.
Proof.
  intros HH (p & S & A & B) (q & S' & A' & B').
  rewrite <- (inner_ext n (p T) w (q T) w') by auto. rewrite <- (inner_ext n (p 0%R) v (q 0%R) v') by auto.
  apply (hd_zero (fun t => inner n (p t) (q t))). intro t. unfold inner.
  eapply hd_val; [|apply (hd_sum _ (fun k s => Cconj (p s k) * q s k)%C t
     (fun k => Cconj (- Ci * apply n (H t) (p t) k) * q t k + Cconj (p t k) * (- Ci * apply n (H t) (q t) k))%C)].
  - pose proof (self_adjoint n (H t) (p t) (q t) (HH t)) as E. unfold inner in E.
    transitivity (Ci * (Csum (seq 0 n) (fun k => Cconj (apply n (H t) (p t) k) * q t k) - Csum (seq 0 n) (fun k => Cconj (p t k) * apply n (H t) (q t) k)))%C; [|rewrite E; ring].
    replace (Csum (seq 0 n) (fun k => Cconj (apply n (H t) (p t) k) * q t k) - Csum (seq 0 n) (fun k => Cconj (p t k) * apply n (H t) (q t) k))%C
      with (Csum (seq 0 n) (fun k => Cconj (apply n (H t) (p t) k) * q t k) + (- C1) * Csum (seq 0 n) (fun k => Cconj (p t k) * apply n (H t) (q t) k))%C by ring.
    rewrite <- Csum_mul_l, <- Csum_add, <- Csum_mul_l. apply Csum_ext. intros k _.
    rewrite Cconj_mul. replace (Cconj (- Ci)) with Ci by (apply C_eq; cbn; ring). ring.
  - intros k Hk. apply in_seq in Hk. apply hd_mul; [apply hd_conj; apply S; lia|apply S'; lia].
Qed.
Lemma drives_inner p : forall v w v' w', hermitian_protocol n p -> drives n p v w -> drives n p v' w' -> inner n w w' = inner n v v'.
Proof.
  induction p as [|[H T] p IH]; intros v w v' w' HP D D'; cbn [drives] in *.
  - apply inner_ext; assumption.
  - destruct D as (u & D1 & D2), D' as (u' & D1' & D2').
    rewrite (IH u w u' w'); [|intros H0 T0 t Hi; apply (HP H0 T0 t); now right|exact D2|exact D2'].
    apply (evolves_inner H T v u v' u'); [|exact D1|exact D1']. intro t. apply (HP H T t). now left.
Qed.

Lemma inner_zero v : inner n v v = C0 -> forall k, k < n -> v k = C0.
Proof.
  intros H k Hk. unfold inner in H. apply (f_equal fst) in H. rewrite Csum_fst in H. cbn [fst C0] in H.
  set (F := fun x => fst (Cconj (v x) * v x)%C) in *.
  assert (F0 : forall x, (F x = fst (v x) * fst (v x) + snd (v x) * snd (v x))%R) by (intro x; unfold F; cbn; ring).
  assert (FN : forall x, (0 <= F x)%R) by (intro x; rewrite F0; nra).
  assert (P : forall l, In k l -> Rsum l F = 0%R -> v k = C0).
  { assert (NN : forall l, (0 <= Rsum l F)%R).
    { intro l. induction l as [|x l IH]; [apply Rle_refl|]. change (Rsum (x :: l) F) with (F x + Rsum l F)%R. pose proof (FN x). lra. }
    induction l as [|x l IH]; [contradiction|]. intros Hi HS. change (Rsum (x :: l) F) with (F x + Rsum l F)%R in HS.
    pose proof (NN l) as N1. pose proof (FN x) as N2.
    destruct Hi as [->|Hi].
    - assert (Z : F k = 0%R) by lra. rewrite F0 in Z. apply C_eq; cbn [fst snd C0]; nra.
    - apply IH; [exact Hi|]. lra. }
  apply (P (seq 0 n)); [apply in_seq; lia|exact H].
Qed.
(* the evolved state is unique *)
Lemma drives_unique p v w w' : hermitian_protocol n p -> drives n p v w -> drives n p v w' -> forall k, k < n -> w k = w' k.
Proof.
  intros HP D D' k Hk.
  pose proof (drives_axpy p (- C1)%C v w v w' D D') as DD.
  assert (E : inner n (fun k => - C1 * w k + w' k)%C (fun k => - C1 * w k + w' k)%C = C0).
  { rewrite (drives_inner p _ _ _ _ HP DD DD). unfold inner. apply Csum_zero. intros. replace (- C1 * v x + v x)%C with C0 by ring. ring. }
  pose proof (inner_zero _ E k Hk) as Z. cbn beta in Z.
  replace (w k) with (w' k - (- C1 * w k + w' k))%C by ring. rewrite Z. ring.
Qed.

Lemma inner_unit i j : i < n -> inner n (unit_vec i) (unit_vec j) = delta i j.
Proof.
  intros Hi. unfold inner. rewrite (Csum_single _ _ i); [|apply seq_NoDup|apply in_seq; lia|].
  - unfold unit_vec, delta. rewrite Nat.eqb_refl, (Nat.eqb_sym j i). destruct (i =? j); apply C_eq; cbn; ring.
  - intros k _ Hk. unfold unit_vec, delta. destruct (Nat.eqb_spec i k); [congruence|]. replace (Cconj C0) with C0 by (apply C_eq; cbn; ring). ring.
Qed.

(* orthonormal rows of a square matrix: orthonormal columns *)
Lemma rows_columns (A : mat) : orthonormal n n (fun i k => A i k) -> orthonormal n n (fun j k => A k j).
Proof.
  intro HR. set (Ad := fun i j => Cconj (A j i)). set (P := mul n Ad A).
  set (I := fun i j => delta i j). set (D := fun i j => (delta i j - P i j)%C).
  assert (HAA : forall i j, i < n -> j < n -> mul n A Ad i j = delta i j).
  { intros i j Hi Hj. unfold mul, Ad. pose proof (HR j i Hj Hi) as E. unfold inner in E.
    replace (delta i j) with (delta j i) by (unfold delta; rewrite Nat.eqb_sym; reflexivity). rewrite <- E. apply Csum_ext. intros. ring. }
  assert (HPP : forall i j, j < n -> mul n P P i j = P i j).
  { intros i j Hj. unfold P. rewrite mul_assoc. unfold mul at 1. unfold mul at 3. apply Csum_ext. intros k Hk. apply in_seq in Hk. f_equal.
    rewrite <- mul_assoc. unfold mul at 1. rewrite (Csum_single _ _ k); [|apply seq_NoDup|apply in_seq; lia|].
    - rewrite HAA by lia. unfold delta. rewrite Nat.eqb_refl. ring.
    - intros m Hm Hne. apply in_seq in Hm. rewrite HAA by lia. unfold delta. destruct (Nat.eqb_spec k m); [congruence|ring]. }
  assert (HT : tr n P = tr n I).
  { unfold P. rewrite tr_cyclic. apply tr_ext. intros i Hi. rewrite HAA by assumption. reflexivity. }
  assert (HD : tr n (mul n D D) = C0).
  { assert (E : forall i, i < n -> mul n D D i i = (I i i - P i i)%C).
    { intros i Hi. unfold mul, D.
      transitivity (Csum (seq 0 n) (fun k => delta i k * delta k i) + (- C1) * Csum (seq 0 n) (fun k => delta i k * P k i) + (- C1) * Csum (seq 0 n) (fun k => P i k * delta k i) + mul n P P i i)%C.
      { unfold mul. rewrite <- !Csum_mul_l, <- !Csum_add. apply Csum_ext. intros. ring. }
      rewrite HPP by exact Hi.
      assert (S1 : forall f : nat -> C, Csum (seq 0 n) (fun k => delta i k * f k)%C = f i).
      { intro f. rewrite (Csum_single _ _ i); [|apply seq_NoDup|apply in_seq; lia|].
        - unfold delta. rewrite Nat.eqb_refl. ring.
        - intros k _ Hk. unfold delta. destruct (Nat.eqb_spec i k); [congruence|ring]. }
      rewrite (S1 (fun k => delta k i)), (S1 (fun k => P k i)).
      replace (Csum (seq 0 n) (fun k => P i k * delta k i)%C) with (P i i).
      - unfold I. ring.
      - symmetry. rewrite <- (S1 (fun k => P i k)). apply Csum_ext. intros k _. unfold delta. rewrite (Nat.eqb_sym k i). ring. }
    rewrite (tr_ext n (mul n D D) (fun i j => I i j - P i j)%C E). unfold tr in *.
    replace C0 with (Csum (seq 0 n) (fun i => I i i) + (- C1) * Csum (seq 0 n) (fun i => P i i))%C by (rewrite HT; ring).
    rewrite <- Csum_mul_l, <- Csum_add. apply Csum_ext. intros. ring. }
  assert (Hherm : forall i k, D k i = Cconj (D i k)).
  { intros i k. unfold D, P, mul, Ad. transitivity (Cconj (delta i k) - Cconj (Csum (seq 0 n) (fun j => Cconj (A j i) * A j k)))%C; [|apply C_eq; cbn; ring].
    rewrite Csum_conj. f_equal.
    - unfold delta. rewrite Nat.eqb_sym. destruct (i =? k); apply C_eq; cbn; ring.
    - apply Csum_ext. intros j _. rewrite Cconj_mul, Cconj_invol. ring. }
  assert (HZ : forall i k, i < n -> k < n -> D k i = C0).
  { assert (Hsum : Csum (seq 0 n) (fun i => inner n (fun k => D k i) (fun k => D k i)) = C0).
    { rewrite <- HD. unfold tr, mul, inner. apply Csum_ext. intros i _. apply Csum_ext. intros k _. rewrite <- Hherm. reflexivity. }
    assert (Pz : forall l i, In i l -> Csum l (fun i => inner n (fun k => D k i) (fun k => D k i)) = C0 -> inner n (fun k => D k i) (fun k => D k i) = C0).
    { assert (NN : forall l, (0 <= fst (Csum l (fun i => inner n (fun k => D k i) (fun k => D k i))))%R).
      { induction l as [|x l IH]; [apply Rle_refl|]. rewrite Csum_cons. cbn [fst Cadd]. pose proof (norm_pos n (fun k => D k x)). lra. }
      induction l as [|x l IH]; intros i Hi HS; [contradiction|]. rewrite Csum_cons in HS.
      assert (F1 : fst (inner n (fun k => D k x) (fun k => D k x)) = 0%R).
      { apply (f_equal fst) in HS. cbn [fst Cadd C0] in HS. pose proof (norm_pos n (fun k => D k x)). pose proof (NN l). lra. }
      assert (Fx : inner n (fun k => D k x) (fun k => D k x) = C0).
      { apply C_eq; [exact F1|]. apply conj_real. apply inner_conj. }
      destruct Hi as [<-|Hi]; [exact Fx|]. apply IH; [exact Hi|]. rewrite Fx in HS. rewrite <- HS. ring. }
    intros i k Hi Hk. apply (inner_zero (fun k => D k i)); [|exact Hk]. apply (Pz (seq 0 n)); [apply in_seq; lia|exact Hsum]. }
  intros i j Hi Hj. pose proof (HZ j i Hj Hi) as Z. unfold D, P, mul, Ad in Z. unfold inner.
  replace (delta i j) with (delta i j - (delta i j - Csum (seq 0 n) (fun k => Cconj (A k i) * A k j)))%C by (rewrite Z; ring). ring.
Qed.
End N.
