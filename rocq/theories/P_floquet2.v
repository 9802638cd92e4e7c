(* Eigenvectors of unitary matrices, and orthogonalising them by a QR decomposition *)
From Verif Require Import AuxN SpecC SpecExpm SpecLanczos SpecExpect SpecFloquet P_expect P_lanczos P_thermal P_floquet.
Local Open Scope nat_scope.

Lemma Ceq_dec (a b : C) : {a = b} + {a <> b}.
Proof. destruct a as [x y], b as [u v]. destruct (Req_EM_T x u) as [->|H]; [|right; congruence]. destruct (Req_EM_T y v) as [->|H]; [left; reflexivity|right; congruence]. Qed.
Lemma Csub_zero a b : (a - b)%C = C0 -> a = b.
Proof. intro H. replace a with ((a - b) + b)%C by ring. rewrite H. ring. Qed.

Section N.
Variable n : nat.

Lemma apply_sum (A : mat) (l : list nat) c (v : nat -> vec) k : apply n A (fun x => Csum l (fun i => c i * v i x))%C k = Csum l (fun i => c i * apply n A (v i) k)%C.
Proof.
  unfold apply. transitivity (Csum (seq 0 n) (fun j => Csum l (fun i => c i * (A k j * v i j))))%C.
  - apply Csum_ext. intros j _. rewrite <- Csum_mul_l. apply Csum_ext. intros. ring.
  - rewrite Csum_swap. apply Csum_ext. intros i _. now rewrite Csum_mul_l.
Qed.
(* A^+ A v = v *)
Lemma unitary_left A v k : unitary n A -> k < n -> Csum (seq 0 n) (fun i => Cconj (A i k) * apply n A v i)%C = v k.
Proof.
  intros [HC _] Hk.
  transitivity (Csum (seq 0 n) (fun j => v j * inner n (fun i => A i k) (fun i => A i j)))%C.
  - unfold apply, inner. transitivity (Csum (seq 0 n) (fun i => Csum (seq 0 n) (fun j => v j * (Cconj (A i k) * A i j))))%C.
    + apply Csum_ext. intros i _. rewrite <- Csum_mul_l. apply Csum_ext. intros. ring.
    + rewrite Csum_swap. apply Csum_ext. intros j _. now rewrite Csum_mul_l.
  - rewrite (Csum_single _ _ k); [|apply seq_NoDup|apply in_seq; lia|].
    + rewrite (HC k k Hk Hk). unfold delta. rewrite Nat.eqb_refl. ring.
    + intros j Hj Hne. apply in_seq in Hj. rewrite (HC k j Hk) by lia. unfold delta. destruct (Nat.eqb_spec k j); [congruence|ring].
Qed.
Lemma unitary_inner A u v : unitary n A -> inner n (apply n A u) (apply n A v) = inner n u v.
Proof.
  intro HU. transitivity (inner n u (fun j => Csum (seq 0 n) (fun i => Cconj (A i j) * apply n A v i)%C)).
  - unfold inner at 1. unfold apply at 1.
    transitivity (Csum (seq 0 n) (fun i => Csum (seq 0 n) (fun j => Cconj (u j) * (Cconj (A i j) * apply n A v i))))%C.
    + apply Csum_ext. intros i _. rewrite Csum_conj, <- Csum_mul_r. apply Csum_ext. intros j _. rewrite Cconj_mul. ring.
    + rewrite Csum_swap. unfold inner. apply Csum_ext. intros j _. now rewrite Csum_mul_l.
  - apply P_lanczos.inner_ext; [reflexivity|]. intros k Hk. now apply unitary_left.
Qed.
Lemma eigen_inner A th th' u v : unitary n A -> (forall k, k < n -> apply n A u k = (th * u k)%C) -> (forall k, k < n -> apply n A v k = (th' * v k)%C) ->
  (Cconj th * th' * inner n u v)%C = inner n u v.
Proof.
  intros HU Hu Hv. rewrite <- (unitary_inner A u v HU) at 2.
  rewrite (P_lanczos.inner_ext n _ (fun k => th * u k)%C _ (fun k => th' * v k)%C Hu Hv), inner_scale, inner_scale_l. ring.
Qed.
Lemma eigen_phase A th v : unitary n A -> eigenvector n A th v -> (th * Cconj th)%C = C1.
Proof. intros HU [H1 Hv]. pose proof (eigen_inner A th th v v HU Hv Hv) as E. rewrite H1 in E. rewrite <- E. ring. Qed.
Lemma eigen_orth A th th' u v : unitary n A -> (th * Cconj th)%C = C1 -> th <> th' ->
  (forall k, k < n -> apply n A u k = (th * u k)%C) -> (forall k, k < n -> apply n A v k = (th' * v k)%C) -> inner n u v = C0.
Proof.
  intros HU H1 Hne Hu Hv. pose proof (eigen_inner A th th' u v HU Hu Hv) as E.
  assert (Z : ((th' - th) * inner n u v)%C = C0).
  { transitivity (th' * inner n u v - th * inner n u v)%C; [ring|].
    rewrite <- E at 2. replace (th * (Cconj th * th' * inner n u v))%C with ((th * Cconj th) * (th' * inner n u v))%C by ring. rewrite H1. ring. }
  apply Cmul_integral in Z. destruct Z as [Z|Z]; [|exact Z]. apply Csub_zero in Z. congruence.
Qed.
(* the conjugate of an eigenvector of A is an eigenvector of the transpose of A *)
Lemma conj_eigen A th v : unitary n A -> eigenvector n A th v -> eigenvector n (transpose A) th (fun k => Cconj (v k)).
Proof.
  intros HU HE. pose proof (eigen_phase A th v HU HE) as HP. destruct HE as [H1 Hv]. split.
  - transitivity (Cconj (inner n v v)); [|rewrite H1; apply C_eq; cbn; ring].
    unfold inner. rewrite Csum_conj. apply Csum_ext. intros. now rewrite Cconj_mul.
  - intros k Hk. pose proof (unitary_left A v k HU Hk) as E.
    assert (E2 : Csum (seq 0 n) (fun i => Cconj (A i k) * v i)%C = (Cconj th * v k)%C).
    { rewrite <- E. rewrite <- Csum_mul_l. apply Csum_ext. intros i Hi. apply in_seq in Hi. rewrite Hv by lia.
      replace (Cconj th * (Cconj (A i k) * (th * v i)))%C with ((th * Cconj th) * (Cconj (A i k) * v i))%C by ring. rewrite HP. ring. }
    apply (f_equal Cconj) in E2. rewrite Csum_conj, Cconj_mul, Cconj_invol in E2. rewrite <- E2.
    unfold apply, transpose. apply Csum_ext. intros. now rewrite Cconj_mul, Cconj_invol.
Qed.

(* Gram-Schmidt on eigenvectors of a unitary matrix gives eigenvectors to the same eigenvalues *)
Lemma qr_eigen A (m : nat) (th : nat -> C) (V Q : nat -> vec) (r : nat -> nat -> C) : unitary n A ->
  (forall j, j < m -> eigenvector n A (th j) (V j)) -> orthonormal n m Q ->
  (forall j, j < m -> r j j <> C0 /\ forall k, k < n -> V j k = Csum (seq 0 (S j)) (fun i => r i j * Q i k)%C) ->
  forall j, j < m -> eigenvector n A (th j) (Q j).
Proof.
  intros HU HV HQ HR j. induction j as [j IH] using lt_wf_ind. intro Hj.
  split; [rewrite (HQ j j Hj Hj); unfold delta; now rewrite Nat.eqb_refl|].
  destruct (HR j Hj) as [Hrjj HVj]. destruct (HV j Hj) as [_ Hev].
  assert (Hr : forall i, i < j -> r i j = inner n (Q i) (V j)).
  { intros i Hi. rewrite (P_lanczos.inner_ext n (Q i) (Q i) (V j) _ (fun _ _ => eq_refl) HVj), inner_sum.
    rewrite (Csum_single _ _ i); [|apply seq_NoDup|apply in_seq; lia|].
    - rewrite (HQ i i) by lia. unfold delta. rewrite Nat.eqb_refl. ring.
    - intros x Hx Hne. apply in_seq in Hx. rewrite (HQ i x) by lia. unfold delta. destruct (Nat.eqb_spec i x); [congruence|ring]. }
  intros k Hk.
  assert (D : Csum (seq 0 (S j)) (fun i => r i j * (apply n A (Q i) k - th j * Q i k))%C = C0).
  { transitivity (apply n A (V j) k - th j * V j k)%C; [|rewrite Hev by exact Hk; ring].
    rewrite (P_floquet.apply_ext n A (V j) _ k HVj), apply_sum, HVj by exact Hk. rewrite <- Csum_mul_l.
    set (a := Csum _ _). set (b := Csum _ _). set (c := Csum _ _).
    assert (E : (a + c = b)%C). { unfold a, b, c. rewrite <- Csum_add. apply Csum_ext. intros. ring. }
    rewrite <- E. ring. }
  rewrite seq_S, Csum_app, Csum_cons, Csum_nil in D. cbn [Nat.add] in D.
  rewrite Csum_zero in D.
  - assert (Z : (r j j * (apply n A (Q j) k - th j * Q j k))%C = C0) by (rewrite <- D; ring).
    apply Cmul_integral in Z. destruct Z as [Z|Z]; [contradiction|]. now apply Csub_zero.
  - intros i Hi. apply in_seq in Hi. assert (Hij : i < j) by lia. destruct (IH i Hij ltac:(lia)) as [H1 HQi].
    destruct (Ceq_dec (th i) (th j)) as [E|Hne].
    + rewrite HQi, E by exact Hk. ring.
    + rewrite Hr by exact Hij.
      rewrite (eigen_orth A (th i) (th j) (Q i) (V j) HU (eigen_phase A (th i) (Q i) HU (IH i Hij ltac:(lia))) Hne HQi Hev). ring.
Qed.
End N.
