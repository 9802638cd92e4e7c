From Verif Require Import AuxN SpecC SpecExpm SpecLanczos M_lanczos M_thermal P_lanczos.
Local Open Scope nat_scope.

Lemma inner_sum {X} n (l : list X) u c (v : X -> vec) : inner n u (fun k => Csum l (fun x => c x * v x k))%C = Csum l (fun x => c x * inner n u (v x))%C.
Proof.
  unfold inner. transitivity (Csum (seq 0 n) (fun k => Csum l (fun x => c x * (Cconj (u k) * v x k)))%C).
  - apply Csum_ext. intros k _. rewrite <- Csum_mul_l. apply Csum_ext. intros x _. ring.
  - rewrite Csum_swap. apply Csum_ext. intros x _. rewrite Csum_mul_l. reflexivity.
Qed.
Lemma inner_sum_l {X} n (l : list X) u c (v : X -> vec) : inner n (fun k => Csum l (fun x => c x * v x k))%C u = Csum l (fun x => Cconj (c x) * inner n (v x) u)%C.
Proof. rewrite <- inner_conj, inner_sum, Csum_conj. apply Csum_ext. intros x _. rewrite Cconj_mul, inner_conj. reflexivity. Qed.
Lemma apply_sum {X} n A (l : list X) c (v : X -> vec) i : apply n A (fun k => Csum l (fun x => c x * v x k))%C i = Csum l (fun x => c x * apply n A (v x) i)%C.
Proof.
  unfold apply. transitivity (Csum (seq 0 n) (fun j => Csum l (fun x => c x * (A i j * v x j)))%C).
  - apply Csum_ext. intros k _. rewrite <- Csum_mul_l. apply Csum_ext. intros x _. ring.
  - rewrite Csum_swap. apply Csum_ext. intros x _. rewrite Csum_mul_l. reflexivity.
Qed.
(* sum against a delta *)
Lemma Csum_delta M f i : i < M -> Csum (seq 0 M) (fun x => f x * delta x i)%C = f i.
Proof.
  intros H. rewrite (Csum_single _ _ i (seq_NoDup M 0)).
  - unfold delta. rewrite Nat.eqb_refl. ring.
  - apply in_seq. lia.
  - intros x _ Nx. unfold delta. apply Nat.eqb_neq in Nx. rewrite Nx. ring.
Qed.
Lemma RtoC_Rsum {X} (l : list X) f : RtoC (Rsum l f) = Csum l (fun x => RtoC (f x)).
Proof. induction l as [|x l IH]; [reflexivity|]. rewrite Csum_cons, <- IH. unfold Rsum. cbn [fold_right]. rewrite RtoC_add. reflexivity. Qed.

Section Ritz.
Variables (n : nat) (A : nat -> nat -> C) (qs : list vec) (aa bb : list R) (E : nat -> R) (V : nat -> nat -> R).
Let M := length qs.
Let T := tridiagonal (fun i => nth i aa 0%R) (fun i => nth i bb 0%R).
Hypothesis B : lanczos_basis n A qs aa bb.
Hypothesis D : eigen_decomposition M T E V.
Lemma ritz_inner u j : inner n u (ritz qs V j) = Csum (seq 0 M) (fun x => RtoC (V x j) * inner n u (member qs x))%C.
Proof. apply inner_sum. Qed.
Lemma ritz_inner_l u j : inner n (ritz qs V j) u = Csum (seq 0 M) (fun x => RtoC (V x j) * inner n (member qs x) u)%C.
Proof. unfold ritz. rewrite inner_sum_l. apply Csum_ext. intros x _. rewrite Cconj_RtoC. reflexivity. Qed.
Lemma ritz_q x j : x < M -> inner n (member qs x) (ritz qs V j) = RtoC (V x j).
Proof.
  intros Hx. rewrite ritz_inner. destruct B as [_ [_ [O _]]]. rewrite <- (Csum_delta M (fun y => RtoC (V y j)) x Hx). apply Csum_ext. intros y I. apply in_seq in I.
  rewrite O by (fold M; lia). rewrite delta_sym. reflexivity.
Qed.
Lemma ritz_q' x j : x < M -> inner n (ritz qs V j) (member qs x) = RtoC (V x j).
Proof. intros Hx. rewrite <- inner_conj, ritz_q, Cconj_RtoC by exact Hx. reflexivity. Qed.
Lemma ritz_ortho : orthonormal n M (ritz qs V).
Proof.
  intros i j Hi Hj. rewrite ritz_inner_l. rewrite <- (proj1 D i j Hi Hj). apply Csum_ext. intros x I. apply in_seq in I. rewrite ritz_q by lia. reflexivity.
Qed.
Lemma ritz_energy i j : i < M -> j < M -> inner n (ritz qs V i) (apply n A (ritz qs V j)) = (RtoC (E j) * delta i j)%C.
Proof.
  intros Hi Hj. rewrite ritz_inner_l.
  transitivity (Csum (seq 0 M) (fun x => RtoC (V x i) * (RtoC (E j) * RtoC (V x j)))%C).
  - apply Csum_ext. intros x I. apply in_seq in I. f_equal. rewrite <- (proj2 (proj2 D) x j) by lia.
    transitivity (inner n (member qs x) (fun k => Csum (seq 0 M) (fun y => RtoC (V y j) * apply n A (member qs y) k)%C)).
    { apply inner_ext; [reflexivity|]. intros k _. unfold ritz. apply apply_sum. }
    rewrite inner_sum. apply Csum_ext. intros y Iy. apply in_seq in Iy. destruct B as [_ [_ [_ [Tq _]]]]. rewrite Tq by (fold M; lia). fold T. ring.
  - rewrite <- (proj1 D i j Hi Hj), <- Csum_mul_l. apply Csum_ext. intros x _. ring.
Qed.
Lemma ritz_complete x k : x < M -> member qs x k = Csum (seq 0 M) (fun j => RtoC (V x j) * ritz qs V j k)%C.
Proof.
  intros Hx. transitivity (Csum (seq 0 M) (fun y => Csum (seq 0 M) (fun j => RtoC (V x j) * RtoC (V y j)) * member qs y k)%C).
  - rewrite <- (Csum_delta M (fun y => member qs y k) x Hx). apply Csum_ext. intros y I. apply in_seq in I. rewrite (proj1 (proj2 D) x y) by lia. rewrite delta_sym. ring.
  - transitivity (Csum (seq 0 M) (fun y => Csum (seq 0 M) (fun j => RtoC (V x j) * (RtoC (V y j) * member qs y k)))%C).
    + apply Csum_ext. intros y _. rewrite <- Csum_mul_r. apply Csum_ext. intros j _. ring.
    + rewrite Csum_swap. apply Csum_ext. intros j _. unfold ritz. rewrite Csum_mul_l. reflexivity.
Qed.
(* A q_y = sum over x of T_xy q_x, if nothing is left over at the last vector *)
Hypothesis Res : forall k, k < n -> residual n A qs aa bb k = C0.
Lemma Csum_two l (f g : nat -> C) : Csum l (fun x => f x + g x)%C = (Csum l f + Csum l g)%C. Proof. apply Csum_add. Qed.
Lemma A_member y k : y < M -> k < n -> apply n A (member qs y) k = Csum (seq 0 M) (fun x => T x y * member qs x k)%C.
Proof.
  intros Hy Hk.
  assert (P : Csum (seq 0 M) (fun x => T x y * member qs x k)%C =
     ((match y with O => C0 | S j => RtoC (nth j bb 0%R) * member qs j k end) + RtoC (nth y aa 0%R) * member qs y k + (if S y <? M then RtoC (nth y bb 0%R) * member qs (S y) k else C0))%C).
  { transitivity (Csum (seq 0 M) (fun x => ((match y with O => C0 | S j => (RtoC (nth j bb 0%R) * member qs x k) * delta x j end) + (RtoC (nth y aa 0%R) * member qs x k) * delta x y + (RtoC (nth y bb 0%R) * member qs x k) * delta x (S y)))%C).
    - apply Csum_ext. intros x I. unfold T, tridiagonal, delta. destruct (Nat.eq_dec x y) as [->|N1].
      + rewrite Nat.eqb_refl. replace (y =? S y) with false by (symmetry; apply Nat.eqb_neq; lia). destruct y as [|y]; [ring|]. replace (S y =? y) with false by (symmetry; apply Nat.eqb_neq; lia). ring.
      + replace (x =? y) with false by (symmetry; apply Nat.eqb_neq; lia). destruct (x =? S y) eqn:E1.
        * apply Nat.eqb_eq in E1. subst x. destruct y as [|y]; [ring|]. replace (S (S y) =? y) with false by (symmetry; apply Nat.eqb_neq; lia). ring.
        * destruct y as [|y]; [destruct x; [lia|]; cbn [Nat.eqb]; ring|]. rewrite (Nat.eqb_sym (S y) (S x)). cbn [Nat.eqb]. destruct (x =? y) eqn:E2; [apply Nat.eqb_eq in E2; subst; ring|ring].
    - rewrite !Csum_two. rewrite (Csum_delta M (fun x => RtoC (nth y aa 0%R) * member qs x k)%C y Hy). f_equal; [f_equal|].
      + destruct y as [|y]; [apply Csum_zero; reflexivity|]. apply (Csum_delta M (fun x => RtoC (nth y bb 0%R) * member qs x k)%C). lia.
      + destruct (S y <? M) eqn:E1; [apply Nat.ltb_lt in E1; apply (Csum_delta M (fun x => RtoC (nth y bb 0%R) * member qs x k)%C); exact E1|].
        apply Nat.ltb_ge in E1. apply Csum_zero. intros x I. apply in_seq in I. unfold delta. replace (x =? S y) with false by (symmetry; apply Nat.eqb_neq; lia). ring. }
  rewrite P. destruct B as [_ [_ [_ [_ Rec]]]]. destruct (S y <? M) eqn:E1.
  - apply Nat.ltb_lt in E1. rewrite (Rec y E1 k Hk). reflexivity.
  - apply Nat.ltb_ge in E1. pose proof (Res k Hk) as R0. unfold residual in R0. fold M in R0. replace (M - 1) with y in R0 by lia.
    set (t := match y with O => C0 | S j => (RtoC (nth j bb 0%R) * member qs j k)%C end) in *. 
    transitivity (apply n A (member qs y) k - t - RtoC (nth y aa 0%R) * member qs y k + (t + RtoC (nth y aa 0%R) * member qs y k))%C; [ring|]. rewrite R0. ring.
Qed.
Lemma ritz_eigen j k : j < M -> k < n -> apply n A (ritz qs V j) k = (RtoC (E j) * ritz qs V j k)%C.
Proof.
  intros Hj Hk. unfold ritz at 1. rewrite apply_sum. fold M.
  transitivity (Csum (seq 0 M) (fun y => Csum (seq 0 M) (fun x => (T x y * RtoC (V y j)) * member qs x k))%C).
  - apply Csum_ext. intros y I. apply in_seq in I. rewrite A_member by (try exact Hk; lia). rewrite <- Csum_mul_l. apply Csum_ext. intros x _. ring.
  - rewrite Csum_swap. unfold ritz. fold M. rewrite <- Csum_mul_l. apply Csum_ext. intros x I. apply in_seq in I. rewrite Csum_mul_r, (proj2 (proj2 D) x j) by lia. ring.
Qed.
End Ritz.

(* lin_comb_Q_T is the sum of the products *)
Lemma lin_fold l : forall (acc : vec) k, fold_left (fun (out : vec) (p : C * vec) => fun k => (out k + fst p * snd p k)%C) l acc k = (acc k + Csum l (fun p => fst p * snd p k))%C.
Proof. induction l as [|p l IH]; intros acc k; cbn [fold_left]; [unfold Csum; cbn; ring|]. rewrite IH, Csum_cons. ring. Qed.
Lemma Csum_combine {X Y} (f : X -> Y -> C) dx dy : forall l l', Csum (combine l l') (fun p => f (fst p) (snd p)) = Csum (seq 0 (Nat.min (length l) (length l'))) (fun i => f (nth i l dx) (nth i l' dy)).
Proof.
  induction l as [|x l IH]; intros [|y l']; try reflexivity. cbn [combine length Nat.min seq]. rewrite !Csum_cons, IH. cbn [fst snd nth]. f_equal.
  rewrite <- seq_shift, Csum_map. reflexivity.
Qed.
Lemma lin_comb_sum cs qs v : lin_comb cs qs = Some v -> forall k, v k = Csum (seq 0 (Nat.min (length cs) (length qs))) (fun i => nth i cs C0 * member qs i k)%C.
Proof.
  intros H k. destruct cs as [|c0 cs], qs as [|q0 qs]; try discriminate H. cbn [lin_comb] in H. injection H as <-. rewrite lin_fold.
  rewrite (Csum_combine (fun c (q : vec) => c * q k)%C C0 (fun _ => C0)). cbn [length Nat.min seq]. rewrite Csum_cons, <- seq_shift, Csum_map. unfold member. cbn [nth]. ring.
Qed.
