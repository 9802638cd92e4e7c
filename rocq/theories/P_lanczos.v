From Verif Require Import AuxN SpecC SpecExpm SpecLanczos M_lanczos.
Local Open Scope nat_scope.

Section Inner.
Variable n : nat.
Implicit Types u v w : vec.
Lemma inner_ext u u' v v' : (forall k, k < n -> u k = u' k) -> (forall k, k < n -> v k = v' k) -> inner n u v = inner n u' v'.
Proof. intros H1 H2. apply Csum_ext. intros k I. apply in_seq in I. rewrite H1, H2 by lia. reflexivity. Qed.
Lemma inner_conj u v : Cconj (inner n u v) = inner n v u.
Proof. unfold inner. rewrite Csum_conj. apply Csum_ext. intros k _. rewrite Cconj_mul, Cconj_invol. ring. Qed.
Lemma inner_lin u v w c d : inner n u (fun k => c * v k + d * w k)%C = (c * inner n u v + d * inner n u w)%C.
Proof. unfold inner. rewrite <- !Csum_mul_l, <- Csum_add. apply Csum_ext. intros k _. ring. Qed.
Lemma inner_scale u v c : inner n u (fun k => c * v k)%C = (c * inner n u v)%C.
Proof. unfold inner. rewrite <- Csum_mul_l. apply Csum_ext. intros k _. ring. Qed.
Lemma inner_scale_l u v c : inner n (fun k => c * u k)%C v = (Cconj c * inner n u v)%C.
Proof. rewrite <- inner_conj, inner_scale, Cconj_mul, inner_conj. reflexivity. Qed.
Lemma inner_axpy u x y c : inner n u (axpy x y c) = (inner n u y + RtoC c * inner n u x)%C.
Proof. unfold inner, axpy. rewrite <- Csum_mul_l, <- Csum_add. apply Csum_ext. intros k _. ring. Qed.
Lemma inner_over u v c : inner n u (over v c) = (RtoC (/ c) * inner n u v)%C.
Proof. apply inner_scale. Qed.
Lemma norm_inner v : inner n v v = RtoC (norm n v * norm n v).
Proof.
  unfold norm. rewrite sqrt_sqrt.
  - apply C_eq; unfold inner; [rewrite Csum_fst|]; cbn [fst snd RtoC].
    + apply Rsum_ext. intros k _. cbn. ring.
    + induction (seq 0 n) as [|k l IH]; [reflexivity|]. rewrite Csum_cons. cbn [snd Cadd]. rewrite IH. cbn. ring.
  - induction (seq 0 n) as [|k l IH]; [cbn; lra|]. unfold Rsum in *. cbn [fold_right]. nra.
Qed.
Lemma norm_nonneg v : (0 <= norm n v)%R. Proof. apply sqrt_pos. Qed.
Lemma herm_move A u v : hermitian n A -> inner n u (apply n A v) = inner n (apply n A u) v.
Proof.
  intros H. unfold inner, apply. transitivity (Csum (seq 0 n) (fun k => Csum (seq 0 n) (fun j => Cconj (u k) * (A k j * v j)))%C).
  { apply Csum_ext. intros k _. rewrite Csum_mul_l. reflexivity. }
  rewrite Csum_swap. apply Csum_ext. intros j Ij. rewrite Csum_conj, <- Csum_mul_r. apply Csum_ext. intros k Ik. apply in_seq in Ij, Ik.
  rewrite Cconj_mul. rewrite (H j k) by lia. rewrite Cconj_invol || rewrite <- (Cconj_invol (A j k)). ring.
Qed.
End Inner.

Section Chain.
Variables (n : nat) (A : nat -> nat -> C) (q0 : vec).
Hypothesis HA : hermitian n A.
Definition e (i : nat) : ent := Nat.iter i (step n A) (first n A q0).
Definition Q (i : nat) : vec := q (e i).
Definition al (i : nat) : R := a (e i).
Definition be (i : nat) : R := b (e i).
Definition prev (i : nat) (k : nat) : C := match i with O => C0 | S j => (RtoC (be j) * Q j k)%C end.
Definition w (i : nat) : vec := fun k => (apply n A (Q i) k - prev i k)%C.
Lemma e_S i : e (S i) = step n A (e i). Proof. reflexivity. Qed.
Lemma e_eqs i : (forall k, r (e i) k = (w i k - RtoC (al i) * Q i k)%C) /\ al i = fst (inner n (Q i) (w i)) /\ be i = norm n (r (e i)).
Proof.
  destruct i as [|i].
  - split; [|split; [|reflexivity]].
    + intros k. change (r (e 0) k) with (apply n A (Q 0) k + RtoC (- al 0) * Q 0 k)%C. rewrite RtoC_opp. unfold w, prev. ring.
    + change (al 0) with (fst (inner n (Q 0) (apply n A (Q 0)))). f_equal. apply inner_ext; [reflexivity|]. intros k _. unfold w, prev. ring.
  - assert (E : inner n (q (e (S i))) (axpy (q (e i)) (apply n A (q (e (S i)))) (- b (e i))) = inner n (Q (S i)) (w (S i))).
    { apply inner_ext; [reflexivity|]. intros k _. unfold axpy, w, prev, be, Q. rewrite RtoC_opp. ring. }
    split; [|split].
    + intros k. unfold al. rewrite e_S at 1. unfold step. cbn [r]. unfold axpy at 1. change (over (r (e i)) (b (e i))) with (q (e (S i))). rewrite RtoC_opp.
      change (fst (inner n (q (e (S i))) (axpy (q (e i)) (apply n A (q (e (S i)))) (- b (e i))))) with (a (e (S i))). unfold axpy, w, prev, be, Q. rewrite RtoC_opp. ring.
    + unfold al. change (a (e (S i))) with (fst (inner n (q (e (S i))) (axpy (q (e i)) (apply n A (q (e (S i)))) (- b (e i))))). rewrite E. reflexivity.
    + reflexivity.
Qed.
Lemma rec_k i : be i <> 0%R -> forall k, apply n A (Q i) k = (prev i k + RtoC (al i) * Q i k + RtoC (be i) * Q (S i) k)%C.
Proof.
  intros H k. change (Q (S i) k) with (RtoC (/ b (e i)) * r (e i) k)%C. fold (be i). rewrite (proj1 (e_eqs i)). unfold w.
  assert (X : (RtoC (be i) * RtoC (/ be i) = C1)%C) by (rewrite <- RtoC_mul, Rinv_r by exact H; reflexivity).
  transitivity (prev i k + RtoC (al i) * Q i k + (RtoC (be i) * RtoC (/ be i)) * (apply n A (Q i) k - prev i k - RtoC (al i) * Q i k))%C; [rewrite X; ring|ring].
Qed.
Lemma inner_rec u i : be i <> 0%R -> inner n u (apply n A (Q i)) =
  ((match i with O => C0 | S j => RtoC (be j) * inner n u (Q j) end) + RtoC (al i) * inner n u (Q i) + RtoC (be i) * inner n u (Q (S i)))%C.
Proof.
  intros H. transitivity (inner n u (fun k => prev i k + RtoC (al i) * Q i k + RtoC (be i) * Q (S i) k)%C).
  { apply inner_ext; [reflexivity|]. intros k _. apply rec_k. exact H. }
  unfold inner. rewrite <- !Csum_mul_l. destruct i as [|i].
  - assert (Z : C0 = Csum (seq 0 n) (fun _ => C0)) by (symmetry; apply Csum_zero; reflexivity). rewrite Z at 1. rewrite <- !Csum_add. apply Csum_ext. intros k _. cbn [prev]. ring.
  - rewrite <- Csum_mul_l, <- !Csum_add. apply Csum_ext. intros k _. cbn [prev]. ring.
Qed.
Lemma inner_r u p : inner n u (r (e p)) = (inner n u (apply n A (Q p)) - (match p with O => C0 | S j => RtoC (be j) * inner n u (Q j) end) - RtoC (al p) * inner n u (Q p))%C.
Proof.
  transitivity (inner n u (fun k => w p k - RtoC (al p) * Q p k)%C).
  { apply inner_ext; [reflexivity|]. intros k _. apply e_eqs. }
  assert (X : inner n u (w p) = (inner n u (apply n A (Q p)) - (match p with O => C0 | S j => RtoC (be j) * inner n u (Q j) end))%C).
  { unfold w. destruct p as [|p]; unfold prev.
    - transitivity (inner n u (apply n A (Q 0))); [|ring]. apply inner_ext; [reflexivity|]. intros; ring.
    - transitivity (inner n u (fun k => C1 * apply n A (Q (S p)) k + (- RtoC (be p)) * Q p k)%C); [apply inner_ext; [reflexivity|]; intros; ring|]. rewrite inner_lin. ring. }
  rewrite <- X. transitivity (inner n u (fun k => C1 * w p k + (- RtoC (al p)) * Q p k)%C); [apply inner_ext; [reflexivity|]; intros; ring|]. rewrite inner_lin. ring.
Qed.
Lemma self_real v : snd (inner n v (apply n A v)) = 0%R.
Proof. pose proof (inner_conj n v (apply n A v)) as E. rewrite <- herm_move in E by exact HA. apply (f_equal snd) in E. cbn in E. lra. Qed.
Lemma delta_sym i j : delta i j = delta j i. Proof. unfold delta. rewrite Nat.eqb_sym. reflexivity. Qed.
Lemma alpha_eq M p : orthonormal n M Q -> p < M -> inner n (Q p) (apply n A (Q p)) = RtoC (al p).
Proof.
  intros O Hp. apply C_eq; [|rewrite self_real; reflexivity]. cbn [RtoC fst]. rewrite (proj1 (proj2 (e_eqs p))).
  f_equal. destruct p as [|p].
  - apply inner_ext; [reflexivity|]. intros k _. unfold w, prev. ring.
  - transitivity (inner n (Q (S p)) (w (S p)) + RtoC (be p) * inner n (Q (S p)) (Q p))%C.
    + unfold w, prev. rewrite <- inner_scale. unfold inner. rewrite <- Csum_add. apply Csum_ext. intros k _. ring.
    + rewrite (O (S p) p) by lia. unfold delta. replace (S p =? p) with false by (symmetry; apply Nat.eqb_neq; lia). ring.
Qed.
Lemma ortho M : norm n q0 = 1%R -> (forall i, S i < M -> be i <> 0%R) -> orthonormal n M Q.
Proof.
  intros N. induction M as [|[|p] IH]; intros B.
  - intros i j Hi. lia.
  - intros i j Hi Hj. replace i with 0 by lia. replace j with 0 by lia. change (Q 0) with q0. rewrite norm_inner, N. unfold delta. cbn. apply C_eq; cbn; ring.
  - assert (O : orthonormal n (S p) Q) by (apply IH; intros i Hi; apply B; lia). clear IH.
    assert (Z : forall j, j <= p -> inner n (Q j) (r (e p)) = C0).
    { intros j Hj. rewrite inner_r. destruct (Nat.eq_dec j p) as [->|Nj].
      - rewrite (alpha_eq (S p) p O) by lia. rewrite (O p p) by lia. unfold delta at 1. rewrite Nat.eqb_refl. destruct p as [|p].
        + ring.
        + rewrite (O (S p) p) by lia. unfold delta. replace (S p =? p) with false by (symmetry; apply Nat.eqb_neq; lia). ring.
      - assert (Hlt : j < p) by lia. rewrite herm_move by exact HA. rewrite <- inner_conj, inner_rec by (apply B; lia).
        rewrite (O p j), (O p (S j)), (O j p) by lia. destruct p as [|p]; [lia|]. rewrite (O j p) by lia.
        destruct j as [|j]; [|rewrite (O (S p) j) by lia]; unfold delta; rewrite !Cconj_add, !Cconj_mul, ?Cconj_RtoC.
        + replace (S p =? 0) with false by reflexivity. replace (0 =? S p) with false by reflexivity.
          destruct p as [|p]; cbn [Nat.eqb]; apply C_eq; cbn; ring.
        + replace (S p =? j) with false by (symmetry; apply Nat.eqb_neq; lia). replace (S p =? S j) with false by (symmetry; apply Nat.eqb_neq; lia). replace (S j =? S p) with false by (symmetry; apply Nat.eqb_neq; lia).
          destruct (Nat.eq_dec (S j) p) as [<-|Np]; [rewrite !Nat.eqb_refl; apply C_eq; cbn; ring|].
          replace (S p =? S (S j)) with false by (symmetry; apply Nat.eqb_neq; lia). replace (S j =? p) with false by (symmetry; apply Nat.eqb_neq; lia). apply C_eq; cbn; ring. }
    assert (Bp : be p <> 0%R) by (apply B; lia).
    assert (Znew : forall j, j <= p -> inner n (Q j) (Q (S p)) = C0).
    { intros j Hj. change (Q (S p)) with (over (r (e p)) (be p)). rewrite inner_over, Z by exact Hj. ring. }
    intros i j Hi Hj. destruct (Nat.eq_dec i (S p)) as [->|Ni], (Nat.eq_dec j (S p)) as [->|Nj].
    + unfold delta. rewrite Nat.eqb_refl. change (Q (S p)) with (over (r (e p)) (be p)). rewrite inner_over. unfold over at 1. rewrite inner_scale_l, norm_inner, Cconj_RtoC.
      rewrite <- (proj2 (proj2 (e_eqs p))). rewrite <- !RtoC_mul. apply C_eq; cbn; [field; exact Bp|reflexivity].
    + rewrite <- inner_conj, Znew by lia. unfold delta. replace (S p =? j) with false by (symmetry; apply Nat.eqb_neq; lia). apply C_eq; cbn; ring.
    + rewrite Znew by lia. unfold delta. replace (i =? S p) with false by (symmetry; apply Nat.eqb_neq; lia). reflexivity.
    + apply O; lia.
Qed.
Lemma tri_sym i j : Cconj (tridiagonal al be i j) = tridiagonal al be j i.
Proof.
  unfold tridiagonal. rewrite (Nat.eqb_sym j i). destruct (i =? j) eqn:E; [apply Nat.eqb_eq in E; subst; apply Cconj_RtoC|].
  destruct (i =? S j) eqn:E1, (j =? S i) eqn:E2; try apply Cconj_RtoC. apply Nat.eqb_eq in E1, E2. lia.
Qed.
Lemma tri_matrix M : orthonormal n M Q -> (forall i, S i < M -> be i <> 0%R) -> forall i j, i < M -> j < M -> inner n (Q i) (apply n A (Q j)) = tridiagonal al be i j.
Proof.
  intros O B.
  assert (Lt : forall i j, i < M -> S j < M -> inner n (Q i) (apply n A (Q j)) = tridiagonal al be i j).
  { intros i j Hi Hj. rewrite inner_rec by (apply B; exact Hj). rewrite (O i j), (O i (S j)) by lia. unfold tridiagonal, delta. destruct j as [|j].
    - destruct i as [|[|i]]; cbn [Nat.eqb]; ring.
    - rewrite (O i j) by lia. unfold delta. destruct (Nat.eq_dec i j) as [->|N1]; [rewrite !Nat.eqb_refl|replace (i =? j) with false by (symmetry; apply Nat.eqb_neq; lia)].
      + replace (j =? S j) with false by (symmetry; apply Nat.eqb_neq; lia). replace (j =? S (S j)) with false by (symmetry; apply Nat.eqb_neq; lia). ring.
      + replace (S j =? S i) with false by (symmetry; apply Nat.eqb_neq; lia). destruct (i =? S j) eqn:E1; [apply Nat.eqb_eq in E1; subst; replace (S j =? S (S j)) with false by (symmetry; apply Nat.eqb_neq; lia); ring|].
        destruct (i =? S (S j)); ring. }
  intros i j Hi Hj. destruct (Nat.lt_ge_cases (S j) M) as [L|G]; [apply Lt; assumption|].
  destruct (Nat.eq_dec i j) as [->|Nij].
  - rewrite (alpha_eq M j O Hj). unfold tridiagonal. rewrite Nat.eqb_refl. reflexivity.
  - rewrite herm_move by exact HA. rewrite <- inner_conj, Lt by lia. apply tri_sym.
Qed.
End Chain.

Lemma last_map_seq {B} (f : nat -> B) d M : 0 < M -> last (map f (seq 0 M)) d = f (M - 1).
Proof. intros H. destruct M as [|M]; [lia|]. rewrite seq_S, map_app. cbn [map app]. rewrite last_last. f_equal. lia. Qed.
Lemma nth_map_seq {B} (f : nat -> B) d M i : i < M -> nth i (map f (seq 0 M)) d = f i.
Proof. intros H. rewrite (nth_indep _ d (f 0)) by (rewrite map_length, seq_length; exact H). rewrite map_nth, seq_nth by exact H. reflexivity. Qed.
Lemma firstn_map_seq {B} (f : nat -> B) M m : m <= M -> firstn m (map f (seq 0 M)) = map f (seq 0 m).
Proof. intros H. rewrite firstn_map. f_equal. replace M with (m + (M - m)) by lia. rewrite seq_app. rewrite firstn_app, seq_length, Nat.sub_diag. cbn [firstn]. rewrite app_nil_r. rewrite <- (seq_length m 0) at 1. apply firstn_all. Qed.

Section Runs.
Variables (n : nat) (A : nat -> nat -> C) (eps : R).
Lemma loop_iter q0 rem : forall i l, loop n A eps rem (e n A q0 i) = Some l ->
  l = map (e n A q0) (seq (S i) (length l)) /\ length l <= rem /\ (forall j, i <= j < i + length l -> be n A q0 j <> 0%R) /\
  (forall j, i < j < i + length l -> (eps <= be n A q0 j)%R) /\ (length l < rem -> 0 < length l /\ (be n A q0 (i + length l) < eps)%R).
Proof.
  induction rem as [|rem IH]; intros i l H; cbn [loop] in H.
  - injection H as <-. cbn. repeat split; try lia; intros; lia.
  - destruct (Req_EM_T (b (e n A q0 i)) 0) as [|Nz]; [discriminate|]. change (step n A (e n A q0 i)) with (e n A q0 (S i)) in H. cbv zeta in H.
    destruct (Rlt_dec (b (e n A q0 (S i))) eps) as [Lt|Ge].
    + injection H as <-. cbn [length seq map]. split; [reflexivity|]. split; [lia|]. split; [|split].
      * intros j Hj. replace j with i by lia. exact Nz.
      * intros j Hj. lia.
      * intros _. split; [lia|]. replace (i + 1) with (S i) by lia. exact Lt.
    + destruct (loop n A eps rem (e n A q0 (S i))) as [l'|] eqn:E; [|discriminate]. injection H as <-. destruct (IH _ _ E) as [H1 [H2 [H3 [H4 H5]]]].
      cbn [length seq map]. split; [f_equal; exact H1|]. split; [lia|]. split; [|split].
      * intros j Hj. destruct (Nat.eq_dec j i) as [->|]; [exact Nz|apply H3; lia].
      * intros j Hj. destruct (Nat.eq_dec j (S i)) as [->|]; [unfold be; lra|apply H4; lia].
      * intros Hl. destruct H5 as [H5 H6]; [lia|]. split; [lia|]. replace (i + S (length l')) with (S i + length l') by lia. exact H6.
Qed.
Lemma run_iter m v0 l : run n A eps m v0 = Some l -> exists q0, start n eps v0 = Some q0 /\ m < n /\ 1 <= length l <= m /\ l = map (e n A q0) (seq 0 (length l)) /\
  (forall j, S j < length l -> be n A q0 j <> 0%R) /\ (forall j, 0 < j -> S j < length l -> (eps <= be n A q0 j)%R) /\
  (length l < m -> 2 <= length l /\ (be n A q0 (length l - 1) < eps)%R).
Proof.
  unfold run. destruct (n <=? m) eqn:Em; [discriminate|]. apply Nat.leb_gt in Em. destruct m as [|m]; [discriminate|]. destruct (start n eps v0) as [q0|]; [|discriminate].
  destruct (loop n A eps m (first n A q0)) as [l'|] eqn:E; [|discriminate]. intros H. injection H as <-. exists q0. change (first n A q0) with (e n A q0 0) in *.
  destruct (loop_iter q0 m 0 l' E) as [H1 [H2 [H3 [H4 H5]]]]. cbn [length]. split; [reflexivity|]. split; [exact Em|]. split; [lia|]. split; [cbn [seq map]; f_equal; exact H1|]. split; [|split].
  - intros j Hj. apply H3. lia.
  - intros j Hj Hj2. apply H4. lia.
  - intros Hl. destruct H5 as [H5 H6]; [lia|]. split; [lia|]. replace (S (length l') - 1) with (0 + length l') by lia. exact H6.
Qed.
Lemma stopped_iter q0 M : stopped eps (map (e n A q0) (seq 0 M)) = true <-> 2 <= M /\ (be n A q0 (M - 1) < eps)%R.
Proof.
  destruct M as [|[|M]]; [split; [discriminate|intros [H _]; lia]|split; [discriminate|intros [H _]; lia]|].
  unfold stopped. set (l := map (e n A q0) (seq 0 (S (S M)))). replace (match l with [] => false | [_] => false | _ => _ end) with (if Rlt_dec (b (last l {| q := fun _ => C0; a := 0; r := fun _ => C0; b := 0 |})) eps then true else false) by reflexivity.
  unfold l. rewrite last_map_seq by lia. fold (be n A q0 (S (S M) - 1)). destruct (Rlt_dec _ _) as [L|G]; split; intros H; [split; [lia|exact L]|reflexivity|discriminate|]. destruct H. contradiction.
Qed.
Lemma start_unit v0 q0 : (norm n v0 = 1%R \/ (eps < Rabs (norm n v0 - 1))%R) -> start n eps v0 = Some q0 -> norm n q0 = 1%R /\ (forall k, RtoC (norm n v0) * q0 k = v0 k)%C.
Proof.
  unfold start. intros H. destruct (Rlt_dec eps (Rabs (norm n v0 - 1))) as [L|G].
  - destruct (Req_EM_T (norm n v0) 0) as [|Nz]; [discriminate|]. intros E. injection E as <-. split.
    + assert (X : inner n (over v0 (norm n v0)) (over v0 (norm n v0)) = C1).
      { rewrite inner_over. unfold over at 1. rewrite inner_scale_l, norm_inner, Cconj_RtoC, <- !RtoC_mul. apply C_eq; cbn; [field; exact Nz|reflexivity]. }
      rewrite norm_inner in X. apply (f_equal fst) in X. cbn [fst RtoC C1] in X. pose proof (norm_nonneg n (over v0 (norm n v0))). nra.
    + intros k. unfold over. transitivity (RtoC (norm n v0) * RtoC (/ norm n v0) * v0 k)%C; [ring|]. rewrite <- RtoC_mul, Rinv_r by exact Nz. change (RtoC 1) with C1. ring.
  - intros E. injection E as <-. destruct H as [N|B]; [|lra]. split; [exact N|]. intros k. rewrite N. change (RtoC 1) with C1. ring.
Qed.

(* the first M entries of the sequence form a Lanczos basis *)
Lemma basis_of q0 M : hermitian n A -> norm n q0 = 1%R -> (forall j, S j < M -> be n A q0 j <> 0%R) ->
  lanczos_basis n A (map (Q n A q0) (seq 0 M)) (map (al n A q0) (seq 0 M)) (map (be n A q0) (seq 0 (M - 1))).
Proof.
  intros HA N B. pose proof (ortho n A q0 HA M N B) as O. pose proof (tri_matrix n A q0 HA M O B) as T. unfold lanczos_basis, member. rewrite !map_length, !seq_length.
  split; [reflexivity|]. split; [reflexivity|]. split; [|split].
  - intros i j Hi Hj. rewrite !nth_map_seq by assumption. apply O; assumption.
  - intros i j Hi Hj. rewrite !nth_map_seq by assumption. rewrite T by assumption. unfold tridiagonal.
    destruct (i =? j); [rewrite nth_map_seq by exact Hi; reflexivity|]. destruct (i =? S j) eqn:E1; [apply Nat.eqb_eq in E1; rewrite nth_map_seq by lia; reflexivity|].
    destruct (j =? S i) eqn:E2; [apply Nat.eqb_eq in E2; rewrite nth_map_seq by lia; reflexivity|]. reflexivity.
  - intros i Hi k Hk. rewrite !nth_map_seq by lia. rewrite rec_k by (apply B; exact Hi). unfold prev. destruct i as [|i]; [reflexivity|]. rewrite !nth_map_seq by lia. reflexivity.
Qed.
(* the generator *)
Lemma vec_loop_iter q0 : forall k i, vec_loop n A (Q n A q0 i) (r (e n A q0 i)) (map (al n A q0) (seq (S i) k)) (map (be n A q0) (seq i k)) = map (Q n A q0) (seq (S i) k).
Proof.
  induction k as [|k IH]; intros i; [reflexivity|]. cbn [seq map vec_loop]. f_equal. exact (IH (S i)).
Qed.
Lemma vec_iter_eq q0 v0 M : start n eps v0 = Some q0 -> 0 < M ->
  vec_iter n A eps v0 (map (al n A q0) (seq 0 M)) (map (be n A q0) (seq 0 (M - 1))) = Some (map (Q n A q0) (seq 0 M)).
Proof.
  intros S H. destruct M as [|M]; [lia|]. unfold vec_iter. rewrite S. cbn [seq map]. f_equal. f_equal. replace (Datatypes.S M - 1) with M by lia. exact (vec_loop_iter q0 M 0).
Qed.
End Runs.
