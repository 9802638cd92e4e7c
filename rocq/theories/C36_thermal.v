(* C36 (second part): what is computed from a Lanczos basis.  E and V are the eigenvalues and eigenvectors of the tridiagonal matrix, psi_j the
   combination sum_x V_xj q_x. *)
From Verif Require Import AuxN SpecC SpecExpm SpecLanczos M_lanczos M_thermal P_lanczos P_thermal C36_lanczos.
Local Open Scope nat_scope.
Notation T_of aa bb := (tridiagonal (fun i => nth i aa 0%R) (fun i => nth i bb 0%R)).

(* the psi_j are orthonormal, diagonalise A on the Krylov space and span the same space; when nothing is left over at the last vector they are
   eigenvectors of A *)
Theorem C36_ritz n A qs aa bb E V : lanczos_basis n A qs aa bb -> eigen_decomposition (length qs) (T_of aa bb) E V ->
  orthonormal n (length qs) (ritz qs V) /\
  (forall i j, i < length qs -> j < length qs -> inner n (ritz qs V i) (apply n A (ritz qs V j)) = (RtoC (E j) * delta i j)%C) /\
  (forall x k, x < length qs -> member qs x k = Csum (seq 0 (length qs)) (fun j => inner n (ritz qs V j) (member qs x) * ritz qs V j k)%C) /\
  ((forall k, k < n -> residual n A qs aa bb k = C0) -> forall j k, j < length qs -> k < n -> apply n A (ritz qs V j) k = (RtoC (E j) * ritz qs V j k)%C).
Proof.
  intros B D. split; [|split; [|split]].
  - exact (ritz_ortho n A qs aa bb E V B D).
  - exact (ritz_energy n A qs aa bb E V B D).
  - intros x k Hx. rewrite (ritz_complete qs aa bb E V D x k Hx). apply Csum_ext. intros j I. apply in_seq in I. rewrite (ritz_q' n A qs aa bb V B) by exact Hx. reflexivity.
  - exact (ritz_eigen n A qs aa bb E V B D).
Qed.
Print Assumptions C36_ritz.

(* lin_comb_Q_T *)
Theorem C36_lin_comb cs qs : cs <> [] -> qs <> [] -> exists v, lin_comb cs qs = Some v /\
  forall k, v k = Csum (seq 0 (Nat.min (length cs) (length qs))) (fun i => nth i cs C0 * member qs i k)%C.
Proof.
  intros Hc Hq. destruct (lin_comb cs qs) as [v|] eqn:E; [exists v; split; [reflexivity|exact (lin_comb_sum cs qs v E)]|]. destruct cs, qs; try congruence. discriminate E.
Qed.
Print Assumptions C36_lin_comb.

(* expm_lanczos: sum_j exp(z E_j) <psi_j|q_0> psi_j, which is exp(zA) q_0 when the psi_j are eigenvectors *)
Theorem C36_expm n A qs aa bb E V z : lanczos_basis n A qs aa bb -> qs <> [] -> exists v, expm_lanczos (length qs) E V qs z = Some v /\
  forall k, v k = Csum (seq 0 (length qs)) (fun j => Cexp (z * RtoC (E j)) * inner n (ritz qs V j) (member qs 0) * ritz qs V j k)%C.
Proof.
  intros B Hq. assert (P : 0 < length qs) by (destruct qs; [congruence|cbn; lia]). unfold expm_lanczos.
  set (cf := fun x => Csum (seq 0 (length qs)) (fun j => RtoC (V x j) * (Cexp (z * RtoC (E j)) * RtoC (V 0 j)))%C).
  destruct (C36_lin_comb (map cf (seq 0 (length qs))) qs) as [v [Hv Ev]]; [intros H; apply (f_equal (@length C)) in H; rewrite map_length, seq_length in H; cbn in H; lia|exact Hq|].
  exists v. split; [exact Hv|]. intros k. rewrite Ev, map_length, seq_length, Nat.min_id.
  transitivity (Csum (seq 0 (length qs)) (fun x => Csum (seq 0 (length qs)) (fun j => (Cexp (z * RtoC (E j)) * RtoC (V 0 j)) * (RtoC (V x j) * member qs x k)))%C).
  - apply Csum_ext. intros x I. apply in_seq in I. rewrite nth_map_seq by lia. unfold cf. rewrite <- Csum_mul_r. apply Csum_ext. intros j _. ring.
  - rewrite Csum_swap. apply Csum_ext. intros j I. apply in_seq in I. rewrite (ritz_q' n A qs aa bb V B) by exact P. rewrite Csum_mul_l. reflexivity.
Qed.
Print Assumptions C36_expm.

(* finite-temperature iteration: sum_j e^(-beta E_j) <r|psi_j><psi_j|O r> and the same with the identity, r the first vector *)
Lemma fold_C {X} (f : X -> C) l : forall c, fold_left (fun acc p => acc + f p)%C l c = (c + Csum l f)%C.
Proof. induction l as [|x l IH]; intros c; cbn [fold_left]; [unfold Csum; cbn; ring|]. rewrite IH, Csum_cons. ring. Qed.
Lemma Cadd_0 z : (C0 + z = z)%C. Proof. ring. Qed.
Theorem C36_ftlm n A qs aa bb E V O beta : lanczos_basis n A qs aa bb -> qs <> [] ->
  let r := member qs 0 in
  exists x i, ftlm n (length qs) E V qs O beta = Some (x, i) /\
  x = Csum (seq 0 (length qs)) (fun j => RtoC (exp (- (beta * E j))) * inner n r (ritz qs V j) * inner n (ritz qs V j) (apply n O r))%C /\
  RtoC i = Csum (seq 0 (length qs)) (fun j => RtoC (exp (- (beta * E j))) * inner n r (ritz qs V j) * inner n (ritz qs V j) r)%C.
Proof.
  intros B Hq r. assert (P : 0 < length qs) by (destruct qs; [congruence|cbn; lia]). destruct qs as [|q0 qs']; [congruence|]. unfold ftlm. clear Hq. set (qs := q0 :: qs') in *.
  replace (length qs <? length qs) with false by (symmetry; apply Nat.ltb_ge; lia). change (apply n O q0) with (apply n O r).
  do 2 eexists. split; [reflexivity|]. split.
  - rewrite fold_C. rewrite (Csum_combine (fun i lv => RtoC (ftlm_c (length qs) E V beta i) * inner n lv (apply n O r))%C 0 (fun _ => C0)). rewrite seq_length, Nat.min_id.
    transitivity (Csum (seq 0 (length qs)) (fun i => Csum (seq 0 (length qs)) (fun j => (RtoC (exp (- (beta * E j))) * RtoC (V 0 j)) * (RtoC (V i j) * inner n (member qs i) (apply n O r))))%C).
    + rewrite Cadd_0. apply Csum_ext. intros i I. apply in_seq in I. rewrite seq_nth by lia. cbn [Nat.add]. unfold ftlm_c. rewrite RtoC_Rsum, <- Csum_mul_r. apply Csum_ext. intros j _. rewrite !RtoC_mul. unfold member. ring.
    + rewrite Csum_swap. apply Csum_ext. intros j I. unfold r at 2. rewrite (ritz_q n A qs aa bb V B) by exact P. rewrite (ritz_inner_l n qs V). rewrite Csum_mul_l. reflexivity.
  - unfold ftlm_c. rewrite RtoC_Rsum. apply Csum_ext. intros j _. unfold r. rewrite (ritz_q n A qs aa bb V B), (ritz_q' n A qs aa bb V B) by exact P. rewrite !RtoC_mul. ring.
Qed.
Print Assumptions C36_ftlm.

(* low-temperature iteration, if no weight is small: sum_jl e^(-beta (E_j + E_l) / 2) <r|psi_j><psi_j|O psi_l><psi_l|r>.  Missing: small weights,
   for which see below *)
Lemma first_small_none eps p l : (forall j, In j l -> (eps <= p j)%R) -> first_small eps p l = None.
Proof. induction l as [|j l IH]; intros H; [reflexivity|]. cbn [first_small]. destruct (Rlt_dec (p j) eps) as [L|]; [specialize (H j (or_introl eq_refl)); lra|]. apply IH. intros i I. apply H. right. exact I. Qed.
Theorem C36_ltlm_partial n A qs aa bb E V O eps betas : lanczos_basis n A qs aa bb -> qs <> [] -> betas <> [] ->
  (forall j, j < length qs -> (eps <= weight (length qs) E V (beta_min betas) j)%R) ->
  let r := member qs 0 in
  exists xs, ltlm n (length qs) eps E V qs O betas = Some xs /\ length xs = length betas /\
  forall b, b < length betas -> let beta := nth b betas 0%R in
    fst (nth b xs (C0, 0%R)) = Csum (seq 0 (length qs)) (fun j => Csum (seq 0 (length qs)) (fun l =>
        RtoC (exp (- (beta * (E j + E l) / 2))) * inner n r (ritz qs V j) * inner n (ritz qs V j) (apply n O (ritz qs V l)) * inner n (ritz qs V l) r))%C /\
    RtoC (snd (nth b xs (C0, 0%R))) = Csum (seq 0 (length qs)) (fun j => RtoC (exp (- (beta * E j))) * inner n r (ritz qs V j) * inner n (ritz qs V j) r)%C.
Proof.
  intros B Hq Hb W r. assert (P : 0 < length qs) by (destruct qs; [congruence|cbn; lia]). destruct betas as [|b0 bs]; [congruence|]. unfold ltlm. clear Hb. set (betas := b0 :: bs) in *.
  rewrite first_small_none by (intros j I; apply in_seq in I; apply W; lia). replace (length qs =? 0) with false by (symmetry; apply Nat.eqb_neq; lia).
  eexists. split; [reflexivity|]. split; [apply map_length|]. intros b Hbl. set (beta := nth b betas 0%R).
  match goal with |- context [nth b (map ?f betas) _] => rewrite (nth_indep (map f betas) (C0, 0%R) (f 0%R)) by (rewrite map_length; exact Hbl); rewrite (map_nth f betas 0%R b) end. fold beta. cbn [fst snd]. set (M := length qs) in *.
  split.
  - set (Ome := fun i j => if (i <? M) && (j <? M) then inner n (member qs j) (apply n O (member qs i)) else C0).
    assert (OV : forall j l, Csum (seq 0 M) (fun x => RtoC (V x j) * Csum (seq 0 M) (fun y => Ome x y * RtoC (V y l)))%C = inner n (ritz qs V l) (apply n O (ritz qs V j))).
    { intros j l. rewrite ritz_inner_l. fold M. transitivity (Csum (seq 0 M) (fun x => Csum (seq 0 M) (fun y => RtoC (V x j) * (Ome x y * RtoC (V y l))))%C).
      { apply Csum_ext. intros x _. rewrite Csum_mul_l. reflexivity. }
      rewrite Csum_swap. apply Csum_ext. intros y Iy. apply in_seq in Iy.
      transitivity (RtoC (V y l) * inner n (member qs y) (fun k => Csum (seq 0 M) (fun x => RtoC (V x j) * apply n O (member qs x) k)))%C.
      - rewrite (inner_sum n (seq 0 M) (member qs y) (fun x => RtoC (V x j)) (fun x => apply n O (member qs x))), <- Csum_mul_l. apply Csum_ext. intros x Ix. apply in_seq in Ix. unfold Ome. replace (x <? M) with true by (symmetry; apply Nat.ltb_lt; lia). replace (y <? M) with true by (symmetry; apply Nat.ltb_lt; lia). cbn [andb]. ring.
      - f_equal. apply inner_ext; [reflexivity|]. intros k _. unfold ritz. symmetry. apply apply_sum. }
    rewrite Csum_swap. apply Csum_ext. intros j Ij. apply Csum_ext. intros l Il. rewrite OV. unfold r. rewrite (ritz_q n A qs aa bb V B), (ritz_q' n A qs aa bb V B) by exact P.
    replace (exp (- (beta * (E j + E l) / 2)))%R with (exp (- (E j * (beta / 2))) * exp (- (E l * (beta / 2))))%R by (rewrite <- exp_plus; f_equal; field). rewrite !RtoC_mul. ring.
  - rewrite RtoC_Rsum. apply Csum_ext. intros j _. unfold r. rewrite (ritz_q n A qs aa bb V B), (ritz_q' n A qs aa bb V B) by exact P. rewrite !RtoC_mul. rewrite (Rmult_comm (E j)). ring.
Qed.
Print Assumptions C36_ltlm_partial.

(* a small weight of the lowest energy: the function raises, whatever the operator *)
Theorem C36_ltlm_empty_refuted n M eps E V qs O betas : 0 < M -> (weight M E V (beta_min betas) 0 < eps)%R -> ltlm n M eps E V qs O betas = None.
Proof.
  intros HM W. unfold ltlm. destruct betas as [|b0 bs]; [reflexivity|]. destruct M as [|M]; [lia|]. cbn [seq first_small]. destruct (Rlt_dec _ _) as [_|N]; [reflexivity|contradiction].
Qed.
Print Assumptions C36_ltlm_empty_refuted.

(* small weights of higher energies: vectors are dropped together with eigenvalues, and the thermal average of the identity is 1/2 *)
Definition s2 : R := (/ sqrt 2)%R.
Lemma s2_sq : (s2 * s2 = 1 / 2)%R.
Proof. unfold s2. rewrite <- Rinv_mult. rewrite sqrt_sqrt by lra. lra. Qed.
Lemma s2_pos : (0 < s2)%R. Proof. unfold s2. apply Rinv_0_lt_compat. apply sqrt_lt_R0. lra. Qed.
Definition exE (j : nat) : R := match j with 0 => (-1)%R | _ => 1%R end.
Definition exV (x j : nat) : R := match x, j with 1, 0 => (- s2)%R | _, _ => s2 end.
Definition id_matrix (i j : nat) : C := delta i j.
Lemma ex_basis : lanczos_basis 3 flip3 [e0; e1] [0%R; 0%R] [1%R].
Proof.
  unfold lanczos_basis. cbn [length]. split; [reflexivity|]. split; [reflexivity|]. split; [|split].
  - intros i j Hi Hj. destruct i as [|[|i]], j as [|[|j]]; try lia; unfold inner, Csum, member, e0, e1, delta; apply C_eq; cbn; ring.
  - intros i j Hi Hj. destruct i as [|[|i]], j as [|[|j]]; try lia; unfold inner, apply, Csum, member, e0, e1, flip3, tridiagonal, delta; apply C_eq; cbn; ring.
  - intros i Hi k Hk. destruct i as [|i]; [|lia]. destruct k as [|[|[|k]]]; try lia; unfold apply, Csum, member, e0, e1, flip3, delta; apply C_eq; cbn; ring.
Qed.
Lemma ex_decomposition : eigen_decomposition 2 (T_of [0%R; 0%R] [1%R]) exE exV.
Proof.
  pose proof s2_sq as S. split; [|split].
  - intros i j Hi Hj. destruct i as [|[|i]], j as [|[|j]]; try lia; unfold Csum, exV, delta; apply C_eq; cbn; nra.
  - intros i j Hi Hj. destruct i as [|[|i]], j as [|[|j]]; try lia; unfold Csum, exV, delta; apply C_eq; cbn; nra.
  - intros i j Hi Hj. destruct i as [|[|i]], j as [|[|j]]; try lia; unfold Csum, exV, exE, tridiagonal; apply C_eq; cbn; ring.
Qed.
Theorem C36_ltlm_identity_refuted : exists n A qs aa bb E V, lanczos_basis n A qs aa bb /\ eigen_decomposition (length qs) (T_of aa bb) E V /\
  (forall k, k < n -> residual n A qs aa bb k = C0) /\
  forall eps, (0 < eps < / 2)%R -> exists beta, (0 < beta)%R /\ exists x i, ltlm n (length qs) eps E V qs id_matrix [beta] = Some [(x, i)] /\ (i <> 0)%R /\ x = RtoC (i / 2).
Proof.
  exists 3, flip3, [e0; e1], [0%R; 0%R], [1%R], exE, exV. split; [exact ex_basis|]. split; [exact ex_decomposition|]. split.
  { intros k Hk. unfold residual. cbn [length Nat.sub]. destruct k as [|[|[|k]]]; try lia; unfold apply, Csum, member, e0, e1, flip3, delta; apply C_eq; cbn; ring. }
  intros eps He. exists (- ln eps)%R. pose proof s2_sq as S. pose proof s2_pos as Sp.
  assert (Lp : (0 < - ln eps)%R). { assert (ln eps < ln 1)%R by (apply ln_increasing; lra). rewrite ln_1 in H. lra. }
  split; [exact Lp|]. unfold ltlm. cbn [beta_min fold_left length seq].
  assert (WM : fold_right (fun j x => Rmax (Rabs (exV 0 j)) x) 0%R (seq 0 2) = s2).
  { cbn [seq fold_right]. unfold exV. rewrite Rabs_pos_eq by lra. rewrite (Rmax_left s2 0) by lra. apply Rmax_left. lra. }
  assert (S1 : (s2 < 1)%R) by nra.
  assert (Ex : exp (- ln eps) = (/ eps)%R) by (rewrite exp_Ropp, exp_ln by lra; reflexivity).
  assert (W0 : weight 2 exE exV (- ln eps) 0 = (/ eps * s2)%R) by (unfold weight; rewrite WM; unfold exE; replace (- (-1) * - ln eps)%R with (- ln eps)%R by ring; rewrite Ex; reflexivity).
  assert (W1 : weight 2 exE exV (- ln eps) 1 = (eps * s2)%R) by (unfold weight; rewrite WM; unfold exE; replace (- (1) * - ln eps)%R with (ln eps) by ring; rewrite exp_ln by lra; reflexivity).
  assert (I2 : (2 < / eps)%R). { rewrite <- (Rinv_inv 2). apply Rinv_lt_contravar; [|lra]. apply Rmult_lt_0_compat; lra. }
  assert (B2 : (/ 2 < s2)%R) by nra.
  assert (FS : first_small eps (weight 2 exE exV (- ln eps)) [0; 1] = Some 1).
  { cbn [first_small]. rewrite W0, W1. destruct (Rlt_dec (/ eps * s2) eps) as [L|_]; [exfalso; nra|]. destruct (Rlt_dec (eps * s2) eps) as [_|G]; [reflexivity|exfalso; apply G; nra]. }
  rewrite FS. cbn [Nat.eqb seq map].
  do 2 eexists. split; [reflexivity|]. unfold Rsum. cbn [fold_right]. unfold exE, exV. replace (- (-1 * - ln eps))%R with (- ln eps)%R by ring. rewrite Ex, S. split; [nra|].
  unfold Csum. cbn [fold_right length Nat.ltb Nat.leb andb].
  assert (In : inner 3 (member [e0; e1] 0) (apply 3 id_matrix (member [e0; e1] 0)) = C1) by (unfold inner, apply, Csum, member, id_matrix, e0, delta; apply C_eq; cbn; ring).
  rewrite In. replace (- (-1 * (- ln eps / 2)))%R with (- ln eps / 2)%R by field.
  assert (Sq : (exp (- ln eps / 2) * exp (- ln eps / 2) = / eps)%R) by (rewrite <- exp_plus, <- Ex; f_equal; field).
  transitivity (RtoC ((s2 * s2) * (s2 * s2) * (exp (- ln eps / 2) * exp (- ln eps / 2)))); [rewrite !RtoC_mul; ring|].
  rewrite S, Sq. f_equal. field. lra.
Qed.
Print Assumptions C36_ltlm_identity_refuted.

(* with a positive cutoff the routines succeed for every start vector that is not an eigenvector *)
Lemma loop_some n A eps : (0 < eps)%R -> forall rem e, b e <> 0%R -> exists l, loop n A eps rem e = Some l.
Proof.
  intros P. induction rem as [|rem IH]; intros e H; [exists []; reflexivity|]. cbn [loop]. destruct (Req_EM_T (b e) 0) as [|_]; [contradiction|].
  destruct (Rlt_dec (b (step n A e)) eps) as [L|G]; [eexists; reflexivity|]. destruct (IH (step n A e)) as [l ->]; [lra|]. eexists. reflexivity.
Qed.
Lemma norm_zero n v : norm n v = 0%R -> forall k, k < n -> v k = C0.
Proof.
  intros H k Hk. assert (Z : Rsum (seq 0 n) (fun k => fst (v k) * fst (v k) + snd (v k) * snd (v k))%R = 0%R).
  { pose proof (norm_inner n v) as I. rewrite H in I. apply (f_equal fst) in I. unfold inner in I. rewrite Csum_fst in I. cbn [fst RtoC] in I. rewrite Rmult_0_r in I. rewrite <- I. apply Rsum_ext. intros x _. cbn. ring. }
  assert (G : forall l, (0 <= Rsum l (fun k => fst (v k) * fst (v k) + snd (v k) * snd (v k)))%R) by (induction l as [|x l IH]; unfold Rsum in *; cbn [fold_right]; [lra|nra]).
  assert (X : forall l, Rsum l (fun k => fst (v k) * fst (v k) + snd (v k) * snd (v k))%R = 0%R -> In k l -> (fst (v k) * fst (v k) + snd (v k) * snd (v k) = 0)%R).
  { induction l as [|x l IH]; intros E I; [destruct I|]. specialize (G l). unfold Rsum in *. cbn [fold_right] in E. destruct I as [->|I]; [nra|]. apply IH; [nra|exact I]. }
  specialize (X _ Z (proj2 (in_seq _ _ _) (conj (Nat.le_0_l k) Hk))). apply C_eq; cbn [C0 fst snd]; nra.
Qed.
Theorem C36_runs n A eps m v0 : good_start n eps v0 -> norm n v0 <> 0%R -> (0 < eps)%R -> 1 <= m < n ->
  (forall lam : R, ~ forall k, k < n -> apply n A v0 k = (RtoC lam * v0 k)%C) ->
  (exists res, lanczos_full n A eps m false v0 = Some res) /\ exists x, lanczos_iter n A eps eps m v0 = Some x.
Proof.
  intros G Nz P Hm NE. assert (R : exists l, run n A eps m v0 = Some l).
  { unfold run. replace (n <=? m) with false by (symmetry; apply Nat.leb_gt; lia). destruct m as [|m]; [lia|].
    assert (S : exists q0, start n eps v0 = Some q0) by (unfold start; destruct (Rlt_dec _ _); [destruct (Req_EM_T _ _); [contradiction|]|]; eexists; reflexivity). destruct S as [q0 S]. rewrite S.
    destruct (start_unit n eps v0 q0 G S) as [_ F].
    destruct (loop_some n A eps P m (first n A q0)) as [l ->]; [|eexists; reflexivity]. intros Z. change (norm n (fun k => apply n A q0 k + RtoC (- a (first n A q0)) * q0 k)%C = 0%R) in Z.
    apply (NE (a (first n A q0))). intros k Hk. pose proof (norm_zero n _ Z k Hk) as E. cbn beta in E. rewrite RtoC_opp in E.
    transitivity (RtoC (norm n v0) * apply n A q0 k)%C.
    - unfold apply. rewrite <- Csum_mul_l. apply Csum_ext. intros j _. rewrite <- (F j). ring.
    - rewrite <- (F k). assert (X : apply n A q0 k = (RtoC (a (first n A q0)) * q0 k)%C).
      { transitivity ((apply n A q0 k + - RtoC (a (first n A q0)) * q0 k) + RtoC (a (first n A q0)) * q0 k)%C; [ring|]. rewrite E. ring. }
      rewrite X. ring. }
  destruct R as [l R]. unfold lanczos_full, lanczos_iter. rewrite R. cbn [andb]. split; eexists; reflexivity.
Qed.
Print Assumptions C36_runs.
(* a start vector that meets the hypotheses; the bases ex_basis, ex_decomposition meet those of the other theorems *)
Example C36_hyps : good_start 3 (/ 2) e0 /\ norm 3 e0 <> 0%R /\ (forall lam : R, ~ forall k, k < 3 -> apply 3 flip3 e0 k = (RtoC lam * e0 k)%C) /\ hermitian 3 flip3.
Proof.
  assert (N : norm 3 e0 = 1%R) by (apply norm_e; lia). split; [left; exact N|]. split; [rewrite N; lra|]. split.
  - intros lam H. specialize (H 1 ltac:(lia)). apply (f_equal fst) in H. unfold apply, Csum, flip3, e0, delta in H. cbn in H. lra.
  - intros i j Hi Hj. destruct i as [|[|[|i]]], j as [|[|[|j]]]; try lia; apply C_eq; cbn; ring.
Qed.
Example C36_ltlm_hyps : (/ 2 <= weight 2 exE exV 0 0)%R /\ (/ 2 <= weight 2 exE exV 0 1)%R.
Proof.
  pose proof s2_sq as S. pose proof s2_pos as Sp. assert (WM : fold_right (fun j x => Rmax (Rabs (exV 0 j)) x) 0%R (seq 0 2) = s2).
  { cbn [seq fold_right]. unfold exV. rewrite Rabs_pos_eq by lra. rewrite (Rmax_left s2 0) by lra. apply Rmax_left. lra. }
  unfold weight. rewrite WM, !Rmult_0_r, exp_0. split; nra.
Qed.
