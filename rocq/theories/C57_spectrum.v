(* C57: quasi-energies EF, phases thetaF and eigenvectors VF of the class Floquet. *)
From Coq Require Import Sorted.
From Verif Require Import AuxN SpecC SpecExpm SpecLanczos SpecExpect SpecFloquet M_symop M_floquet P_expect P_lanczos P_floquet P_floquet2 C57_floquet.
Local Open Scope nat_scope.

Definition zero_vec : vec := fun _ => C0.
(* what is assumed of the functions of numpy and scipy, for the matrix at hand *)
Definition right_eig (ext : external) (n : nat) (A : mat) : Prop :=
  length (eig ext n A) = n /\ forall th v, In (th, v) (eig ext n A) -> eigenvector n A th v.
(* V = Q R with orthonormal columns in Q and an invertible upper triangular matrix R *)
Definition right_qr (ext : external) (n : nat) (V : list vec) : Prop :=
  length (qr ext n V) = length V /\ orthonormal n n (fun j => nth j (qr ext n V) zero_vec) /\
  exists r : mat, forall j, j < n -> r j j <> C0 /\
    forall k, k < n -> nth j V zero_vec k = Csum (seq 0 (S j)) (fun i => r i j * nth i (qr ext n V) zero_vec k)%C.
Definition right_arg (ext : external) : Prop :=
  forall z, (z * Cconj z)%C = C1 -> z = cis (arg ext z) /\ (- PI < arg ext z <= PI)%R.
Definition right_argsort (ext : external) : Prop :=
  forall l, Permutation (argsort ext l) (seq 0 (length l)) /\ Sorted Rle (map (fun i => nth i l 0%R) (argsort ext l)).
Definition right_linalg (ext : external) (n : nat) (A : mat) : Prop :=
  right_eig ext n A /\ right_qr ext n (map snd (eig ext n A)) /\ (forall l, Permutation (np_sort ext l) l) /\ right_arg ext /\ right_argsort ext.

(* the phases are far apart: they are different *)
Lemma diff_cons x y l : diff (x :: y :: l) = (y - x)%C :: diff (y :: l). Proof. reflexivity. Qed.
Lemma not_close z : close z = false -> (0 < fst z)%R.
Proof.
  unfold close, Rltb. intro H. apply orb_false_elim in H. destruct H as [H _].
  destruct (Rlt_dec (fst z) (10 ^ 3 * macheps)) as [|Hn]; [discriminate|].
  assert (0 < macheps)%R by (unfold macheps; apply Rinv_0_lt_compat; apply pow_lt; lra).
  assert (0 < 10 ^ 3 * macheps)%R by (apply Rmult_lt_0_compat; [apply pow_lt; lra|assumption]). lra.
Qed.
Lemma far_increasing l : forall x, existsb close (diff (x :: l)) = false -> forall y, In y l -> (fst x < fst y)%R.
Proof.
  induction l as [|z l IH]; intros x H y Hy; [destruct Hy|]. rewrite diff_cons in H. cbn [existsb] in H.
  apply orb_false_elim in H. destruct H as [H1 H2]. apply not_close in H1. unfold Csub in H1. cbn [fst] in H1.
  destruct Hy as [<-|Hy]; [lra|]. pose proof (IH z H2 y Hy). lra.
Qed.
Lemma far_NoDup l : existsb close (diff l) = false -> NoDup l.
Proof.
  induction l as [|x l IH]; intro H; constructor.
  - intro Hx. pose proof (far_increasing l x H x Hx). lra.
  - apply IH. destruct l as [|y l]; [reflexivity|]. rewrite diff_cons in H. cbn [existsb] in H. apply orb_false_elim in H. apply H.
Qed.

Lemma take_nth {X} (d : X) l ind j : j < length ind -> nth j (take d l ind) d = nth (nth j ind 0) l d.
Proof. intro H. unfold take. rewrite (nth_indep _ d ((fun i => nth i l d) 0)) by (rewrite map_length; exact H). exact (map_nth (fun i => nth i l d) ind 0 j). Qed.
Lemma nth_map {X Y} (f : X -> Y) l i d e : i < length l -> nth i (map f l) d = f (nth i l e).
Proof. intro H. rewrite (nth_indep _ _ (f e)) by (rewrite map_length; exact H). apply map_nth. Qed.

Lemma vectors ext n A : unitary n A -> right_linalg ext n A ->
  let ev := eig ext n A in
  let V' := if existsb close (diff (np_sort ext (map fst ev))) then qr ext n (map snd ev) else map snd ev in
  orthonormal n n (fun j => nth j V' zero_vec) /\ forall j, j < n -> eigenvector n A (nth j (map fst ev) C0) (nth j V' zero_vec).
Proof.
  intros HU ([HL HE] & HQ & HS & _). cbv zeta. set (ev := eig ext n A) in *.
  assert (HV : forall j, j < n -> eigenvector n A (nth j (map fst ev) C0) (nth j (map snd ev) zero_vec)).
  { intros j Hj. rewrite (nth_map fst ev j C0 (C0, zero_vec)), (nth_map snd ev j zero_vec (C0, zero_vec)) by (rewrite HL; exact Hj).
    apply HE. rewrite <- surjective_pairing. apply nth_In. rewrite HL. exact Hj. }
  destruct (existsb close _) eqn:E.
  - destruct HQ as (_ & HO & r & Hr). split; [exact HO|].
    exact (qr_eigen n A n (fun j => nth j (map fst ev) C0) (fun j => nth j (map snd ev) zero_vec) (fun j => nth j (qr ext n (map snd ev)) zero_vec) r HU HV HO Hr).
  - split; [|exact HV]. apply far_NoDup in E. apply (Permutation_NoDup (HS _)) in E. intros i j Hi Hj.
    unfold delta. destruct (Nat.eqb_spec i j) as [->|Hne]; [apply HV; exact Hj|].
    apply (eigen_orth n A (nth i (map fst ev) C0) (nth j (map fst ev) C0)); [exact HU|exact (eigen_phase n A _ _ HU (HV i Hi))| |apply HV; exact Hi|apply HV; exact Hj].
    intro HEq. apply Hne. apply (proj1 (NoDup_nth _ C0) E); [rewrite map_length, HL; exact Hi|rewrite map_length, HL; exact Hj|exact HEq].
Qed.

(* Quasi-energies in increasing order, in the zone of width 2 pi/T around 0; VF are orthonormal eigenvectors of UF, also when
   phases are degenerate; thetaF = exp(-i EF T) are the eigenvalues that belong to them. *)
Theorem C57_spectrum : forall ext n T UF, unitary n UF -> T <> 0%R -> right_linalg ext n UF ->
  let sp := spectrum_of ext n T UF in
  length (EF sp) = n /\ length (thetaF sp) = n /\ length (VF sp) = n /\ Sorted Rle (EF sp) /\
  orthonormal n n (fun j => nth j (VF sp) zero_vec) /\
  forall j, j < n ->
    eigenvector n UF (nth j (thetaF sp) C0) (nth j (VF sp) zero_vec) /\
    nth j (thetaF sp) C0 = cis (- (nth j (EF sp) 0%R * T)) /\
    (Rabs (nth j (EF sp) 0%R) <= PI / Rabs T)%R.
Proof.
  intros ext n T UF HU HT HR. cbv zeta. destruct (vectors ext n UF HU HR) as [HO HV]. cbv zeta in HO, HV.
  destruct HR as ([HL HE] & HQ & HS & HA & HI). unfold spectrum_of. cbn [EF thetaF VF].
  set (ev := eig ext n UF) in *. set (V' := if existsb _ _ then _ else _) in *.
  set (E := map _ (map fst ev)). destruct (HI E) as [HP HSort]. set (ind := argsort ext E) in *.
  assert (LE : length E = n) by (unfold E; rewrite !map_length; exact HL).
  assert (LI : length ind = n) by (rewrite (Permutation_length HP), seq_length; exact LE).
  assert (Hin : forall j, j < n -> nth j ind 0 < n).
  { intros j Hj. assert (In (nth j ind 0) (seq 0 (length E))) by (apply (Permutation_in _ HP), nth_In; lia). rewrite LE in H. apply in_seq in H. lia. }
  assert (ND : NoDup ind) by (apply (Permutation_NoDup (Permutation_sym HP)), seq_NoDup).
  split; [unfold take; rewrite map_length; exact LI|]. split; [unfold take; rewrite map_length; exact LI|].
  split; [unfold take; rewrite map_length; exact LI|]. split; [exact HSort|]. split.
  - intros i j Hi Hj. change (fun _ : nat => C0) with zero_vec.
    rewrite !take_nth by (rewrite LI; assumption). rewrite (HO (nth i ind 0) (nth j ind 0)) by auto.
    unfold delta. destruct (Nat.eqb_spec i j) as [->|Hne]; [now rewrite Nat.eqb_refl|].
    destruct (Nat.eqb_spec (nth i ind 0) (nth j ind 0)) as [HEq|]; [|reflexivity].
    exfalso. apply Hne. apply (proj1 (NoDup_nth _ 0) ND); [lia|lia|exact HEq].
  - intros j Hj. change (fun _ : nat => C0) with zero_vec. rewrite !take_nth by (rewrite LI; assumption).
    set (i := nth j ind 0). pose proof (HV i (Hin j Hj)) as Hev.
    assert (EE : nth i E 0%R = (- (arg ext (nth i (map fst ev) C0) * / T))%R).
    { unfold E. rewrite (nth_map _ _ i 0%R C0) by (rewrite map_length, HL; apply Hin; exact Hj). unfold np_log. cbn. ring. }
    destruct (HA _ (eigen_phase n UF _ _ HU Hev)) as [Hcis Hrange].
    split; [exact Hev|]. split.
    + rewrite EE. rewrite Hcis at 1. f_equal. field. exact HT.
    + rewrite EE, Rabs_Ropp, Rabs_mult, Rabs_inv. unfold Rdiv. apply Rmult_le_compat_r.
      * left. apply Rinv_0_lt_compat. apply Rabs_pos_lt. exact HT.
      * apply Rabs_le. lra.
Qed.
Print Assumptions C57_spectrum.

(* The quasi-energies are right: the complex conjugates of the columns of VF are orthonormal states that get the factors
   exp(-i EF T) over one period of the protocol.  (The columns themselves do not, C57_UF_refuted.) *)
Theorem C57_quasienergies : forall ext e n T UF, solvers_right ext e -> make_UF ext e = Made n T UF -> hermitian_protocol n (asked e) ->
  T <> 0%R -> right_linalg ext n UF ->
  let sp := spectrum_of ext n T UF in
  orthonormal n n (fun j k => Cconj (nth j (VF sp) zero_vec k)) /\
  forall j, j < n -> floquet_state n (asked e) (cis (- (nth j (EF sp) 0%R * T))) (fun k => Cconj (nth j (VF sp) zero_vec k)).
Proof.
  intros ext e n T UF HS HM HH HT HR. cbv zeta.
  pose proof (C57_unitary ext e n T UF HS HM HH) as HU.
  destruct (C57_spectrum ext n T UF HU HT HR) as (_ & _ & _ & _ & HO & HE). split.
  - intros i j Hi Hj. transitivity (Cconj (inner n (nth i (VF (spectrum_of ext n T UF)) zero_vec) (nth j (VF (spectrum_of ext n T UF)) zero_vec))).
    + unfold inner. rewrite Csum_conj. apply Csum_ext. intros. now rewrite Cconj_mul.
    + rewrite (HO i j Hi Hj). unfold delta. destruct (i =? j); apply C_eq; cbn; ring.
  - intros j Hj. destruct (HE j Hj) as (Hev & Hth & _). rewrite Hth in Hev.
    destruct (conj_eigen n UF _ _ HU Hev) as [H1 H2]. split; [exact H1|].
    pose proof (rows_operator n (asked e) UF (proj2 (proj2 (rows ext e n T UF HS HM)))) as HOp.
    refine (drives_ext n (asked e) _ _ _ _ _ H2 (HOp _)). reflexivity.
Qed.
Print Assumptions C57_quasienergies.

(* --- an instance: the two steps of C57_floquet.v with right functions --- *)
Definition real_arg (z : C) : R := if Rle_dec 0 (snd z) then acos (fst z) else (- acos (fst z))%R.
Fixpoint insert_by (key : nat -> R) (i : nat) (l : list nat) : list nat :=
  match l with [] => [i] | j :: r => if Rle_dec (key i) (key j) then i :: l else j :: insert_by key i r end.
Definition real_argsort (l : list R) : list nat := fold_right (insert_by (fun i => nth i l 0%R)) [] (seq 0 (length l)).
Lemma insert_perm key i l : Permutation (insert_by key i l) (i :: l).
Proof.
  induction l as [|j l IH]; cbn; [reflexivity|]. destruct (Rle_dec _ _); [reflexivity|].
  rewrite IH. apply perm_swap.
Qed.
Lemma insert_sorted key i l : Sorted Rle (map key l) -> Sorted Rle (map key (insert_by key i l)).
Proof.
  induction l as [|j l IH]; cbn [insert_by map]; intro H; [repeat constructor|].
  destruct (Rle_dec (key i) (key j)) as [Hle|Hn]; cbn [map].
  - constructor; [exact H|]. constructor. exact Hle.
  - apply Sorted_inv in H. destruct H as [H1 H2]. constructor; [now apply IH|].
    destruct l as [|k l]; cbn [insert_by map]; [constructor; lra|].
    destruct (Rle_dec (key i) (key k)); cbn [map]; constructor; [lra|]. inversion H2. assumption.
Qed.
Lemma real_argsort_right l : Permutation (real_argsort l) (seq 0 (length l)) /\ Sorted Rle (map (fun i => nth i l 0%R) (real_argsort l)).
Proof.
  unfold real_argsort. induction (seq 0 (length l)) as [|i s [IHp IHs]]; cbn [fold_right map]; [split; constructor|]. split.
  - rewrite insert_perm. now constructor.
  - now apply insert_sorted.
Qed.
Lemma real_arg_right z : (z * Cconj z)%C = C1 -> z = cis (real_arg z) /\ (- PI < real_arg z <= PI)%R.
Proof.
  destruct z as [x y]. intro H. apply (f_equal fst) in H. cbn in H. unfold real_arg. cbn [fst snd].
  assert (Hx : (-1 <= x <= 1)%R) by nra. pose proof (acos_bound x) as HB. pose proof PI_RGT_0 as HP.
  assert (HS : sqrt (1 - x²) = Rabs y) by (rewrite <- sqrt_Rsqr_abs; f_equal; unfold Rsqr; lra).
  destruct (Rle_dec 0 y) as [Hy|Hy].
  - split; [|lra]. unfold cis. rewrite cos_acos, sin_acos by exact Hx. rewrite HS, Rabs_right by lra. reflexivity.
  - split.
    + unfold cis. rewrite cos_neg, sin_neg, cos_acos, sin_acos by exact Hx. rewrite HS, Rabs_left by lra. f_equal. ring.
    + split; [|lra]. destruct (Req_dec (acos x) PI) as [E|E]; [|lra]. exfalso.
      assert (x = cos PI) by (rewrite <- E; symmetry; now apply cos_acos). rewrite cos_PI in H0. nra.
Qed.
Definition plus : vec := fun k => if k =? 0 then RtoC (/ sqrt 2) else (- Ci * RtoC (/ sqrt 2))%C.
Definition minus : vec := fun k => if k =? 0 then RtoC (/ sqrt 2) else (Ci * RtoC (/ sqrt 2))%C.
Definition full_ext : external :=
  {| expm_multiply := fun _ H t v => rotation H t v; evolve := fun _ _ _ => None; eig := fun _ _ => [(Ci, plus); ((- Ci)%C, minus)]; qr := fun _ V => V;
     np_sort := fun l => l; arg := real_arg; argsort := real_argsort; t_check := 0%R |}.
Lemma half : (/ sqrt 2 * / sqrt 2 = / 2)%R.
Proof. rewrite <- Rinv_mult, sqrt_sqrt by lra. reflexivity. Qed.
Example full_right : right_linalg full_ext 2 example_UF.
Proof.
  pose proof half as Hh. destruct example_entries as (E00 & E01 & E10 & E11).
  assert (N : forall u, u = plus \/ u = minus -> inner 2 u u = C1).
  { intros u [->| ->]; unfold inner, plus, minus; apply C_eq; cbn; [|ring| |ring]; transitivity (2 * (/ sqrt 2 * / sqrt 2))%R; try ring; lra. }
  assert (O : inner 2 plus minus = C0 /\ inner 2 minus plus = C0).
  { split; unfold inner, plus, minus; apply C_eq; cbn; ring. }
  split; [|split; [|split; [|split]]].
  - split; [reflexivity|]. intros th v [E|[E|[]]]; injection E as <- <-; (split; [apply N; auto|]); intros k Hk; unfold apply; cbn [seq]; rewrite !Csum_cons, Csum_nil;
      (destruct k as [|[|k]]; [rewrite E00, E01|rewrite E10, E11|lia]); unfold plus, minus; apply C_eq; cbn; ring.
  - split; [reflexivity|]. split.
    + intros i j Hi Hj. destruct i as [|[|i]]; try lia; destruct j as [|[|j]]; try lia; cbn [full_ext qr eig map snd nth].
      * rewrite N by auto. reflexivity.
      * rewrite (proj1 O). reflexivity.
      * rewrite (proj2 O). reflexivity.
      * rewrite N by auto. reflexivity.
    + exists delta. intros j Hj. split; [unfold delta; rewrite Nat.eqb_refl; intro E; apply (f_equal fst) in E; cbn in E; lra|].
      intros k Hk. cbn [full_ext qr]. rewrite (Csum_single _ _ j); [|apply seq_NoDup|apply in_seq; lia|].
      * unfold delta. rewrite Nat.eqb_refl. ring.
      * intros x _ Hx. unfold delta. destruct (Nat.eqb_spec x j); [congruence|ring].
  - intro l. reflexivity.
  - exact real_arg_right.
  - exact real_argsort_right.
Qed.
(* so C57_spectrum and C57_quasienergies apply to the two steps *)
Example full_instance : exists T, make_UF full_ext two_steps = Made 2 T example_UF /\ T = PI /\ solvers_right full_ext two_steps /\
  hermitian_protocol 2 (asked two_steps) /\ right_linalg full_ext 2 example_UF.
Proof.
  eexists. split; [reflexivity|]. split; [unfold period, total; cbn [fold_right]; lra|]. split; [exact example_right|]. split; [exact example_herm|exact full_right].
Qed.
