(* C61: evolution with a complete eigenbasis (ED_state_vs_time). *)
From Verif Require Import AuxN SpecC SpecExpm SpecLanczos SpecExpect SpecFloquet SpecEd P_floquet M_edtime P_edtime.
Local Open Scope nat_scope.

(* the array stands for the vector v with n > 1 components: one axis, or further axes of length one *)
Definition is_vector (n : nat) (v : vec) (a : array) : Prop :=
  a = V1 n v \/ (exists f, a = V2 n 1 f /\ v = fun i => f i 0) \/ (exists f, a = V2 1 n f /\ v = fun i => f 0 i) \/
  (exists f, a = V3 n 1 1 f /\ v = fun i => f i 0 0) \/ (exists f, a = V3 1 n 1 f /\ v = fun i => f 0 i 0) \/ (exists f, a = V3 1 1 n f /\ v = fun i => f 0 0 i).
Definition is_matrix (n : nat) (rho : mat) (a : array) : Prop :=
  a = V2 n n rho \/ (exists f, a = V3 1 n n f /\ rho = fun i j => f 0 i j) \/ (exists f, a = V3 n 1 n f /\ rho = fun i j => f i 0 j) \/ (exists f, a = V3 n n 1 f /\ rho = fun i j => f i j 0).
Lemma squeeze_vector n v a : 1 < n -> is_vector n v a -> squeeze a = S1 n v.
Proof.
  intros Hn H. assert (E : (n =? 1) = false) by (apply Nat.eqb_neq; lia).
  destruct H as [->|[(f & -> & ->)|[(f & -> & ->)|[(f & -> & ->)|[(f & -> & ->)|(f & -> & ->)]]]]]; cbn [squeeze]; unfold squeeze2, squeeze1; rewrite ?Nat.eqb_refl, ?E; reflexivity.
Qed.
Lemma squeeze_matrix n rho a : 1 < n -> is_matrix n rho a -> squeeze a = S2 n n rho.
Proof.
  intros Hn H. assert (E : (n =? 1) = false) by (apply Nat.eqb_neq; lia).
  destruct H as [->|[(f & -> & ->)|[(f & -> & ->)|(f & -> & ->)]]]; cbn [squeeze]; unfold squeeze2, squeeze1; rewrite ?Nat.eqb_refl, ?E; reflexivity.
Qed.
Lemma nth_turned times k : k < length times -> nth k (map turned times) C0 = turned (nth k times 0%R).
Proof. intro Hk. rewrite (nth_indep _ C0 (turned 0%R)) by (rewrite map_length; exact Hk). apply map_nth. Qed.

(* A state vector: the generator yields the evolved state for each time, and column k of the array is the state at time k. *)
Theorem C61_pure : forall n H E V a psi times, 1 < n -> eigenbasis n H E V -> is_vector n psi a ->
  (exists l, ED_state_vs_time a E (V2 n n V) times true = States l /\ length l = length times /\
     forall k, k < length times -> exists w, nth_error l k = Some w /\ evolves n (fun _ => H) (nth k times 0%R) psi w) /\
  (exists f, ED_state_vs_time a E (V2 n n V) times false = Arr2 n (length times) f /\
     forall k, k < length times -> evolves n (fun _ => H) (nth k times 0%R) psi (fun i => f i k)).
Proof.
  intros n H E V a psi times Hn B HA. assert (HL := length_E n H E V B). unfold ED_state_vs_time. rewrite HL, !Nat.eqb_refl, (squeeze_vector n psi a Hn HA), Nat.eqb_refl. cbn [negb].
  split; eexists; (split; [first [reflexivity|unfold pure_array, M_edtime.n; rewrite map_length, HL; reflexivity]|]).
  - unfold pure_t_iter. rewrite !map_length. split; [reflexivity|]. intros k Hk. rewrite map_map.
    eexists. split; [rewrite nth_error_map, (nth_error_nth' times 0%R Hk); reflexivity|].
    apply (evolves_ext n (fun _ => H) _ psi (pure_at n E V (amp n V psi) (nth k times 0%R))); [reflexivity| |now apply pure_evolves].
    intros i Hi. unfold pure_at, amplitudes, amp, M_edtime.n, En. rewrite HL. apply Csum_ext. intros j _. now rewrite Cexp_wave.
  - intros k Hk. apply (evolves_ext n (fun _ => H) _ psi (pure_at n E V (amp n V psi) (nth k times 0%R))); [reflexivity| |now apply pure_evolves].
    intros i Hi. unfold pure_at, amplitudes, amp, M_edtime.n, En. rewrite HL. apply Csum_ext. intros j _. rewrite nth_turned by exact Hk. now rewrite Cexp_wave'.
Qed.
Print Assumptions C61_pure.

(* A density matrix: the result solves rho' = -i [H, rho]; slice k of the array, along the last axis, is the matrix at time k. *)
Theorem C61_mixed : forall n H E V a rho times, 1 < n -> hermitian n H -> eigenbasis n H E V -> is_matrix n rho a ->
  (exists l, ED_state_vs_time a E (V2 n n V) times true = Matrices l /\ length l = length times /\
     forall k, k < length times -> exists w, nth_error l k = Some w /\ evolves_density n H (nth k times 0%R) rho w) /\
  (exists f, ED_state_vs_time a E (V2 n n V) times false = Arr3 n n (length times) f /\
     forall k, k < length times -> evolves_density n H (nth k times 0%R) rho (fun i l => f i l k)).
Proof.
  intros n H E V a rho times Hn HH B HA. assert (HL := length_E n H E V B). unfold ED_state_vs_time. rewrite HL, !Nat.eqb_refl, (squeeze_matrix n rho a Hn HA), !Nat.eqb_refl. cbn [negb].
  split; eexists; (split; [first [reflexivity|unfold mixed_array, M_edtime.n; rewrite map_length, HL; reflexivity]|]).
  - unfold mixed_t_iter. rewrite !map_length. split; [reflexivity|]. intros k Hk. rewrite map_map.
    eexists. split; [rewrite nth_error_map, (nth_error_nth' times 0%R Hk); reflexivity|].
    destruct (mixed_evolves n H E V B HH rho (nth k times 0%R)) as (r & S1 & S2 & S3). exists r. split; [exact S1|]. split; [exact S2|].
    intros i l Hi Hl. rewrite S3 by assumption. unfold mixed_at, rotated, rot, M_edtime.n, En. rewrite HL. apply Csum_ext. intros j _. apply Csum_ext. intros q _. now rewrite !Cexp_wave'.
  - intros k Hk. destruct (mixed_evolves n H E V B HH rho (nth k times 0%R)) as (r & S1 & S2 & S3). exists r. split; [exact S1|]. split; [exact S2|].
    intros i l Hi Hl. rewrite S3 by assumption. unfold mixed_at, rotated, rot, M_edtime.n, En. rewrite HL. apply Csum_ext. intros j _. apply Csum_ext. intros q _. rewrite nth_turned by exact Hk. now rewrite !Cexp_wave'.
Qed.
Print Assumptions C61_mixed.

(* The density matrix of an ensemble of states becomes that of the evolved states, whatever solutions of the equation of motion they are. *)
Theorem C61_ensemble : forall n H E V a l l' times k, 1 < n -> hermitian n H -> eigenbasis n H E V -> is_matrix n (mixture l) a -> k < length times ->
  Forall2 (fun x y => fst x = fst y /\ evolves n (fun _ => H) (nth k times 0%R) (snd x) (snd y)) l l' ->
  exists f, ED_state_vs_time a E (V2 n n V) times false = Arr3 n n (length times) f /\ forall i j, i < n -> j < n -> f i j k = mixture l' i j.
Proof.
  intros n H E V a l l' times k Hn HH B HA Hk F. assert (HL := length_E n H E V B).
  unfold ED_state_vs_time. rewrite HL, !Nat.eqb_refl, (squeeze_matrix n _ a Hn HA), !Nat.eqb_refl. cbn [negb]. eexists.
  split; [unfold mixed_array, M_edtime.n; rewrite map_length, HL; reflexivity|]. intros i j Hi Hj.
  transitivity (mixed_at n E V (rot n V (mixture l)) (nth k times 0%R) i j).
  { unfold mixed_at, rotated, rot, M_edtime.n, En. rewrite HL. apply Csum_ext. intros p _. apply Csum_ext. intros q _. rewrite nth_turned by exact Hk. now rewrite !Cexp_wave'. }
  rewrite (mixed_mixture n E V). unfold mixture at 1. rewrite Csum_map. cbn [fst snd]. unfold mixture. revert l' F. clear HA HL. induction l as [|x l IH]; intros l' F; inversion F as [|? y ? l2 [F1 F2] F3]; subst; [reflexivity|].
  rewrite !Csum_cons, (IH l2 F3). f_equal.
  assert (U : forall i, i < n -> pure_at n E V (amp n V (snd x)) (nth k times 0%R) i = snd y i).
  { apply (drives_unique n [((fun _ => H), nth k times 0%R)] (snd x)).
    - intros H0 T t [Q|[]]. injection Q as <- _. exact HH.
    - eexists. split; [exact (pure_evolves n H E V B (snd x) (nth k times 0%R))|]. intros ? _. reflexivity.
    - eexists. split; [exact F2|]. intros ? _. reflexivity. }
  rewrite F1, !U by assumption. reflexivity.
Qed.
Print Assumptions C61_ensemble.

(* Norms and overlaps do not depend on time. *)
Theorem C61_norm : forall n H E V a b psi phi times f g, 1 < n -> hermitian n H -> eigenbasis n H E V -> is_vector n psi a -> is_vector n phi b ->
  ED_state_vs_time a E (V2 n n V) times false = Arr2 n (length times) f -> ED_state_vs_time b E (V2 n n V) times false = Arr2 n (length times) g ->
  forall k, k < length times -> inner n (fun i => f i k) (fun i => g i k) = inner n psi phi.
Proof.
  intros n H E V a b psi phi times f g Hn HH B HA HB Ef Eg k Hk.
  destruct (proj2 (C61_pure n H E V a psi times Hn B HA)) as (f' & Ef' & Pf). destruct (proj2 (C61_pure n H E V b phi times Hn B HB)) as (g' & Eg' & Pg).
  rewrite Ef in Ef'. rewrite Eg in Eg'. injection Ef' as <-. injection Eg' as <-.
  exact (evolves_inner n (fun _ => H) _ _ _ _ _ (fun _ => HH) (Pf k Hk) (Pg k Hk)).
Qed.
Print Assumptions C61_norm.

(* What is refused: V that is not square or does not fit E, states that do not fit E, matrices that are not square. *)
Theorem C61_refused : forall a E V times it,
  ((forall n W, V <> V2 n n W) -> ED_state_vs_time a E V times it = Error ValueError) /\
  (forall n W, V = V2 n n W -> n <> length E -> ED_state_vs_time a E V times it = Error TypeError) /\
  (forall n W psi m, V = V2 n n W -> n = length E -> 1 < m -> is_vector m psi a -> m <> n -> ED_state_vs_time a E V times it = Error TypeError) /\
  (forall n W r k f, V = V2 n n W -> n = length E -> a = V2 r k f -> 1 < r -> 1 < k -> r <> k -> r = n -> ED_state_vs_time a E V times it = Error ValueError).
Proof.
  intros a E V times it. repeat split.
  - intro HV. destruct V as [| r k W| |]; try reflexivity. cbn. destruct (Nat.eqb_spec r k) as [->|]; [exfalso; now apply (HV k W)|reflexivity].
  - intros n W -> Hn. cbn. rewrite Nat.eqb_refl. apply Nat.eqb_neq in Hn. now rewrite Hn.
  - intros n W psi m -> Hn Hm HA Hne. cbn. rewrite Nat.eqb_refl, <- Hn, Nat.eqb_refl, (squeeze_vector m psi a Hm HA). cbn. apply Nat.eqb_neq in Hne. now rewrite Hne.
  - intros n W r k f -> Hn -> Hr Hk Hrk Hrn. cbn. rewrite Nat.eqb_refl, <- Hn, Nat.eqb_refl. unfold squeeze2.
    assert (E1 : (r =? 1) = false) by (apply Nat.eqb_neq; lia). assert (E2 : (k =? 1) = false) by (apply Nat.eqb_neq; lia). rewrite E1, E2. cbn.
    subst r. rewrite Nat.eqb_refl. apply Nat.eqb_neq in Hrk. now rewrite Hrk.
Qed.
Print Assumptions C61_refused.

(* --- cases --- *)
(* sigma_x with its eigenvectors (1,1)/sqrt 2 and (1,-1)/sqrt 2 *)
Definition flip : mat := fun i j => match i, j with 0, 1 | 1, 0 => C1 | _, _ => C0 end.
Definition had : mat := fun i j => match i, j with 1, 1 => RtoC (- / sqrt 2) | _, _ => RtoC (/ sqrt 2) end.
Lemma half : (/ sqrt 2 * / sqrt 2 = / 2)%R.
Proof. rewrite <- Rinv_mult, sqrt_sqrt by lra. reflexivity. Qed.
Example C61_meets : hermitian 2 flip /\ eigenbasis 2 flip [1; -1]%R had /\ is_vector 2 (unit_vec 0) (V1 2 (unit_vec 0)).
Proof.
  assert (Q := half). split; [intros [|[|i]] [|[|j]] Hi Hj; try lia; unfold flip; apply C_eq; cbn; ring|]. split; [|left; reflexivity].
  split; [reflexivity|]. split; [split|].
  - intros [|[|i]] [|[|j]] Hi Hj; try lia; unfold inner, had, delta, Csum; apply C_eq; cbn; nra.
  - intros [|[|i]] [|[|j]] Hi Hj; try lia; unfold inner, had, delta, Csum; apply C_eq; cbn; nra.
  - intros [|[|i]] [|[|j]] Hi Hj; try lia; unfold apply, flip, column, had, Csum; apply C_eq; cbn; ring.
Qed.

(* The documentation has the states as rows of the array: they are its columns. *)
Theorem C61_rows_refuted : exists n H E V psi times f, 1 < n /\ hermitian n H /\ eigenbasis n H E V /\
  ED_state_vs_time (V1 n psi) E (V2 n n V) times false = Arr2 n (length times) f /\ length times = n /\
  ~ evolves n (fun _ => H) (nth 0 times 0%R) psi (fun i => f 0 i).
Proof.
  destruct C61_meets as (M1 & M2 & M3).
  destruct (proj2 (C61_pure 2 flip [1; -1]%R had (V1 2 (unit_vec 0)) (unit_vec 0) [0; 0]%R ltac:(lia) M2 M3)) as (f & Ef & Pf).
  exists 2, flip, [1; -1]%R, had, (unit_vec 0), [0; 0]%R, f. split; [lia|]. split; [exact M1|]. split; [exact M2|]. split; [exact Ef|]. split; [reflexivity|].
  intros (p & _ & P1 & P2). destruct (Pf 1 ltac:(cbn; lia)) as (q & _ & Q1 & Q2). cbn [nth] in *.
  pose proof (P2 1 ltac:(lia)) as A. rewrite P1 in A by lia. pose proof (Q2 0 ltac:(lia)) as D. rewrite Q1 in D by lia. cbn beta in A, D.
  assert (Z : unit_vec 0 1 = unit_vec 0 0) by congruence. apply (f_equal fst) in Z. cbn in Z. lra.
Qed.
Print Assumptions C61_rows_refuted.

(* In a space of dimension one every state is refused with IndexError: squeeze removes its only axis. *)
Theorem C61_single_refuted : forall E V times it, length E = 1 ->
  (forall f, ED_state_vs_time (V1 1 f) E (V2 1 1 V) times it = Error IndexError) /\ (forall f, ED_state_vs_time (V2 1 1 f) E (V2 1 1 V) times it = Error IndexError).
Proof. intros E V times it HE. unfold ED_state_vs_time. rewrite HE. split; reflexivity. Qed.
Print Assumptions C61_single_refuted.
