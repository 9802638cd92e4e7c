(* C47: the diagonal ensemble. *)
From Verif Require Import AuxN SpecC SpecExpm SpecLanczos SpecExpect SpecEntropy SpecDiag M_entropy M_diag P_entropy P_diag P_diag2 C47_entropy.
From Coq Require Import Lra.
Local Open Scope R_scope.

(* the average is determined by the function *)
Theorem C47_time_average_unique f a b : time_average f a -> time_average f b -> a = b.
Proof. apply average_unique. Qed.
Print Assumptions C47_time_average_unique.
Definition divisor (density : bool) (N : nat) : R := if density then INR N else 1.
Lemma scaled_fin density N x : (0 < N)%nat -> scaled density N (Fin x) = Fin (x / divisor density N).
Proof. intros H. unfold scaled, divisor. destruct density; [apply np_div_fin, not_0_INR; lia|]. f_equal. field. Qed.

Section Accepted.
Context (n : nat) (eps : R) (V : mat) (E : nat -> R) (N : nat) (s : state).
(* energies at least 1000 eps apart, and every population larger than 1E-16 *)
Definition resolved : Prop :=
  0 < eps /\ (0 < N)%nat /\ (0 < n)%nat /\ hermitian_state n s /\ (forall j k, (j < n)%nat -> (k < n)%nat -> j <> k -> 1000 * eps <= Rabs (E j - E k)) /\ (forall j, (j < n)%nat -> / 10 ^ 16 < population n V s j).
Lemma resolved_call density alpha rho_d o dt dq sd : resolved -> obs_check n o (dt || dq) = true ->
  exists rho, (forall j, (j < n)%nat -> rho j = population n V s j) /\
  diag_ensemble n eps V N (system_of s) (map E (seq 0 n)) density alpha rho_d o dt dq sd =
  match values_for n V o dt dq sd alpha (population n V s) with
  | None => None
  | Some l => Some (map (fun x => (fst x, Single (scaled density N (snd x)))) l ++ (if rho_d then [(K_rho, Diagonal rho)] else []))
  end.
Proof.
  intros (He & _ & _ & _ & HE & Hp) Ho. exists (fun j => floored eps (rho_of n V s j)).
  assert (Hj : forall j, (j < n)%nat -> floored eps (rho_of n V s j) = population n V s j) by (intros j Hj; rewrite rho_of_population; apply floored_big, Hp, Hj). split; [exact Hj|].
  unfold diag_ensemble. rewrite (proj2 (degenerate_spec eps E n He) HE), Ho. cbn [negb]. rewrite <- (values_for_ext n V o dt dq sd alpha _ _ Hj). destruct s; reflexivity.
Qed.
Lemma populations_entropy alpha : resolved -> 0 < alpha -> ensemble_entropy alpha (map (population n V s) (seq 0 n)) = Some (Fin (entropy alpha (map (population n V s) (seq 0 n)))).
Proof.
  intros (He & _ & Hn & _ & _ & Hp) Ha. assert (H10 : 0 < / 10 ^ 16) by (apply Rinv_0_lt_compat; lra).
  refine (proj1 (proj2 (proj2 (C47_renyi_partial alpha _ 1 Ha _)))). split.
  - apply Forall_map, Forall_forall. intros j Hj. apply in_seq in Hj. pose proof (Hp j ltac:(lia)). lra.
  - apply Exists_exists. exists (population n V s 0). split; [apply in_map, in_seq; lia|]. pose proof (Hp 0%nat Hn). lra.
Qed.
End Accepted.

(* energies that are not 1000 eps apart are rejected, for every input *)
Theorem C47_diag_degenerate n eps V E N s density alpha rho_d o dt dq sd : 0 < eps ->
  (exists j k, (j < n)%nat /\ (k < n)%nat /\ j <> k /\ Rabs (E j - E k) < 1000 * eps) ->
  diag_ensemble n eps V N s (map E (seq 0 n)) density alpha rho_d o dt dq sd = None.
Proof.
  intros He (j & k & Hj & Hk & Hne & Hl). unfold diag_ensemble. destruct (degenerate eps (map E (seq 0 n))) eqn:D; [reflexivity|].
  pose proof (proj1 (degenerate_spec eps E n He) D j k Hj Hk Hne). lra.
Qed.
Print Assumptions C47_diag_degenerate.
(* the value "Obs" for a pure state or a density matrix is the long-time average of <O>, the entropy that of the populations, and "rho_d" holds the populations *)
Theorem C47_diag_average n eps V E N s A density alpha rho_d sd array : resolved n eps V E N s -> 0 < alpha -> hermitian n A ->
  exists a rho, time_average (expectation n V E A s) a /\ (forall j, (j < n)%nat -> rho j = population n V s j) /\
  diag_ensemble n eps V N (system_of s) (map E (seq 0 n)) density alpha rho_d (if array : bool then ObsArray A else ObsHam A) false false sd =
  Some ([(K_Obs, Single (Fin (a / divisor density N)))] ++
        (if sd then [(K_Sd, Single (Fin (entropy alpha (map (population n V s) (seq 0 n)) / divisor density N)))] else []) ++
        (if rho_d then [(K_rho, Diagonal rho)] else [])).
Proof.
  intros HR Ha HA. destruct (resolved_call n eps V E N s density alpha rho_d (if array then ObsArray A else ObsHam A) false false sd HR) as [rho [Hrho Hc]]; [destruct array; reflexivity|].
  exists (obs_d n V A (population n V s)), rho. pose proof (populations_entropy n eps V E N s alpha HR Ha) as He. destruct HR as (He0 & HN & Hn & Hs & HE & Hp).
  split; [apply obs_average; [exact HA|exact Hs|exact (separated_distinct n eps E He0 HE)]|]. split; [exact Hrho|]. rewrite Hc. unfold values_for. rewrite He.
  assert (Ho : obs_matrix (if array then ObsArray A else ObsHam A) = Some A) by (destruct array; reflexivity). rewrite Ho. cbn [orb app]. destruct sd; cbn [map app fst snd]; rewrite !scaled_fin by exact HN; reflexivity.
Qed.
Print Assumptions C47_diag_average.
(* pure states, observables with real matrix elements in the eigenbasis, non-degenerate gaps: delta_t^2 is the long-time variance of <O(t)>, delta_q^2 the long-time average of
   <O^2> - <O>^2 (each divided by N when density is set).  delta_q includes delta_t in the output. *)
Theorem C47_diag_fluctuations_partial n eps V E N psi A density alpha rho_d dt dq sd :
  resolved n eps V E N (Ket psi) -> 0 < alpha -> unitary n V -> inner n psi psi = C1 -> hermitian n A -> real_elements n V A -> distinct_gaps n E ->
  exists a b c rho, time_average (expectation n V E A (Ket psi)) a /\ time_average (fun t => expectation n V E A (Ket psi) t * expectation n V E A (Ket psi) t) b /\
  time_average (expectation n V E (mul n A A) (Ket psi)) c /\ 0 <= b - a * a /\ 0 <= c - b /\ (forall j, (j < n)%nat -> rho j = population n V (Ket psi) j) /\
  diag_ensemble n eps V N (Vector psi) (map E (seq 0 n)) density alpha rho_d (ObsHam A) dt dq sd =
  Some ([(K_Obs, Single (Fin (a / divisor density N)))] ++
        (if dt || dq then [(K_delta_t, Single (Fin (sqrt (b - a * a) / divisor density N)))] else []) ++
        (if dq then [(K_delta_q, Single (Fin (sqrt (c - b) / divisor density N)))] else []) ++
        (if sd then [(K_Sd, Single (Fin (entropy alpha (map (population n V (Ket psi)) (seq 0 n)) / divisor density N)))] else []) ++
        (if rho_d then [(K_rho, Diagonal rho)] else [])).
Proof.
  intros HR Ha HV Hn1 HA Hre Hg. destruct (resolved_call n eps V E N (Ket psi) density alpha rho_d (ObsHam A) dt dq sd HR) as [rho [Hrho Hc]]; [unfold obs_check; destruct (dt || dq); reflexivity|].
  set (r := population n V (Ket psi)) in *. set (a := obs_d n V A r). exists a, (a * a + delta_t2 n V A r), (obs_d n V (mul n A A) r), rho.
  pose proof (populations_entropy n eps V E N (Ket psi) alpha HR Ha) as He. destruct HR as (He0 & HN & Hn & Hs & HE & Hp).
  assert (H1 : 0 <= delta_t2 n V A r) by (apply delta_t2_nonneg; [exact Hre|apply population_ket_nonneg]).
  assert (H2 : 0 <= delta_q2 n V A r) by (apply delta_q2_nonneg; [exact HV|exact HA|exact Hre|apply population_ket_nonneg|apply population_total; assumption]).
  assert (H3 : obs_d n V (mul n A A) r - (a * a + delta_t2 n V A r) = delta_q2 n V A r) by (rewrite delta_q2_value by exact HV; fold a; ring).
  split; [apply obs_average; [exact HA|exact Hs|exact (gaps_energies n E Hg)]|]. split; [apply square_average; assumption|]. split; [apply obs_average; [apply hermitian_square, HA|exact Hs|exact (gaps_energies n E Hg)]|].
  split; [lra|]. split; [rewrite H3; exact H2|]. split; [exact Hrho|]. change (Vector psi) with (system_of (Ket psi)). rewrite Hc. unfold values_for. fold r in He. rewrite He. cbn [obs_matrix].
  rewrite H3. replace (a * a + delta_t2 n V A r - a * a) with (delta_t2 n V A r) by ring. rewrite !np_sqrt_pos by assumption. fold a. destruct dt, dq, sd, rho_d; cbn [map app orb fst snd]; rewrite !scaled_fin by exact HN; reflexivity.
Qed.
Print Assumptions C47_diag_fluctuations_partial.

(* ---- a concrete quench: two levels with energies 0 and 1, the state (3|0> + 4|1>)/5 ---- *)
Definition I2 : mat := fun i j => if (i =? j)%nat then C1 else C0.
Definition sx : mat := fun i j => if (i =? j)%nat then C0 else C1.
Definition sy : mat := fun i j => if (i =? j)%nat then C0 else if (i =? 0)%nat then (0, -1) else (0, 1).
Definition levels (j : nat) : R := INR j.
Definition psi2 : vec := fun i => if (i =? 0)%nat then (3 / 5, 0) else (4 / 5, 0).
Definition eps64 : R := / 2 ^ 52.
Lemma eps64_bounds : 0 < eps64 /\ 1000 * eps64 <= 1 /\ / 10 ^ 16 < eps64.
Proof.
  unfold eps64. assert (H : 0 < 2 ^ 52) by (apply pow_lt; lra). split; [apply Rinv_0_lt_compat; exact H|]. split.
  - apply (Rmult_le_reg_r (2 ^ 52)); [exact H|]. rewrite Rmult_assoc, Rinv_l by lra. lra.
  - apply Rinv_lt_contravar; [apply Rmult_lt_0_compat; [exact H|apply pow_lt; lra]|]. lra.
Qed.
Lemma gaps2 : forall j k, (j < 2)%nat -> (k < 2)%nat -> j <> k -> 1000 * eps64 <= Rabs (levels j - levels k).
Proof.
  destruct eps64_bounds as (_ & H & _). intros [|[|j]] [|[|k]] Hj Hk Hne; try lia; unfold levels; cbn [INR]; [replace (0 - 1) with (- (1)) by ring; rewrite Rabs_Ropp, Rabs_R1|replace (1 - 0) with 1 by ring; rewrite Rabs_R1]; exact H.
Qed.
Lemma unitary_I2 : unitary 2 I2.
Proof. split; intros [|[|j]] [|[|k]] Hj Hk; try lia; apply C_eq; cbn; ring. Qed.
Lemma population2 : population 2 I2 (Ket psi2) 0 = 9 / 25 /\ population 2 I2 (Ket psi2) 1 = 16 / 25.
Proof. split; cbn; field. Qed.
Lemma resolved2 N : (0 < N)%nat -> resolved 2 eps64 I2 levels N (Ket psi2).
Proof.
  intros HN. destruct eps64_bounds as (H0 & H1 & H2). destruct population2 as [P0 P1]. split; [exact H0|]. split; [exact HN|]. split; [lia|]. split; [exact Logic.I|]. split; [exact gaps2|].
  assert (H : / 10 ^ 16 < 1 / 5) by (pose proof (Rinv_lt_contravar 5 (10 ^ 16) ltac:(lra) ltac:(lra)); lra).
  intros [|[|j]] Hj; [rewrite P0; lra|rewrite P1; lra|lia].
Qed.
Lemma distinct_gaps2 : distinct_gaps 2 levels.
Proof. intros [|[|j]] [|[|k]] [|[|l]] [|[|m]] Hj Hk Hl Hm H; try lia; unfold levels in H; cbn [INR] in H; try lra; tauto. Qed.
Example C47_diag_example : resolved 2 eps64 I2 levels 2 (Ket psi2) /\ unitary 2 I2 /\ inner 2 psi2 psi2 = C1 /\ hermitian 2 sx /\ real_elements 2 I2 sx /\ distinct_gaps 2 levels /\
  element 2 I2 sx 0 1 = C1.
Proof.
  split; [apply resolved2; lia|]. split; [exact unitary_I2|]. split; [apply C_eq; cbn; field|]. split; [intros [|[|i]] [|[|j]] Hi Hj; try lia; apply C_eq; cbn; ring|].
  split; [intros [|[|i]] [|[|j]] Hi Hj; try lia; cbn; ring|]. split; [exact distinct_gaps2|]. apply C_eq; cbn; ring.
Qed.

(* populations up to 1E-16 are replaced by eps: the error of "Obs" is at most eps times the sum of |<n|O|n>| *)
Theorem C47_diag_floor_partial n eps V E N psi A density alpha array : 0 < eps -> / 10 ^ 16 <= eps -> (0 < N)%nat -> 0 <= alpha -> hermitian n A ->
  (forall j k, (j < n)%nat -> (k < n)%nat -> j <> k -> 1000 * eps <= Rabs (E j - E k)) ->
  exists a x, time_average (expectation n V E A (Ket psi)) a /\
  diag_ensemble n eps V N (Vector psi) (map E (seq 0 n)) density alpha false (if array : bool then ObsArray A else ObsHam A) false false false = Some [(K_Obs, Single (Fin (x / divisor density N)))] /\
  Rabs (x - a) <= eps * Rsum (seq 0 n) (fun j => Rabs (fst (element n V A j j))).
Proof.
  intros He H10 HN Ha HA HE. exists (obs_d n V A (population n V (Ket psi))), (obs_d n V A (fun j => floored eps (rho_pure n V psi j))).
  split; [apply obs_average; [exact HA|exact Logic.I|exact (separated_distinct n eps E He HE)]|]. split.
  - unfold diag_ensemble. rewrite (proj2 (degenerate_spec eps E n He) HE). assert (Ho : obs_check n (if array then ObsArray A else ObsHam A) (false || false) = true) by (destruct array; reflexivity). rewrite Ho. cbn [negb].
    unfold values_for. destruct (ensemble_entropy alpha (map (fun j => floored eps (rho_pure n V psi j)) (seq 0 n))) eqn:Es.
    + assert (Hm : obs_matrix (if array then ObsArray A else ObsHam A) = Some A) by (destruct array; reflexivity). rewrite Hm. cbn [orb app map fst snd]. rewrite scaled_fin by exact HN. reflexivity.
    + unfold ensemble_entropy in Es. destruct (Rlt_dec alpha 0); [lra|]. destruct (Req_EM_T alpha 1); discriminate Es.
  - unfold obs_d. rewrite <- Rsum_sub, <- Rsum_scal.
    assert (G : forall l, (forall j, In j l -> (j < n)%nat) -> Rabs (Rsum l (fun j => fst (rotated n V A j j) * floored eps (rho_pure n V psi j) - fst (rotated n V A j j) * population n V (Ket psi) j)) <= Rsum l (fun j => eps * Rabs (fst (element n V A j j)))).
    { induction l as [|j l IH]; intros Hl; [rewrite !Rsum_nil, Rabs_R0; right; reflexivity|]. rewrite !Rsum_cons. apply Rle_trans with (1 := Rabs_triang _ _). apply Rplus_le_compat; [|apply IH; intros k Hk; apply Hl; right; exact Hk].
      change (rho_pure n V psi j) with (rho_of n V (Ket psi) j). rewrite rho_of_population. change (rotated n V A j j) with (element n V A j j). rewrite <- Rmult_minus_distr_l, Rabs_mult, Rmult_comm. apply Rmult_le_compat_r; [apply Rabs_pos|].
      apply floored_close; [apply population_ket_nonneg|exact H10]. }
    apply G. intros j Hj. apply in_seq in Hj. lia.
Qed.
Print Assumptions C47_diag_floor_partial.

(* ---- mixtures of the columns of V1 ---- *)
Lemma column_rho n V V1 j p : rho_V1 n V V1 j p = rho_pure n V (column V1 p) j.
Proof.
  unfold rho_V1, rho_pure, column. replace (Csum (seq 0 n) (fun i => Cconj (V1 i p) * V i j)%C) with (Cconj (Csum (seq 0 n) (fun i => Cconj (V i j) * V1 i p)%C)); [cbn [fst snd Cconj]; ring|].
  rewrite Csum_conj. apply Csum_ext. intros i _. rewrite Cconj_mul, Cconj_invol. ring.
Qed.
Lemma nth_map_seq0 {X} (g : nat -> X) k p d : (p < k)%nat -> nth p (map g (seq 0 k)) d = g p.
Proof. intros H. rewrite (nth_indep _ d (g 0%nat)) by (rewrite map_length, seq_length; exact H). rewrite (map_nth g), seq_nth by exact H. reflexivity. Qed.
(* every output is the sum of the outputs for the columns of V1 (as pure states), with the weights of the distribution; with V1_state the outputs of these
   columns follow, with f_norm=False the sums of the weights *)
Theorem C47_diag_mixture n eps V E2 N d first rest w z x density alpha o dt dq sd :
  d_args d = Betas (first :: rest) -> (forall i, (S i < length (d_E1 d))%nat -> nth i (d_E1 d) 0 <= nth (S i) (d_E1 d) 0) -> d_E1 d <> [] ->
  (forall l, d_states d = Some l -> l <> [] /\ forall p, In p l -> (p < length (d_E1 d))%nat) ->
  (forall a, In a (first :: rest) -> weights d first a = map (w a) (seq 0 (length (d_E1 d)))) -> (forall a, In a (first :: rest) -> norm_of d first a = z a) ->
  (forall p, (p < length (d_E1 d))%nat -> exists l, diag_ensemble n eps V N (Vector (column (d_V1 d) p)) E2 density alpha false o dt dq sd = Some l /\ forall k, In k (keys_for o dt dq sd) -> In (k, Single (Fin (x p k))) l) ->
  diag_ensemble n eps V N (Dict d) E2 density alpha false o dt dq sd =
  Some (map (fun k => (k, Many (map (fun a => Fin (Rsum (seq 0 (length (d_E1 d))) (fun p => w a p * x p k))) (first :: rest)) (option_map (map (fun p => Fin (x p k))) (d_states d)))) (keys_for o dt dq sd)
        ++ match d_norm d with Some false => [(K_f_norm, Norms (map z (first :: rest)))] | _ => [] end).
Proof.
  intros Harg Hso Hne Hst Hw Hz Hx. apply unsorted_false in Hso. set (k1 := length (d_E1 d)) in *. assert (Hk1 : (0 < k1)%nat) by (unfold k1; destruct (d_E1 d); [destruct (Hne eq_refl)|cbn; lia]).
  assert (Hdeg : degenerate eps E2 = false /\ obs_check n o (dt || dq) = true).
  { destruct (Hx 0%nat Hk1) as [l [Hl _]]. unfold diag_ensemble in Hl. destruct (degenerate eps E2); [discriminate Hl|]. destruct (obs_check n o (dt || dq)); [split; reflexivity|discriminate Hl]. }
  destruct Hdeg as [Hd Ho]. set (rho := fun p j => floored eps (rho_V1 n V (d_V1 d) j p)).
  assert (Hval : forall p, (p < k1)%nat -> exists l0, values_for n V o dt dq sd alpha (rho p) = Some l0 /\ forall k, In k (keys_for o dt dq sd) -> scaled density N (lookup k l0 Nan) = Fin (x p k)).
  { intros p Hp. destruct (Hx p Hp) as [l [Hl Hin]]. unfold diag_ensemble in Hl. rewrite Hd, Ho in Hl. cbn [negb] in Hl.
    rewrite (values_for_ext n V o dt dq sd alpha _ (rho p)) in Hl by (intros j _; unfold rho; rewrite column_rho; reflexivity).
    destruct (values_for n V o dt dq sd alpha (rho p)) as [l0|] eqn:El; [|discriminate Hl]. injection Hl as <-. exists l0. split; [reflexivity|]. intros k Hk. specialize (Hin k Hk). rewrite app_nil_r in Hin.
    apply in_map_iff in Hin. destruct Hin as [[k' v] [Heq Hv]]. cbn [fst snd] in Heq. injection Heq as -> Hv2.
    rewrite (lookup_in k l0 Nan v); [exact Hv2| |exact Hv]. rewrite (values_keys n V o dt dq sd alpha _ _ El). apply keys_nodup. }
  unfold diag_ensemble. rewrite Hd, Ho, Hso, Harg. cbn [negb]. assert (Hsc : states_check d = true).
  { unfold states_check. destruct (d_states d) as [[|q l]|]; [destruct (proj1 (Hst [] eq_refl) eq_refl)| |reflexivity]. apply forallb_forall. intros p Hp. apply Nat.ltb_lt. exact (proj2 (Hst _ eq_refl) p Hp). }
  rewrite Hsc. cbn [negb]. fold k1. fold rho.
  change (fun p : nat => values_for n V o dt dq sd alpha (fun j => floored eps (rho_V1 n V (d_V1 d) j p))) with (fun p : nat => values_for n V o dt dq sd alpha (rho p)).
  assert (Hex : existsb (fun x0 : option (list (key * num)) => match x0 with Some _ => false | None => true end) (map (fun p => values_for n V o dt dq sd alpha (rho p)) (seq 0 k1)) = false).
  { apply not_true_is_false. intros Hc. apply existsb_exists in Hc. destruct Hc as [y [Hy Hyn]]. apply in_map_iff in Hy. destruct Hy as [p [<- Hp]]. apply in_seq in Hp. destruct (Hval p ltac:(lia)) as [l0 [El _]]. rewrite El in Hyn. discriminate Hyn. }
  rewrite Hex. f_equal. rewrite app_nil_r. f_equal.
  - apply map_ext_in. intros k Hk.
    assert (Hnth : forall p, (p < k1)%nat -> nth p (map (fun x0 : option (list (key * num)) => match x0 with Some l => scaled density N (lookup k l Nan) | None => Nan end) (map (fun p0 => values_for n V o dt dq sd alpha (rho p0)) (seq 0 k1))) Nan = Fin (x p k)).
    { intros p Hp. rewrite map_map. destruct (Hval p Hp) as [l0 [El Hl0]].
      rewrite (nth_map_seq0 _ k1 p Nan Hp). rewrite El. apply Hl0, Hk. }
    f_equal. f_equal.
    + apply map_ext_in. intros a Ha. rewrite (Hw a Ha). rewrite <- np_dot_fin. f_equal. rewrite map_map. apply map_ext_in. intros p Hp. apply in_seq in Hp.
      destruct (Hval p ltac:(lia)) as [l0 [El Hl0]]. rewrite El. apply Hl0, Hk.
    + destruct (d_states d) as [l|]; [|reflexivity]. cbn [option_map]. f_equal. apply map_ext_in. intros p Hp. apply Hnth. exact (proj2 (Hst l eq_refl) p Hp).
  - destruct (d_norm d) as [[|]|]; [reflexivity| |reflexivity]. f_equal. f_equal. f_equal. apply map_ext_in. intros a Ha. apply Hz, Ha.
Qed.
Print Assumptions C47_diag_mixture.
(* the default distribution with inverse temperatures given as floats: Gibbs weights, which are positive and add up to one *)
Theorem C47_diag_thermal d x rest : d_f d = None -> d_norm d <> Some false -> d_E1 d <> [] ->
  (forall a, weights d (PyFloat x) a = map (gibbs (num_val a) (d_E1 d)) (seq 0 (length (d_E1 d)))) /\
  (forall a, In a (PyFloat x :: rest) -> Rsum (seq 0 (length (d_E1 d))) (gibbs (num_val a) (d_E1 d)) = 1 /\ forall p, 0 < gibbs (num_val a) (d_E1 d) p).
Proof.
  intros Hf Hn HE. split; [|intros a _; apply gibbs_total, HE]. intros a. unfold weights. rewrite Hf. cbn [cast]. rewrite map_id.
  transitivity (map (fun x => x / Rsum (thermal (d_E1 d) (num_val a)) (fun y => y)) (thermal (d_E1 d) (num_val a))); [|apply gibbs_shift, HE].
  destruct (d_norm d) as [[|]|]; [reflexivity|destruct (Hn eq_refl)|reflexivity].
Qed.
Print Assumptions C47_diag_thermal.
(* a distribution f of the user's: the weights are f(E1, arg), divided by their sum unless f_norm=False; the reported sums are those of f(E1, arg) *)
Theorem C47_diag_distribution d x f a : d_f d = Some f ->
  norm_of d (PyFloat x) a = Rsum (f (d_E1 d) (num_val a)) (fun y => y) /\
  weights d (PyFloat x) a = map (fun y => y / match d_norm d with Some false => 1 | _ => Rsum (f (d_E1 d) (num_val a)) (fun y => y) end) (f (d_E1 d) (num_val a)).
Proof.
  intros Hf. unfold norm_of, weights. rewrite Hf. cbn [cast]. split; [reflexivity|]. rewrite map_id. destruct (d_norm d) as [[|]|]; [reflexivity| |reflexivity].
  rewrite <- (map_id (f (d_E1 d) (num_val a))) at 1. apply map_ext. intros y. field.
Qed.
Print Assumptions C47_diag_distribution.
(* inverse temperatures given as integers: the weights are rounded to zero, and so is every output *)
Theorem C47_diag_integer_refuted d z a : d_f d = None -> d_norm d <> Some false -> (2 <= length (d_E1 d))%nat -> weights d (PyInt z) a = repeat 0 (length (d_E1 d)).
Proof.
  intros Hf Hn HE. assert (Hne : d_E1 d <> []) by (destruct (d_E1 d); [cbn in HE; lia|discriminate]).
  transitivity (map (cast (PyInt z)) (map (gibbs (num_val a) (d_E1 d)) (seq 0 (length (d_E1 d))))).
  - unfold weights. rewrite Hf. f_equal. rewrite <- gibbs_shift by exact Hne. destruct (d_norm d) as [[|]|]; [reflexivity|destruct (Hn eq_refl)|reflexivity].
  - destruct (gibbs_total (d_E1 d) (num_val a) Hne) as [H1 H2]. rewrite map_map. cbn [cast].
    assert (Hz : forall p, In p (seq 0 (length (d_E1 d))) -> truncate (gibbs (num_val a) (d_E1 d) p) = 0).
    { intros p Hp. apply in_seq in Hp. apply truncate_small. split; [left; apply H2|]. set (q := if (p =? 0)%nat then 1%nat else 0%nat).
      assert (Hq : q <> p /\ (q < length (d_E1 d))%nat) by (unfold q; destruct (Nat.eqb_spec p 0); lia).
      assert (Hle : Rsum (seq 0 (length (d_E1 d))) (fun k => (if (p =? k)%nat then gibbs (num_val a) (d_E1 d) k else 0) + (if (q =? k)%nat then gibbs (num_val a) (d_E1 d) k else 0)) <= Rsum (seq 0 (length (d_E1 d))) (gibbs (num_val a) (d_E1 d))).
      { apply Rsum_le. intros k _. pose proof (H2 k). destruct (Nat.eqb_spec p k); destruct (Nat.eqb_spec q k); (lia || lra). }
      rewrite Rsum_add, (Rsum_delta _ p (gibbs (num_val a) (d_E1 d))), (Rsum_delta _ q (gibbs (num_val a) (d_E1 d))), H1 in Hle by lia. pose proof (H2 q). lra. }
    clear - Hz. assert (G : forall l, (forall p, In p l -> truncate (gibbs (num_val a) (d_E1 d) p) = 0) -> map (fun p => truncate (gibbs (num_val a) (d_E1 d) p)) l = repeat 0 (length l)).
    { induction l as [|p l IH]; intros H; [reflexivity|]. cbn [map length repeat]. rewrite (H p (or_introl eq_refl)), IH by (intros q Hq; apply H; right; exact Hq). reflexivity. }
    rewrite (G _ Hz), seq_length. reflexivity.
Qed.
Print Assumptions C47_diag_integer_refuted.
(* the documented form f_args=[beta] raises, a Python list as state raises, and so does an array as observable when fluctuations are asked for *)
Theorem C47_diag_documented_refuted n eps V N E2 density alpha rho_d o dt dq sd :
  (forall d b, d_args d = Beta b -> diag_ensemble n eps V N (Dict d) E2 density alpha rho_d o dt dq sd = None) /\
  diag_ensemble n eps V N PyList E2 density alpha rho_d o dt dq sd = None /\
  (forall s A, (2 <= n)%nat -> dt || dq = true -> diag_ensemble n eps V N s E2 density alpha rho_d (ObsArray A) dt dq sd = None).
Proof.
  split; [|split].
  - intros d b Hb. unfold diag_ensemble. destruct (degenerate eps E2); [reflexivity|]. destruct (obs_check n o (dt || dq)); [|reflexivity]. cbn [negb]. destruct (unsorted (d_E1 d)); [reflexivity|]. rewrite Hb. reflexivity.
  - unfold diag_ensemble. destruct (degenerate eps E2); [reflexivity|]. destruct (obs_check n o (dt || dq)); reflexivity.
  - intros s A Hn Hd. unfold diag_ensemble. destruct (degenerate eps E2); [reflexivity|]. unfold obs_check. rewrite Hd. assert (H : (n =? 1)%nat = false) by (apply Nat.eqb_neq; lia). rewrite H. reflexivity.
Qed.
Print Assumptions C47_diag_documented_refuted.
(* wrong arguments of a mixture are rejected, whatever else is asked for: energies that are not ascending, an empty list of states, a state number beyond the last *)
Theorem C47_diag_rejects n eps V N E2 density alpha rho_d o dt dq sd d :
  (exists i, (S i < length (d_E1 d))%nat /\ nth (S i) (d_E1 d) 0 < nth i (d_E1 d) 0) \/ d_states d = Some [] \/ (exists l p, d_states d = Some l /\ In p l /\ (length (d_E1 d) <= p)%nat) ->
  diag_ensemble n eps V N (Dict d) E2 density alpha rho_d o dt dq sd = None.
Proof.
  intros H. unfold diag_ensemble. destruct (degenerate eps E2); [reflexivity|]. destruct (obs_check n o (dt || dq)); [|reflexivity]. cbn [negb].
  destruct (unsorted (d_E1 d)) eqn:Hu; [reflexivity|]. destruct (d_args d) as [b|[|first rest]]; [reflexivity|reflexivity|].
  assert (Hs : states_check d = false).
  { unfold states_check. destruct H as [(i & Hi & Hl)|[->|(l & p & -> & Hp & Hl)]]; [|reflexivity|].
    - pose proof (proj1 (unsorted_false _) Hu i Hi). lra.
    - destruct l as [|q l]; [destruct Hp|]. apply not_true_is_false. intros Hf. rewrite forallb_forall in Hf. specialize (Hf p Hp). apply Nat.ltb_lt in Hf. lia. }
  rewrite Hs. reflexivity.
Qed.
Print Assumptions C47_diag_rejects.
Example C47_diag_mixture_example : exists d, d_args d = Betas [PyFloat 1; PyFloat 2] /\ d_norm d = Some false /\ (forall i, (S i < length (d_E1 d))%nat -> nth i (d_E1 d) 0 <= nth (S i) (d_E1 d) 0) /\
  (forall l, d_states d = Some l -> l <> [] /\ forall p, In p l -> (p < length (d_E1 d))%nat) /\ d_states d = Some [1%nat] /\ d_E1 d = [0; 1] /\ d_f d = None /\ d_V1 d = I2.
Proof.
  exists {| d_V1 := I2; d_E1 := [0; 1]; d_f := None; d_args := Betas [PyFloat 1; PyFloat 2]; d_norm := Some false; d_states := Some [1%nat] |}. cbn [d_args d_states d_norm d_E1 d_f d_V1].
  split; [reflexivity|]. split; [reflexivity|]. split; [intros [|i] Hi; cbn [length nth] in *; [lra|lia]|].
  split; [intros l Hl; injection Hl as <-; split; [discriminate|intros p [<-|[]]; cbn; lia]|]. repeat split; reflexivity.
Qed.

(* ---- counterexamples ---- *)
Ltac calc := unfold rho_of, rho_pure, rho_DM, obs_d, delta_t2, delta_q2, rotated, population, element, inner, apply, column, mul, square_abs, amplitude, coherence; cbn.
Lemma call2 V s o dt dq (A : mat) r0 r1 : obs_check 2 o (dt || dq) = true -> obs_matrix o = Some A -> floored eps64 (rho_of 2 V s 0) = r0 -> floored eps64 (rho_of 2 V s 1) = r1 ->
  diag_ensemble 2 eps64 V 1 (system_of s) (map levels (seq 0 2)) false 1 false o dt dq false =
  Some ((K_Obs, Single (Fin (obs_d 2 V A (fun j => if (j =? 0)%nat then r0 else r1)))) ::
        (if dt || dq then [(K_delta_t, Single (np_sqrt (Fin (delta_t2 2 V A (fun j => if (j =? 0)%nat then r0 else r1)))))] else []) ++
        (if dq then [(K_delta_q, Single (np_sqrt (Fin (delta_q2 2 V A (fun j => if (j =? 0)%nat then r0 else r1)))))] else [])).
Proof.
  intros Ho Hm H0 H1. unfold diag_ensemble. rewrite (proj2 (degenerate_spec eps64 levels 2 (proj1 eps64_bounds)) gaps2), Ho. cbn [negb].
  assert (He : forall j, (j < 2)%nat -> floored eps64 (rho_of 2 V s j) = if (j =? 0)%nat then r0 else r1) by (intros [|[|j]] Hj; [exact H0|exact H1|lia]).
  transitivity (match values_for 2 V o dt dq false 1 (fun j => floored eps64 (rho_of 2 V s j)) with None => None | Some l => Some (map (fun x => (fst x, Single (scaled false 1 (snd x)))) l ++ []) end); [destruct s; reflexivity|].
  rewrite (values_for_ext 2 V o dt dq false 1 _ _ He). unfold values_for. destruct (ensemble_entropy 1 _) eqn:Es; [|unfold ensemble_entropy in Es; destruct (Rlt_dec 1 0); [lra|]; destruct (Req_EM_T 1 1); discriminate Es].
  rewrite Hm. rewrite !app_nil_r. destruct dt, dq; reflexivity.
Qed.
Lemma floored_eq x y : x = y -> / 10 ^ 16 < y -> floored eps64 x = y. Proof. intros -> H. apply floored_big, H. Qed.
Lemma tiny : / 10 ^ 16 < 1 / 5. Proof. pose proof (Rinv_lt_contravar 5 (10 ^ 16) ltac:(lra) ltac:(lra)). lra. Qed.
Lemma np_sqrt_neg x : x < 0 -> np_sqrt (Fin x) = Nan. Proof. intros H. unfold np_sqrt. destruct (Rlt_dec x 0); [reflexivity|contradiction]. Qed.
(* a complex observable (sigma^y): nan, although the long-time variance is 288/625; and for sigma^x nan or not depending on the phase of an eigenvector *)
Definition V_phase : mat := fun i j => if (i =? j)%nat then (if (i =? 0)%nat then C1 else (0, 1)) else C0.
Theorem C47_diag_complex_refuted :
  (exists x, diag_ensemble 2 eps64 I2 1 (Vector psi2) (map levels (seq 0 2)) false 1 false (ObsHam sy) true false false = Some [(K_Obs, x); (K_delta_t, Single Nan)]) /\
  (exists a b, time_average (expectation 2 I2 levels sy (Ket psi2)) a /\ time_average (fun t => expectation 2 I2 levels sy (Ket psi2) t * expectation 2 I2 levels sy (Ket psi2) t) b /\ b - a * a = 288 / 625) /\
  unitary 2 V_phase /\ (forall i j, (i < 2)%nat -> (j < 2)%nat -> exists z, (z * Cconj z)%C = C1 /\ V_phase i j = (I2 i j * z)%C) /\
  (exists x, diag_ensemble 2 eps64 I2 1 (Vector psi2) (map levels (seq 0 2)) false 1 false (ObsHam sx) true false false = Some [(K_Obs, x); (K_delta_t, Single (Fin (sqrt (288 / 625))))]) /\
  (exists x, diag_ensemble 2 eps64 V_phase 1 (Vector psi2) (map levels (seq 0 2)) false 1 false (ObsHam sx) true false false = Some [(K_Obs, x); (K_delta_t, Single Nan)]).
Proof.
  pose proof tiny as Ht. split; [|split; [|split; [|split; [|split]]]].
  - eexists. change (Vector psi2) with (system_of (Ket psi2)). rewrite (call2 I2 (Ket psi2) (ObsHam sy) true false sy (9 / 25) (16 / 25)); [|reflexivity|reflexivity|apply floored_eq; [calc; field|lra]|apply floored_eq; [calc; field|lra]].
    cbn [orb app]. rewrite (np_sqrt_neg (delta_t2 2 I2 sy _)); [reflexivity|]. replace (delta_t2 2 I2 sy (fun j => if (j =? 0)%nat then 9 / 25 else 16 / 25)) with (- (288 / 625)) by (calc; field). lra.
  - assert (Hh : hermitian 2 sy) by (intros [|[|i]] [|[|j]] Hi Hj; try lia; apply C_eq; calc; ring).
    do 2 eexists. split; [apply obs_average; [exact Hh|exact Logic.I|apply gaps_energies, distinct_gaps2]|]. split; [apply expectation_square_average; [exact distinct_gaps2|exact Hh|exact Logic.I]|]. calc. field.
  - split; intros [|[|j]] [|[|k]] Hj Hk; try lia; apply C_eq; calc; ring.
  - intros i j Hi Hj. exists (if (j =? 0)%nat then C1 else (0, 1)). destruct i as [|[|i]], j as [|[|j]]; try lia; split; apply C_eq; calc; ring.
  - eexists. change (Vector psi2) with (system_of (Ket psi2)). rewrite (call2 I2 (Ket psi2) (ObsHam sx) true false sx (9 / 25) (16 / 25)); [|reflexivity|reflexivity|apply floored_eq; [calc; field|lra]|apply floored_eq; [calc; field|lra]].
    cbn [orb app]. replace (delta_t2 2 I2 sx (fun j => if (j =? 0)%nat then 9 / 25 else 16 / 25)) with (288 / 625) by (calc; field). rewrite np_sqrt_pos by lra. reflexivity.
  - eexists. change (Vector psi2) with (system_of (Ket psi2)). rewrite (call2 V_phase (Ket psi2) (ObsHam sx) true false sx (9 / 25) (16 / 25)); [|reflexivity|reflexivity|apply floored_eq; [calc; field|lra]|apply floored_eq; [calc; field|lra]].
    cbn [orb app]. rewrite (np_sqrt_neg (delta_t2 2 V_phase sx _)); [reflexivity|]. replace (delta_t2 2 V_phase sx (fun j => if (j =? 0)%nat then 9 / 25 else 16 / 25)) with (- (288 / 625)) by (calc; field). lra.
Qed.
Print Assumptions C47_diag_complex_refuted.
(* density matrices: the maximally mixed state has no temporal fluctuations, the returned value is sqrt(1/2) *)
Definition mixed2 : mat := fun i j => if (i =? j)%nat then (1 / 2, 0) else C0.
Theorem C47_diag_density_matrix_refuted :
  (exists x, diag_ensemble 2 eps64 I2 1 (Matrix mixed2) (map levels (seq 0 2)) false 1 false (ObsHam sx) true false false = Some [(K_Obs, x); (K_delta_t, Single (Fin (sqrt (1 / 2))))]) /\
  normalised_state 2 (Density mixed2) /\ forall t, expectation 2 I2 levels sx (Density mixed2) t = 0.
Proof.
  pose proof tiny as Ht. split; [|split].
  - eexists. change (Matrix mixed2) with (system_of (Density mixed2)). rewrite (call2 I2 (Density mixed2) (ObsHam sx) true false sx (1 / 2) (1 / 2)); [|reflexivity|reflexivity|apply floored_eq; [calc; field|lra]|apply floored_eq; [calc; field|lra]].
    cbn [orb app]. replace (delta_t2 2 I2 sx (fun j => if (j =? 0)%nat then 1 / 2 else 1 / 2)) with (1 / 2) by (calc; field). rewrite np_sqrt_pos by lra. reflexivity.
  - split; [intros [|[|i]] [|[|j]] Hi Hj; try lia; apply C_eq; calc; ring|]. split; [apply C_eq; calc; field|]. intros x. unfold inner, apply. cbn.
    match goal with |- 0 <= ?e => replace e with (1 / 2 * (fst (x 0%nat) * fst (x 0%nat) + snd (x 0%nat) * snd (x 0%nat)) + 1 / 2 * (fst (x 1%nat) * fst (x 1%nat) + snd (x 1%nat) * snd (x 1%nat))) by field end.
    pose proof (Rle_0_sqr (fst (x 0%nat))) as H1. pose proof (Rle_0_sqr (snd (x 0%nat))) as H2. pose proof (Rle_0_sqr (fst (x 1%nat))) as H3. pose proof (Rle_0_sqr (snd (x 1%nat))) as H4. unfold Rsqr in *. lra.
  - intros t. unfold expectation. rewrite expectation_waves. rewrite (Csum_zero (seq 0 2)); [reflexivity|]. intros k Hk. apply Csum_zero. intros j Hj. apply in_seq in Hk, Hj.
    assert (Hz : (element 2 I2 sx k j * coherence 2 I2 (Density mixed2) j k)%C = C0) by (destruct k as [|[|k]], j as [|[|j]]; try lia; apply C_eq; calc; field). rewrite Hz. apply C_eq; calc; ring.
Qed.
Print Assumptions C47_diag_density_matrix_refuted.
(* an eigenstate: the quantum fluctuations of the identity vanish, the returned value is nan, because a vanishing population is replaced by eps *)
Definition ket0 : vec := fun i => if (i =? 0)%nat then C1 else C0.
Theorem C47_diag_eigenstate_refuted :
  (exists x y, diag_ensemble 2 eps64 I2 1 (Vector ket0) (map levels (seq 0 2)) false 1 false (ObsHam I2) false true false = Some [(K_Obs, x); (K_delta_t, y); (K_delta_q, Single Nan)]) /\
  (exists b, time_average (expectation 2 I2 levels (mul 2 I2 I2) (Ket ket0)) b /\ time_average (fun t => expectation 2 I2 levels I2 (Ket ket0) t * expectation 2 I2 levels I2 (Ket ket0) t) b).
Proof.
  destruct eps64_bounds as (He & He1 & _). assert (H16 : 0 < / 10 ^ 16) by (apply Rinv_0_lt_compat; lra). split.
  - do 2 eexists. change (Vector ket0) with (system_of (Ket ket0)). rewrite (call2 I2 (Ket ket0) (ObsHam I2) false true I2 1 eps64); [|reflexivity|reflexivity|apply floored_eq; [calc; ring|pose proof tiny; lra]|].
    + cbn [orb app]. rewrite (np_sqrt_neg (delta_q2 2 I2 I2 _)); [reflexivity|]. replace (delta_q2 2 I2 I2 (fun j => if (j =? 0)%nat then 1 else eps64)) with (- (eps64 * (1 + eps64))) by (calc; ring).
      apply Ropp_lt_gt_0_contravar. apply Rmult_lt_0_compat; lra.
    + unfold floored. replace (rho_of 2 I2 (Ket ket0) 1) with 0 by (calc; ring). destruct (Rle_dec 0 (/ 10 ^ 16)); [reflexivity|lra].
  - assert (Hh : hermitian 2 I2) by (intros [|[|i]] [|[|j]] Hi Hj; try lia; apply C_eq; calc; ring). exists 1. split.
    + pose proof (obs_average 2 I2 levels (mul 2 I2 I2) (Ket ket0) (hermitian_square 2 I2 Hh) Logic.I (gaps_energies 2 levels distinct_gaps2)) as H. replace (obs_d 2 I2 (mul 2 I2 I2) (population 2 I2 (Ket ket0))) with 1 in H by (calc; ring). exact H.
    + pose proof (square_average 2 I2 levels I2 ket0 distinct_gaps2 Hh) as H. assert (HR : real_elements 2 I2 I2) by (intros [|[|i]] [|[|j]] Hi Hj; try lia; calc; ring). specialize (H HR).
      match type of H with time_average _ ?x => replace x with 1 in H by (calc; ring) end. exact H.
Qed.
Print Assumptions C47_diag_eigenstate_refuted.
(* the documentation of delta_q_Obs gives the formula of the temporal fluctuations: (long-time average of <O>^2) - <O>_d^2.  That is delta_t_Obs, not the returned delta_q_Obs *)
Theorem C47_diag_documented_formula_refuted : exists x y z,
  diag_ensemble 2 eps64 I2 1 (Vector psi2) (map levels (seq 0 2)) false 1 false (ObsHam sx) true true false = Some [(K_Obs, Single (Fin x)); (K_delta_t, Single (Fin y)); (K_delta_q, Single (Fin z))] /\
  time_average (fun t => expectation 2 I2 levels sx (Ket psi2) t * expectation 2 I2 levels sx (Ket psi2) t) (x * x + y * y) /\ z * z <> y * y.
Proof.
  pose proof tiny as Ht. exists 0, (sqrt (288 / 625)), (sqrt (337 / 625)). rewrite !sqrt_sqrt by lra. split; [|split; [|lra]].
  - change (Vector psi2) with (system_of (Ket psi2)). rewrite (call2 I2 (Ket psi2) (ObsHam sx) true true sx (9 / 25) (16 / 25)); [|reflexivity|reflexivity|apply floored_eq; [calc; field|lra]|apply floored_eq; [calc; field|lra]].
    cbn [orb app]. replace (obs_d 2 I2 sx (fun j => if (j =? 0)%nat then 9 / 25 else 16 / 25)) with 0 by (calc; field).
    replace (delta_t2 2 I2 sx (fun j => if (j =? 0)%nat then 9 / 25 else 16 / 25)) with (288 / 625) by (calc; field).
    replace (delta_q2 2 I2 sx (fun j => if (j =? 0)%nat then 9 / 25 else 16 / 25)) with (337 / 625) by (calc; field). rewrite !np_sqrt_pos by lra. reflexivity.
  - assert (Hh : hermitian 2 sx) by (intros [|[|i]] [|[|j]] Hi Hj; try lia; apply C_eq; calc; ring).
    pose proof (square_average 2 I2 levels sx psi2 distinct_gaps2 Hh) as H. assert (HR : real_elements 2 I2 sx) by (intros [|[|i]] [|[|j]] Hi Hj; try lia; calc; ring). specialize (H HR).
    match type of H with time_average _ ?x => replace x with (0 * 0 + 288 / 625) in H by (calc; field) end. exact H.
Qed.
Print Assumptions C47_diag_documented_formula_refuted.
