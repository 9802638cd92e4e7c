(* C28: separating a subsystem from its complement, and reduced density matrices. *)
From Verif Require Import AuxN SpecC SpecTrace M_trace P_trace P_trace2.
Local Open Scope nat_scope.

(* sub_B is any order of the complement of sub_A *)
Definition split_of (L : nat) (A B : list nat) : Prop := Permutation (A ++ B) (seq 0 L).

Section S.
Variables (sps L : nat) (A B : list nat).
Hypothesis Hp : 0 < sps.
Hypothesis P : split_of L A B.
Lemma reshape_place v psi : lattice_reshape_pure sps L A B psi = Some v -> forall c, config sps L c -> v (enc sps (levels_at c A)) (enc sps (levels_at c B)) = psi (enc sps c).
Proof.
  unfold lattice_reshape_pure. destruct (shuffle_sites _ _ _ _ _) as [u|] eqn:E; [|discriminate]. intros H c Hc. injection H as <-. rewrite <- (levels_len c B), <- enc_app, <- levels_app. apply (shuffle_spec sps L (A ++ B) Hp P C0 psi u E c Hc).
Qed.
Lemma rdm_A_sum v psi a a' : (forall c, config sps L c -> v (enc sps (levels_at c A)) (enc sps (levels_at c B)) = psi (enc sps c)) -> config sps (length A) a -> config sps (length A) a' -> rdm_A_pure sps B v (enc sps a) (enc sps a') = reduced_A sps L A B psi a a'.
Proof.
  intros H Ha Ha'. unfold rdm_A_pure, reduced_A. rewrite Csum_numbers. apply Csum_ext. intros b Hb. apply configs_iff in Hb.
  pose proof (H _ (place_config sps L A B Hp a b Ha Hb)) as E1. pose proof (H _ (place_config sps L A B Hp a' b Ha' Hb)) as E2.
  destruct (place_A sps L A B Hp P a b (proj1 Ha) (proj1 Hb)) as [Q1 Q2]. destruct (place_A sps L A B Hp P a' b (proj1 Ha') (proj1 Hb)) as [Q3 Q4]. rewrite Q1, Q2 in E1. rewrite Q3, Q4 in E2. rewrite E1, E2. reflexivity.
Qed.
Lemma rdm_B_sum v psi b b' : (forall c, config sps L c -> v (enc sps (levels_at c A)) (enc sps (levels_at c B)) = psi (enc sps c)) -> config sps (length B) b -> config sps (length B) b' -> rdm_B_pure sps A v (enc sps b) (enc sps b') = Cconj (reduced_B sps L A B psi b b').
Proof.
  intros H Hb Hb'. unfold rdm_B_pure, reduced_B. rewrite Csum_numbers, Csum_conj. apply Csum_ext. intros a Ha. apply configs_iff in Ha.
  pose proof (H _ (place_config sps L A B Hp a b Ha Hb)) as E1. pose proof (H _ (place_config sps L A B Hp a b' Ha Hb')) as E2.
  destruct (place_A sps L A B Hp P a b (proj1 Ha) (proj1 Hb)) as [Q1 Q2]. destruct (place_A sps L A B Hp P a b' (proj1 Ha) (proj1 Hb')) as [Q3 Q4]. rewrite Q1, Q2 in E1. rewrite Q3, Q4 in E2. rewrite E1, E2, Cconj_mul, Cconj_invol. reflexivity.
Qed.
Lemma sum_norm v psi : (forall c, config sps L c -> v (enc sps (levels_at c A)) (enc sps (levels_at c B)) = psi (enc sps c)) ->
  square_norm (sps ^ L) psi = Csum (seq 0 (sps ^ length A)) (fun i => Csum (seq 0 (sps ^ length B)) (fun j => v i j * Cconj (v i j)))%C.
Proof.
  intros H. unfold square_norm. rewrite !Csum_numbers. rewrite (sum_place sps L A B Hp P). apply Csum_ext. intros a Ha. rewrite Csum_numbers. apply Csum_ext. intros b Hb. apply configs_iff in Ha, Hb.
  pose proof (H _ (place_config sps L A B Hp a b Ha Hb)) as E1. destruct (place_A sps L A B Hp P a b (proj1 Ha) (proj1 Hb)) as [Q1 Q2]. rewrite Q1, Q2 in E1. rewrite E1. reflexivity.
Qed.
End S.

(* Every amplitude moves to the row of its A levels and the column of its B levels. *)
Theorem C28_reorder : forall sps L A B psi, 0 < sps -> L <= 64 -> split_of L A B ->
  exists v, lattice_reshape_pure sps L A B psi = Some v /\ forall c, config sps L c -> v (enc sps (levels_at c A)) (enc sps (levels_at c B)) = psi (enc sps c).
Proof.
  intros sps L A B psi Hp HL P. destruct (shuffle_total sps L (A ++ B) Hp P C0 psi HL) as (u & E). assert (E' : lattice_reshape_pure sps L A B psi = Some (fun i j => u (i * sps ^ length B + j))) by (unfold lattice_reshape_pure; rewrite E; reflexivity).
  eexists. split; [exact E'|]. apply (reshape_place sps L A B Hp P _ psi E').
Qed.
Print Assumptions C28_reorder.

(* The matrix of A is the reduced density matrix; the matrix of B is the complex conjugate of the reduced density matrix of
   B.  Both are Hermitian, positive, and have the trace <psi|psi>. *)
Theorem C28_pure : forall sps L A B psi, 0 < sps -> L <= 64 -> split_of L A B ->
  exists rA rB, lattice_partial_trace_pure sps L A B psi = Some (rA, rB) /\
    (forall a a', config sps (length A) a -> config sps (length A) a' -> rA (enc sps a) (enc sps a') = reduced_A sps L A B psi a a') /\
    (forall b b', config sps (length B) b -> config sps (length B) b' -> rB (enc sps b) (enc sps b') = Cconj (reduced_B sps L A B psi b b')) /\
    hermitian (sps ^ length A) rA /\ positive (sps ^ length A) rA /\ trace (sps ^ length A) rA = square_norm (sps ^ L) psi /\
    hermitian (sps ^ length B) rB /\ positive (sps ^ length B) rB /\ trace (sps ^ length B) rB = square_norm (sps ^ L) psi.
Proof.
  intros sps L A B psi Hp HL P. destruct (C28_reorder sps L A B psi Hp HL P) as (v & E & H). unfold lattice_partial_trace_pure. rewrite E. eexists _, _. split; [reflexivity|].
  split; [intros a a'; apply (rdm_A_sum sps L A B Hp P v psi a a' H)|]. split; [intros b b'; apply (rdm_B_sum sps L A B Hp P v psi b b' H)|].
  split; [apply gram_hermitian|]. split; [apply gram_positive|]. split; [rewrite (sum_norm sps L A B Hp P v psi H); reflexivity|].
  split; [|split].
  - intros i k _ _. unfold rdm_B_pure. rewrite Csum_conj. apply Csum_ext. intros j _. rewrite Cconj_mul, Cconj_invol. ring.
  - intros x. rewrite (form_ext _ _ (gram (sps ^ length A) (fun i j => Cconj (v j i)))); [apply gram_positive|]. intros i k _ _. unfold rdm_B_pure, gram. apply Csum_ext. intros j _. rewrite Cconj_invol. reflexivity.
  - rewrite (sum_norm sps L A B Hp P v psi H). unfold trace, rdm_B_pure. rewrite Csum_swap. apply Csum_ext. intros i _. apply Csum_ext. intros j _. ring.
Qed.
Print Assumptions C28_pure.

(* ---- density matrices ---- *)
Section M.
Variables (sps L : nat) (A B : list nat).
Hypothesis Hp : 0 < sps.
Hypothesis P : split_of L A B.
Notation T := (A ++ B).
Lemma double_perm : Permutation (T ++ map (fun s => L + s) T) (seq 0 (L + L)).
Proof.
  rewrite seq_app. apply Permutation_app; [exact P|]. cbn [Nat.add]. assert (E : seq L L = map (fun s => L + s) (seq 0 L)). { clear. assert (X : forall n k, map (fun s => L + s) (seq k n) = seq (L + k) n) by (induction n as [|n IH]; intros k; [reflexivity|]; cbn; f_equal; rewrite IH; f_equal; lia). rewrite X. f_equal. lia. }
  rewrite E. apply Permutation_map, P.
Qed.
Lemma levels_left c c' s : length c = L -> Forall (fun i => i < L) s -> levels_at (c ++ c') s = levels_at c s.
Proof. intros Hc F. apply map_ext_in. intros i Hi. rewrite Forall_forall in F. apply app_nth1. rewrite Hc. apply F, Hi. Qed.
Lemma levels_right c c' s : length c = L -> levels_at (c ++ c') (map (fun i => L + i) s) = levels_at c' s.
Proof. intros Hc. unfold levels_at. rewrite map_map. apply map_ext. intros i. rewrite app_nth2 by lia. f_equal. lia. Qed.
Lemma mixed_place v rho : lattice_reshape_mixed sps L A B rho = Some v -> forall c c', config sps L c -> config sps L c' ->
  v (enc sps (levels_at c A)) (enc sps (levels_at c B)) (enc sps (levels_at c' A)) (enc sps (levels_at c' B)) = rho (enc sps c) (enc sps c').
Proof.
  unfold lattice_reshape_mixed. cbn zeta. replace (2 * L) with (L + L) by lia. destruct (shuffle_sites _ _ _ _ _) as [u|] eqn:E; [|discriminate]. intros H c c' Hc Hc'. injection H as <-.
  assert (Hd : config sps (L + L) (c ++ c')) by (split; [rewrite app_length; destruct Hc, Hc'; congruence|apply Forall_app; split; [apply Hc|apply Hc']]).
  assert (FT : Forall (fun i => i < L) T) by (apply Forall_forall; intros i Hi; apply (Permutation_in i P), in_seq in Hi; lia).
  pose proof (shuffle_spec sps (L + L) _ Hp double_perm C0 _ u E (c ++ c') Hd) as Q. rewrite levels_app, (levels_left c c' T (proj1 Hc) FT), (levels_right c c' T (proj1 Hc)) in Q.
  rewrite enc_app, levels_len, app_length, Nat.pow_add_r, !levels_app, (enc_app sps (levels_at c A)), (enc_app sps (levels_at c' A)), !levels_len in Q.
  replace (((enc sps (levels_at c A) * sps ^ length B + enc sps (levels_at c B)) * sps ^ length A + enc sps (levels_at c' A)) * sps ^ length B + enc sps (levels_at c' B)) with ((enc sps (levels_at c A) * sps ^ length B + enc sps (levels_at c B)) * (sps ^ length A * sps ^ length B) + (enc sps (levels_at c' A) * sps ^ length B + enc sps (levels_at c' B))) by (generalize (sps ^ length A) (sps ^ length B) (enc sps (levels_at c A)) (enc sps (levels_at c B)) (enc sps (levels_at c' A)) (enc sps (levels_at c' B)); clear; intros; nia).
  rewrite Q. pose proof (enc_lt sps c' (proj2 Hc')) as B'. rewrite (enc_app sps c c'), (proj1 Hc') in *. f_equal; [rewrite Nat.div_add_l by lia; rewrite Nat.div_small by exact B'; lia|rewrite Nat.add_comm, Nat.mod_add by lia; apply Nat.mod_small, B'].
Qed.
Lemma mixed_at v rho a b a' b' : lattice_reshape_mixed sps L A B rho = Some v -> config sps (length A) a -> config sps (length B) b -> config sps (length A) a' -> config sps (length B) b' ->
  v (enc sps a) (enc sps b) (enc sps a') (enc sps b') = rho (enc sps (place L A B a b)) (enc sps (place L A B a' b')).
Proof.
  intros E Ha Hb Ha' Hb'. pose proof (mixed_place v rho E _ _ (place_config sps L A B Hp a b Ha Hb) (place_config sps L A B Hp a' b' Ha' Hb')) as Q.
  destruct (place_A sps L A B Hp P a b (proj1 Ha) (proj1 Hb)) as [Q1 Q2]. destruct (place_A sps L A B Hp P a' b' (proj1 Ha') (proj1 Hb')) as [Q3 Q4]. rewrite Q1, Q2, Q3, Q4 in Q. exact Q.
Qed.
(* the form of traced_A is a sum of forms of rho *)
Lemma form_configs n M x : form (sps ^ n) M x = Csum (configs sps n) (fun a => Csum (configs sps n) (fun a' => Cconj (x (enc sps a)) * M (enc sps a) (enc sps a') * x (enc sps a')))%C.
Proof. unfold form. rewrite Csum_numbers. apply Csum_ext. intros a _. apply Csum_numbers. Qed.
Definition dec n i := nth i (configs sps n) [].
Lemma dec_enc n c : config sps n c -> dec n (enc sps c) = c.
Proof.
  intros Hc. unfold dec. assert (B1 : enc sps c < sps ^ n) by (rewrite <- (proj1 Hc); apply enc_lt, Hc). assert (Ln : length (configs sps n) = sps ^ n) by (rewrite <- (map_length (enc sps)), enc_configs, seq_length; reflexivity).
  set (i := enc sps c) in *. assert (Hd : config sps n (nth i (configs sps n) [])) by (apply configs_iff, nth_In; lia). apply (enc_inj sps); [apply Hd|apply Hc|destruct Hd, Hc; congruence|].
  rewrite <- (nth_map (enc sps) (configs sps n) i 0 []) by lia. rewrite enc_configs, seq_nth by exact B1. reflexivity.
Qed.
Lemma form_A rho x rA : (forall a a', config sps (length A) a -> config sps (length A) a' -> rA (enc sps a) (enc sps a') = traced_A sps L A B rho a a') ->
  form (sps ^ length A) rA x = Csum (configs sps (length B)) (fun b => form (sps ^ L) rho (fun i => if list_eq_dec Nat.eq_dec (levels_at (dec L i) B) b then x (enc sps (levels_at (dec L i) A)) else C0)).
Proof.
  intros H. rewrite form_configs.
  rewrite (Csum_ext (configs sps (length B)) _ (fun b => Csum (configs sps (length A)) (fun a => Csum (configs sps (length A)) (fun a' => Cconj (x (enc sps a)) * rho (enc sps (place L A B a b)) (enc sps (place L A B a' b)) * x (enc sps a'))))%C).
  - rewrite (Csum_swap (configs sps (length B)) (configs sps (length A))). apply Csum_ext. intros a Ha. rewrite (Csum_swap (configs sps (length B)) (configs sps (length A))). apply Csum_ext. intros a' Ha'. apply configs_iff in Ha, Ha'. rewrite (H a a' Ha Ha'). unfold traced_A. rewrite Csum_mul_r, Csum_mul_l. reflexivity.
  - intros b Hb. rewrite form_configs, (sum_place sps L A B Hp P). apply Csum_ext. intros a Ha. apply configs_iff in Ha, Hb.
    assert (D : forall a2 b2, config sps (length A) a2 -> config sps (length B) b2 -> dec L (enc sps (place L A B a2 b2)) = place L A B a2 b2 /\ levels_at (place L A B a2 b2) B = b2 /\ levels_at (place L A B a2 b2) A = a2).
    { intros a2 b2 H2 H3. split; [apply dec_enc, (place_config sps L A B Hp); assumption|]. destruct (place_A sps L A B Hp P a2 b2 (proj1 H2) (proj1 H3)); auto. }
    rewrite (Csum_single (configs sps (length B)) _ b); [|apply configs_nodup|apply configs_iff, Hb|].
    + rewrite (sum_place sps L A B Hp P). apply Csum_ext. intros a' Ha'. apply configs_iff in Ha'. rewrite (Csum_single (configs sps (length B)) _ b); [|apply configs_nodup|apply configs_iff, Hb|].
      * destruct (D a b Ha Hb) as (-> & -> & ->). destruct (D a' b Ha' Hb) as (-> & -> & ->). destruct (list_eq_dec Nat.eq_dec b b); [reflexivity|congruence].
      * intros b2 Hb2 Ne. apply configs_iff in Hb2. destruct (D a' b2 Ha' Hb2) as (-> & -> & ->). destruct (list_eq_dec Nat.eq_dec b2 b); [congruence|ring].
    + intros b2 Hb2 Ne. apply configs_iff in Hb2. apply Csum_zero. intros c' _. destruct (D a b2 Ha Hb2) as (-> & -> & ->). destruct (list_eq_dec Nat.eq_dec b2 b); [congruence|]. replace (Cconj C0) with C0 by (apply C_eq; cbn; ring). ring.
Qed.
Lemma form_B rho x rB : (forall b b', config sps (length B) b -> config sps (length B) b' -> rB (enc sps b) (enc sps b') = traced_B sps L A B rho b b') ->
  form (sps ^ length B) rB x = Csum (configs sps (length A)) (fun a => form (sps ^ L) rho (fun i => if list_eq_dec Nat.eq_dec (levels_at (dec L i) A) a then x (enc sps (levels_at (dec L i) B)) else C0)).
Proof.
  intros H. rewrite form_configs.
  rewrite (Csum_ext (configs sps (length A)) _ (fun a => Csum (configs sps (length B)) (fun b => Csum (configs sps (length B)) (fun b' => Cconj (x (enc sps b)) * rho (enc sps (place L A B a b)) (enc sps (place L A B a b')) * x (enc sps b'))))%C).
  - rewrite (Csum_swap (configs sps (length A)) (configs sps (length B))). apply Csum_ext. intros b Hb. rewrite (Csum_swap (configs sps (length A)) (configs sps (length B))). apply Csum_ext. intros b' Hb'. apply configs_iff in Hb, Hb'. rewrite (H b b' Hb Hb'). unfold traced_B. rewrite Csum_mul_r, Csum_mul_l. reflexivity.
  - intros a Ha. apply configs_iff in Ha.
    assert (D : forall a2 b2, config sps (length A) a2 -> config sps (length B) b2 -> dec L (enc sps (place L A B a2 b2)) = place L A B a2 b2 /\ levels_at (place L A B a2 b2) B = b2 /\ levels_at (place L A B a2 b2) A = a2).
    { intros a2 b2 H2 H3. split; [apply dec_enc, (place_config sps L A B Hp); assumption|]. destruct (place_A sps L A B Hp P a2 b2 (proj1 H2) (proj1 H3)); auto. }
    rewrite form_configs, (sum_place sps L A B Hp P). rewrite (Csum_single (configs sps (length A)) _ a); [|apply configs_nodup|apply configs_iff, Ha|].
    + apply Csum_ext. intros b Hb. apply configs_iff in Hb. rewrite (sum_place sps L A B Hp P). rewrite (Csum_single (configs sps (length A)) _ a); [|apply configs_nodup|apply configs_iff, Ha|].
      * apply Csum_ext. intros b' Hb'. apply configs_iff in Hb'. destruct (D a b Ha Hb) as (-> & -> & ->). destruct (D a b' Ha Hb') as (-> & -> & ->). destruct (list_eq_dec Nat.eq_dec a a); [reflexivity|congruence].
      * intros a2 Ha2 Ne. apply configs_iff in Ha2. apply Csum_zero. intros b' Hb'. apply configs_iff in Hb'. destruct (D a2 b' Ha2 Hb') as (-> & -> & ->). destruct (list_eq_dec Nat.eq_dec a2 a); [congruence|ring].
    + intros a2 Ha2 Ne. apply configs_iff in Ha2. apply Csum_zero. intros b Hb. apply configs_iff in Hb. apply Csum_zero. intros c' _. destruct (D a2 b Ha2 Hb) as (-> & -> & ->). destruct (list_eq_dec Nat.eq_dec a2 a); [congruence|]. replace (Cconj C0) with C0 by (apply C_eq; cbn; ring). ring.
Qed.
End M.
Lemma number_of sps n i : i < sps ^ n -> exists c, config sps n c /\ enc sps c = i.
Proof. intros Hi. assert (H : In i (map (enc sps) (configs sps n))) by (rewrite enc_configs; apply in_seq; lia). apply in_map_iff in H. destruct H as (c & E & Hc). exists c. split; [apply configs_iff, Hc|exact E]. Qed.
Lemma enc_lt' sps n c : config sps n c -> enc sps c < sps ^ n. Proof. intros [<- F]. apply enc_lt, F. Qed.

(* The matrix of A is the partial trace, the one of B the complex conjugate of the partial trace; Hermiticity, positivity
   and the trace are inherited. *)
Theorem C28_mixed : forall sps L A B rho, 0 < sps -> 2 * L <= 64 -> split_of L A B ->
  exists rA rB, lattice_partial_trace_mixed sps L A B rho = Some (rA, rB) /\
    (forall a a', config sps (length A) a -> config sps (length A) a' -> rA (enc sps a) (enc sps a') = traced_A sps L A B rho a a') /\
    (forall b b', config sps (length B) b -> config sps (length B) b' -> rB (enc sps b) (enc sps b') = Cconj (traced_B sps L A B rho b b')) /\
    trace (sps ^ length A) rA = trace (sps ^ L) rho /\ trace (sps ^ length B) rB = Cconj (trace (sps ^ L) rho) /\
    (hermitian (sps ^ L) rho -> hermitian (sps ^ length A) rA /\ hermitian (sps ^ length B) rB) /\
    (positive (sps ^ L) rho -> positive (sps ^ length A) rA /\ positive (sps ^ length B) rB).
Proof.
  intros sps L A B rho Hp HL P. destruct (lattice_reshape_mixed sps L A B rho) as [v|] eqn:E.
  2:{ exfalso. unfold lattice_reshape_mixed in E. cbn zeta in E. replace (2 * L) with (L + L) in * by lia. destruct (shuffle_total sps (L + L) _ Hp (double_perm L A B P) C0 (fun x => rho (x / sps ^ L) (x mod sps ^ L)) HL) as (u & Eu). rewrite Eu in E. discriminate. }
  assert (HA : forall a a', config sps (length A) a -> config sps (length A) a' -> Csum (seq 0 (sps ^ length B)) (fun l => v (enc sps a) l (enc sps a') l) = traced_A sps L A B rho a a').
  { intros a a' Ha Ha'. unfold traced_A. rewrite Csum_numbers. apply Csum_ext. intros b Hb. apply configs_iff in Hb. apply (mixed_at sps L A B Hp P v rho a b a' b E Ha Hb Ha' Hb). }
  assert (HB : forall b b', config sps (length B) b -> config sps (length B) b' -> Csum (seq 0 (sps ^ length A)) (fun l => Cconj (v l (enc sps b) l (enc sps b'))) = Cconj (traced_B sps L A B rho b b')).
  { intros b b' Hb Hb'. unfold traced_B. rewrite Csum_numbers, Csum_conj. apply Csum_ext. intros a Ha. apply configs_iff in Ha. rewrite (mixed_at sps L A B Hp P v rho a b a b' E Ha Hb Ha Hb'). reflexivity. }
  unfold lattice_partial_trace_mixed. rewrite E. eexists _, _. split; [reflexivity|]. split; [exact HA|]. split; [exact HB|]. split; [|split; [|split]].
  - unfold trace. rewrite !Csum_numbers, (sum_place sps L A B Hp P). apply Csum_ext. intros a Ha. apply configs_iff in Ha. rewrite (HA a a Ha Ha). reflexivity.
  - unfold trace. rewrite !Csum_numbers, (sum_place sps L A B Hp P), (Csum_swap (configs sps (length A)) (configs sps (length B))), Csum_conj. apply Csum_ext. intros b Hb. apply configs_iff in Hb. rewrite (HB b b Hb Hb). reflexivity.
  - intros Hh. split.
    + intros i k Hi Hk. destruct (number_of sps _ i Hi) as (a & Ha & <-). destruct (number_of sps _ k Hk) as (a' & Ha' & <-). rewrite (HA a' a Ha' Ha), (HA a a' Ha Ha'). unfold traced_A. rewrite Csum_conj. apply Csum_ext. intros b Hb. apply configs_iff in Hb. apply Hh; apply enc_lt', (place_config sps L A B Hp); assumption.
    + intros i k Hi Hk. destruct (number_of sps _ i Hi) as (b & Hb & <-). destruct (number_of sps _ k Hk) as (b' & Hb' & <-). rewrite (HB b' b Hb' Hb), (HB b b' Hb Hb'). f_equal. unfold traced_B. rewrite Csum_conj. apply Csum_ext. intros a Ha. apply configs_iff in Ha. apply Hh; apply enc_lt', (place_config sps L A B Hp); assumption.
  - intros Hpos. split.
    + intros x. rewrite (form_A sps L A B Hp P rho x _ HA). apply sum_positive. intros b _. apply Hpos.
    + intros x. set (rB := fun j k => Csum (seq 0 (sps ^ length A)) (fun l => Cconj (v l j l k))).
      assert (Q : form (sps ^ length B) rB x = Cconj (form (sps ^ length B) (fun j k => Cconj (rB j k)) (fun i => Cconj (x i)))).
      { unfold form. rewrite Csum_conj. apply Csum_ext. intros i _. rewrite Csum_conj. apply Csum_ext. intros k _. rewrite !Cconj_mul, !Cconj_invol. ring. }
      rewrite Q. rewrite (form_B sps L A B Hp P rho).
      * destruct (sum_positive (configs sps (length A)) (fun a => form (sps ^ L) rho (fun i => if list_eq_dec Nat.eq_dec (levels_at (dec sps L i) A) a then Cconj (x (enc sps (levels_at (dec sps L i) B))) else C0)) (fun a _ => Hpos _)) as [S1 S2]. cbn [Cconj fst snd]. split; [exact S1|]. rewrite S2. ring.
      * intros b b' Hb Hb'. unfold rB. rewrite (HB b b' Hb Hb'), Cconj_invol. reflexivity.
Qed.
Print Assumptions C28_mixed.

(* ---- sparse states ---- *)
Definition coo_vector (coo : list (nat * C)) (i : nat) : C := Csum coo (fun x => if fst x =? i then snd x else C0).
Lemma sparse_index_spec sps L T c : 0 < sps -> Permutation T (seq 0 L) -> config sps L c -> sparse_index sps L T (enc sps c) = enc sps (levels_at c T).
Proof.
  intros Hp P Hc. unfold sparse_index. rewrite (fold_add (fun x : nat * nat => ((enc sps c / sps ^ (L - snd x - 1)) mod sps) * sps ^ (L - fst x - 1))). cbn [Nat.add].
  assert (LT : length T = L) by (rewrite (Permutation_length P), seq_length; reflexivity).
  assert (F : Forall (fun i => i < L) T) by (apply Forall_forall; intros i Hi; apply (Permutation_in i P), in_seq in Hi; lia).
  assert (X : forall U k, k + length U = L -> Forall (fun i => i < L) U -> list_sum (map (fun x : nat * nat => ((enc sps c / sps ^ (L - snd x - 1)) mod sps) * sps ^ (L - fst x - 1)) (combine (seq k (length U)) U)) = enc sps (levels_at c U)); [|rewrite <- (X T 0); [reflexivity|lia|exact F]].
  induction U as [|t U IH]; intros k Hk HU; [reflexivity|]. inversion HU as [|? ? Ht HU']; subst. cbn [length seq combine map levels_at]. unfold list_sum. cbn [fold_right fst snd]. change (map (fun i => nth i c 0) U) with (levels_at c U). rewrite enc_cons, levels_len. cbn [length] in Hk. f_equal.
  - destruct Hc as [Lc Fc]. f_equal; [|f_equal; lia]. rewrite <- Lc. apply enc_digit; [exact Hp|exact Fc|lia].
  - apply (IH (S k)); [lia|exact HU'].
Qed.
(* the sparse route gives the same two matrices as the dense one *)
Theorem C28_sparse : forall sps L A B coo, 0 < sps -> split_of L A B -> Forall (fun x => fst x < sps ^ L) coo ->
  let (rA, rB) := lattice_partial_trace_sparse sps L A B coo in
    (forall a a', config sps (length A) a -> config sps (length A) a' -> rA (enc sps a) (enc sps a') = reduced_A sps L A B (coo_vector coo) a a') /\
    (forall b b', config sps (length B) b -> config sps (length B) b' -> rB (enc sps b) (enc sps b') = Cconj (reduced_B sps L A B (coo_vector coo) b b')).
Proof.
  intros sps L A B coo Hp P F. unfold lattice_partial_trace_sparse. cbn zeta.
  assert (H : forall c, config sps L c -> coo_entry (lattice_reshape_sparse sps L A B coo) (enc sps (levels_at c A)) (enc sps (levels_at c B)) = coo_vector coo (enc sps c)).
  { intros c Hc. unfold coo_entry, lattice_reshape_sparse, coo_vector. cbn zeta. rewrite Csum_map. apply Csum_ext. intros [col val] Hx. cbn [fst snd]. rewrite Forall_forall in F. specialize (F _ Hx). cbn [fst] in F. destruct (number_of sps L col F) as (d & Hd & <-).
    assert (Ei : (if (if list_eq_dec Nat.eq_dec (A ++ B) (seq 0 L) then true else false) then enc sps d else sparse_index sps L (A ++ B) (enc sps d)) = enc sps (levels_at d (A ++ B))).
    { destruct (list_eq_dec _ _ _) as [Eq|_]; [rewrite Eq, (levels_all d L (proj1 Hd)); reflexivity|apply sparse_index_spec; assumption]. }
    rewrite Ei, levels_app, enc_app, levels_len. pose proof (enc_lt' sps (length B) _ (levels_config sps L Hp d B Hd)) as B1. 
    rewrite Nat.div_add_l by lia. rewrite (Nat.div_small _ _ B1), Nat.add_0_r. rewrite (Nat.add_comm (_ * _)), Nat.mod_add by lia. rewrite (Nat.mod_small _ _ B1).
    destruct (Nat.eqb_spec (enc sps d) (enc sps c)) as [Ec|Ec].
    - apply enc_inj in Ec; [subst d; rewrite !Nat.eqb_refl; reflexivity|apply Hd|apply Hc|destruct Hd, Hc; congruence].
    - destruct (Nat.eqb_spec (enc sps (levels_at d A)) (enc sps (levels_at c A))) as [EA|EA]; [|reflexivity]. destruct (Nat.eqb_spec (enc sps (levels_at d B)) (enc sps (levels_at c B))) as [EB|EB]; [|reflexivity]. exfalso. apply Ec. f_equal.
      apply (enc_inj sps) in EA; [|apply (levels_ok sps L); assumption|apply (levels_ok sps L); assumption|rewrite !levels_len; reflexivity]. apply (enc_inj sps) in EB; [|apply (levels_ok sps L); assumption|apply (levels_ok sps L); assumption|rewrite !levels_len; reflexivity].
      apply (levels_inj sps L d c (A ++ B) Hd Hc P). rewrite !levels_app. congruence. }
  split; [intros a a'; apply (rdm_A_sum sps L A B Hp P _ _ a a' H)|intros b b'; apply (rdm_B_sum sps L A B Hp P _ _ b b' H)].
Qed.
Print Assumptions C28_sparse.

(* The order of B.  The complement is a Python set; for at most eight sites it is listed in ascending order ... *)
Lemma ascending_small (f : nat -> bool) L : L <= 8 -> set_members (set_of (filter f (seq 0 L))) = filter f (seq 0 L).
Proof.
  intros HL. do 9 (destruct L as [|L]; [cbn [seq filter]; repeat match goal with |- context [f ?n] => destruct (f n) end; vm_compute; reflexivity|]). lia.
Qed.
Theorem C28_order_small : forall L A, L <= 8 -> complement_order L A = filter (fun i => negb (existsb (Nat.eqb i) A)) (seq 0 L).
Proof.
  intros L A HL. unfold complement_order. assert (E : set_members (set_of (seq 0 L)) = seq 0 L) by (do 9 (destruct L as [|L]; [vm_compute; reflexivity|]); lia).
  rewrite E. cbn zeta. destruct (_ <? _); [reflexivity|]. apply ascending_small, HL.
Qed.
Print Assumptions C28_order_small.
(* ... but for nine sites with A = {0, ..., 5} the columns run over the sites (8, 6, 7): the state with one particle on
   site 8 appears at position 4 of the matrix of B, not at position 1. *)
Theorem C28_order_refuted : let A := [0; 1; 2; 3; 4; 5] in let psi := fun i => if i =? 1 then C1 else C0 in
  complement_order 9 A = [8; 6; 7] /\
  exists rA rB, lattice_partial_trace_pure 2 9 A (complement_order 9 A) psi = Some (rA, rB) /\
    rB 4 4 = C1 /\ rB 1 1 = C0 /\ reduced_B 2 9 A [6; 7; 8] psi [0; 0; 1] [0; 0; 1] = C1.
Proof.
  cbn zeta. set (A := [0; 1; 2; 3; 4; 5]). set (psi := fun i => if i =? 1 then C1 else C0). assert (E : complement_order 9 A = [8; 6; 7]) by (vm_compute; reflexivity). split; [exact E|]. rewrite E.
  assert (P : split_of 9 A [8; 6; 7]). { unfold split_of, A. cbn [app seq]. do 6 constructor. apply (Permutation_trans (l' := [6; 8; 7])); [apply perm_swap|]. constructor. apply perm_swap. }
  destruct (C28_pure 2 9 A [8; 6; 7] psi) as (rA & rB & Et & _ & HB & _); [lia|lia|exact P|]. exists rA, rB. split; [exact Et|].
  assert (K : forall b, config 2 3 b -> reduced_B 2 9 A [8; 6; 7] psi b b = Csum (configs 2 6) (fun a => if enc 2 (place 9 A [8; 6; 7] a b) =? 1 then C1 else C0)).
  { intros b _. unfold reduced_B. apply Csum_ext. intros a _. unfold psi. destruct (_ =? 1); apply C_eq; cbn; ring. }
  assert (K' : reduced_B 2 9 A [6; 7; 8] psi [0; 0; 1] [0; 0; 1] = Csum (configs 2 6) (fun a => if enc 2 (place 9 A [6; 7; 8] a [0; 0; 1]) =? 1 then C1 else C0)).
  { unfold reduced_B. apply Csum_ext. intros a _. unfold psi. destruct (_ =? 1); apply C_eq; cbn; ring. }
  assert (Cf : forall x y z, x < 2 -> y < 2 -> z < 2 -> config 2 3 [x; y; z]) by (intros; split; [reflexivity|]; do 3 (constructor; [assumption|]); constructor).
  assert (Sg : forall (g : list nat -> nat), (exists a0, In a0 (configs 2 6) /\ g a0 = 1 /\ filter (fun a => g a =? 1) (configs 2 6) = [a0]) -> Csum (configs 2 6) (fun a => if g a =? 1 then C1 else C0) = C1).
  { intros g (a0 & _ & _ & Ef). rewrite <- (Csum_filter (configs 2 6) (fun a => g a =? 1) (fun _ => C1)), Ef. apply C_eq; cbn; ring. }
  split; [|split].
  - pose proof (HB [1; 0; 0] [1; 0; 0] (Cf 1 0 0 ltac:(lia) ltac:(lia) ltac:(lia)) (Cf 1 0 0 ltac:(lia) ltac:(lia) ltac:(lia))) as Q. change (enc 2 [1; 0; 0]) with 4 in Q. rewrite Q, K by (apply Cf; lia). rewrite (Sg (fun a => enc 2 (place 9 A [8; 6; 7] a [1; 0; 0]))); [apply C_eq; cbn; ring|]. exists [0; 0; 0; 0; 0; 0]. split; [left; reflexivity|]. split; vm_compute; reflexivity.
  - pose proof (HB [0; 0; 1] [0; 0; 1] (Cf 0 0 1 ltac:(lia) ltac:(lia) ltac:(lia)) (Cf 0 0 1 ltac:(lia) ltac:(lia) ltac:(lia))) as Q. change (enc 2 [0; 0; 1]) with 1 in Q. rewrite Q, K by (apply Cf; lia).
    rewrite <- (Csum_filter (configs 2 6) (fun a => enc 2 (place 9 A [8; 6; 7] a [0; 0; 1]) =? 1) (fun _ => C1)). assert (Ef : filter (fun a => enc 2 (place 9 A [8; 6; 7] a [0; 0; 1]) =? 1) (configs 2 6) = []) by (vm_compute; reflexivity). rewrite Ef. apply C_eq; cbn; ring.
  - rewrite K'. apply (Sg (fun a => enc 2 (place 9 A [6; 7; 8] a [0; 0; 1]))). exists [0; 0; 0; 0; 0; 0]. split; [left; reflexivity|]. split; vm_compute; reflexivity.
Qed.
Print Assumptions C28_order_refuted.

(* The matrix of B is not the reduced density matrix: for psi = |00> + i |01> the off-diagonal element of rho_B is -i,
   and +i is returned. *)
Theorem C28_conjugate_refuted : exists psi rA rB, lattice_partial_trace_pure 2 2 [0] [1] psi = Some (rA, rB) /\ split_of 2 [0] [1] /\
  reduced_B 2 2 [0] [1] psi [0] [1] = (- Ci)%C /\ rB (enc 2 [0]) (enc 2 [1]) = Ci.
Proof.
  set (psi := fun i : nat => match i with 0 => C1 | 1 => Ci | _ => C0 end). exists psi. assert (P : split_of 2 [0] [1]) by apply Permutation_refl.
  destruct (C28_pure 2 2 [0] [1] psi) as (rA & rB & Et & _ & HB & _); [lia|lia|exact P|]. exists rA, rB. split; [exact Et|]. split; [exact P|].
  assert (R : reduced_B 2 2 [0] [1] psi [0] [1] = (- Ci)%C) by (apply C_eq; cbn; ring). split; [exact R|].
  rewrite HB, R; [apply C_eq; cbn; ring|split; [reflexivity|repeat constructor]|split; [reflexivity|repeat constructor]].
Qed.
Print Assumptions C28_conjugate_refuted.

(* an interleaved subsystem that is really transposed: groups (1)(3)(0)(2) *)
Example C28_hyps : split_of 4 [1; 3] [0; 2] /\ reduce_transpose 2 [1; 3; 0; 2] = ([1; 3; 0; 2], [2; 2; 2; 2]) /\
  (exists v, shuffle_sites 0 2 [1; 3; 0; 2] 16 (fun i => i) = Some v /\ map v (seq 0 16) = [0; 2; 8; 10; 1; 3; 9; 11; 4; 6; 12; 14; 5; 7; 13; 15]) /\ config 2 4 [1; 0; 1; 1].
Proof.
  split; [|split; [vm_compute; reflexivity|split]].
  - unfold split_of. cbn. apply (Permutation_trans (l' := [1; 0; 3; 2])); [constructor; apply perm_swap|]. apply (Permutation_trans (l' := [0; 1; 3; 2])); [apply perm_swap|]. do 2 constructor. apply perm_swap.
  - eexists. split; [reflexivity|]. vm_compute. reflexivity.
  - split; [reflexivity|repeat constructor].
Qed.
