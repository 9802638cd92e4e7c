(* C53: the projectors of the one-dimensional bases. *)
From Verif Require Import AuxN SpecC SpecOps SpecMaps SpecFermi SpecChain M_bits1d SpecChain1d SpecCheck1d SpecBlock1d SpecSpan1d M_check1d
  P_block1d P_block1d4 M_ops M_op1d P_op1d P_op1d2 P_op1d4 P_op1d7 P_op1d8 P_semi1d P_semi1d2 P_semi1d4 P_symop M_symop M_proj1d P_proj1d P_proj1d2 P_proj1d3 P_proj1d4 P_proj1d5 C39_checks C52_matrix C52_complete.
From Coq Require Import Permutation Sorted.
Local Open Scope nat_scope.

(* the momentum number is reduced, unit cells of several sites do not meet reflections at momentum pi, and the chains are
   short enough for the 8-bit labels of the norms *)
Definition labels_fit (L T kb : nat) (b : block) : Prop :=
  match b with
  | BT_P _ => kb < L / T /\ (T = 1 \/ 2 * kb * T <> L)
  | BT_Z _ | BT_PZ _ => L <= 63
  | BT_A _ | BT_B _ | BT_A_B _ _ => L <= 128
  | BT_P_Z _ _ => L <= 10
  | _ => True
  end.
(* without translations the loops shift by the length of the chain, which the integer type has to allow *)
Definition full_shift (w : btype) (k : kind) (L : nat) (b : block) : Prop := translates b = false -> shift_fits w k L (Z.of_nat L).

(* get_proj writes the normalised symmetric states into its columns, row M - 1 - t for the product state t, and leaves the
   states of the basis unchanged; complex projectors are always built, real ones have the same entries whenever they are.
   Missing: reflections with several sites per unit cell at momentum pi and long chains (C53_cell_pi_refuted,
   C53_norm_wraps_refuted), where the claim is false *)
Theorem C53_get_proj_partial : forall w k L T kb b states basis,
  block_ok w k L T b -> full_shift w k L b -> labels_fit L T kb b -> sector k L b states -> constructed w k L T kb b states basis ->
  (exists r, get_proj w k L T kb b basis false None = Some r) /\
  forall real P after, get_proj w k L T kb b basis real None = Some (P, after) ->
    after = map e_s basis /\
    forall t i, is_state k L t -> i < length basis -> P (Mst k L - 1 - N.to_nat t) i = sym_state w k L T kb b basis i t.
Proof.
  intros w k L T kb b states basis OK Hsh F8 (Hst & Hnd & _) (es & Hcol & Harr). unfold get_proj.
  rewrite (all_visits w k L T kb b states es basis OK Hsh Hst Hcol Harr [LP; LZ] (or_introl eq_refl)). split; [eexists; reflexivity|]. intros real P after E. destruct (real_refused L T kb b real); [discriminate|]. injection E as <- <-.
  split; [rewrite map_map; reflexivity|]. intros t i Ht Hi. rewrite (nth_visits w k L T b basis i Hi). apply (spread_plain w k L T kb b states es basis OK Hsh F8 Hst Hcol Harr i t Hi Ht).
Qed.
Print Assumptions C53_get_proj_partial.

(* with pcon=True the rows are those of the particle sector only, in descending order of the states *)
Lemma pos_sorted : forall l p, StronglySorted N.lt l -> p < length l -> length (filter (fun x => (x <? nth p l 0%N)%N) l) = p.
Proof.
  induction l as [|x l IH]; intros p Hs Hp; [cbn in Hp; lia|]. inversion_clear Hs as [|? ? Hs' Hx]. rewrite Forall_forall in Hx. destruct p as [|p]; cbn [nth filter length] in *.
  - rewrite N.ltb_irrefl. replace (filter _ l) with (@nil N); [reflexivity|]. symmetry. clear - Hx. induction l as [|y l IH]; [reflexivity|]. cbn [filter]. destruct (N.ltb_spec y x) as [H|_]; [pose proof (Hx y (or_introl eq_refl)); lia|]. apply IH. intros z Hz. apply Hx. right. exact Hz.
  - assert (Hp' : p < length l) by lia. pose proof (Hx _ (nth_In l 0%N Hp')) as H. destruct (N.ltb_spec x (nth p l 0%N)); [|lia]. cbn [length]. rewrite (IH p Hs' Hp'). reflexivity.
Qed.
Theorem C53_get_proj_sector_partial : forall w k L T kb b states basis sec,
  block_ok w k L T b -> full_shift w k L b -> labels_fit L T kb b -> sector k L b states -> closed w k L T b states -> constructed w k L T kb b states basis ->
  Permutation states sec -> StronglySorted N.lt sec ->
  (exists r, get_proj w k L T kb b basis false (Some sec) = Some r) /\
  forall real P after, get_proj w k L T kb b basis real (Some sec) = Some (P, after) ->
    after = map e_s basis /\
    forall p i, p < length sec -> i < length basis -> P (length sec - 1 - p) i = sym_state w k L T kb b basis i (nth p sec 0%N).
Proof.
  intros w k L T kb b states basis sec OK Hsh F8 (Hst & Hnd & _) Hcl (es & Hcol & Harr) Hp Hs. unfold get_proj.
  rewrite (all_visits w k L T kb b states es basis OK Hsh Hst Hcol Harr [LP; LZ] (or_introl eq_refl)). split; [eexists; reflexivity|]. intros real P after E. destruct (real_refused L T kb b real); [discriminate|]. injection E as <- <-.
  split; [rewrite map_map; reflexivity|]. intros p i Lp Hi. rewrite (nth_visits w k L T b basis i Hi). cbn [fst n_rows].
  assert (It : In (nth p sec 0%N) states) by (apply (Permutation_in _ (Permutation_sym Hp)), nth_In, Lp).
  pose proof (spread_sector w k L T kb b states es basis OK Hsh F8 Hst Hcol Harr sec i (nth p sec 0%N) Hcl Hp Hi It) as E. rewrite (pos_sorted sec p Hs Lp) in E. exact E.
Qed.
Print Assumptions C53_get_proj_sector_partial.

(* the rows of a column are its states *)
Lemma rows_states M (f : nat -> C) : Csum (seq 0 M) f = Csum (all_states M) (fun t => f (M - 1 - N.to_nat t)).
Proof.
  assert (E : Permutation (seq 0 M) (map (fun t => M - 1 - N.to_nat t) (all_states M))).
  { apply NoDup_Permutation; [apply seq_NoDup| |].
    - assert (A : forall l, NoDup l -> (forall t, In t l -> (t < N.of_nat M)%N) -> NoDup (map (fun t => M - 1 - N.to_nat t) l)).
      { induction l as [|t l IH]; intros Nd Hl; [constructor|]. inversion_clear Nd as [|? ? Ni Nd']. cbn [map]. constructor; [|apply IH; [exact Nd'|intros u Hu; apply Hl; right; exact Hu]].
        intros Q. apply in_map_iff in Q. destruct Q as (u & E & Hu). pose proof (Hl t (or_introl eq_refl)). pose proof (Hl u (or_intror Hu)). assert (u = t) by lia. subst u. contradiction. }
      apply A; [apply al_nodup|]. intros t Ht. apply al_in, Ht.
    - intros x. split; intros H; [|apply in_map_iff in H; destruct H as (t & <- & Ht); apply al_in in Ht; apply in_seq; lia].
      apply in_seq in H. apply in_map_iff. exists (N.of_nat (M - 1 - x)). split; [lia|apply al_in; lia]. }
  rewrite (Csum_perm _ _ _ E). apply Csum_map.
Qed.
(* The columns are orthonormal. *)
Theorem C53_isometry_partial : forall w k L T kb b states basis,
  block_ok w k L T b -> full_shift w k L b -> labels_fit L T kb b -> sector k L b states -> constructed w k L T kb b states basis ->
  forall real P after, get_proj w k L T kb b basis real None = Some (P, after) ->
  forall i j, i < length basis -> j < length basis ->
    Csum (seq 0 (Mst k L)) (fun x => Cconj (P x j) * P x i)%C = if i =? j then C1 else C0.
Proof.
  intros w k L T kb b states basis OK Hsh F8 Se Co real P after E i j Hi Hj. destruct (C53_get_proj_partial w k L T kb b states basis OK Hsh F8 Se Co) as [_ H]. destruct (H real P after E) as [_ HP].
  rewrite rows_states. rewrite <- (C52_orthonormal w k L T kb b states basis OK Se Co i j Hi Hj). unfold inner1. apply Csum_ext. intros t Ht. apply al_in in Ht. apply M_st in Ht. rewrite !HP by assumption. reflexivity.
Qed.
Print Assumptions C53_isometry_partial.
(* Projecting a vector of the block into the basis and back gives the vector. *)
Theorem C53_back_and_forth_partial : forall w k L T kb b states basis,
  block_ok w k L T b -> full_shift w k L b -> labels_fit L T kb b -> (forall x y, b = BT_A_B x y -> N.even (levels k) = true) ->
  sector k L b states -> closed w k L T b states -> constructed w k L T kb b states basis ->
  forall real P after, get_proj w k L T kb b basis real None = Some (P, after) ->
  forall v, in_block w k L T b kb v -> (forall t, is_state k L t -> ~ In t states -> v t = C0) ->
  forall t, is_state k L t ->
    v t = Csum (seq 0 (length basis)) (fun i => Csum (seq 0 (Mst k L)) (fun x => Cconj (P x i) * v (N.of_nat (Mst k L - 1 - x))) * P (Mst k L - 1 - N.to_nat t)%nat i)%C.
Proof.
  intros w k L T kb b states basis OK Hsh F8 Ev Se Cl Co real P after E v Hv Hz t Ht. destruct (C53_get_proj_partial w k L T kb b states basis OK Hsh F8 Se Co) as [_ H]. destruct (H real P after E) as [_ HP].
  rewrite (C52_complete_partial w k L T kb b states basis OK Ev Se Cl Co v Hv Hz t Ht). apply Csum_ext. intros i Hi. apply in_seq in Hi. rewrite HP by (assumption || lia). f_equal.
  rewrite rows_states. unfold inner1. apply Csum_ext. intros u Hu. apply al_in in Hu. assert (Su : is_state k L u) by (apply M_st, Hu). rewrite HP by (assumption || lia). f_equal. f_equal. lia.
Qed.
Print Assumptions C53_back_and_forth_partial.

(* project_from of a dense vector, with sparse=True or sparse=False: the sum of the symmetric states with the given amplitudes *)
Theorem C53_project_from_partial : forall w k L T kb b states basis,
  block_ok w k L T b -> full_shift w k L b -> labels_fit L T kb b -> sector k L b states -> constructed w k L T kb b states basis ->
  forall project_from, project_from = vec_dense w k L T kb b basis \/ project_from = vec_sparse w k L T kb b basis ->
  forall v0, (exists r, project_from false v0 = Some r) /\
  forall real v after, project_from real v0 = Some (v, after) ->
    after = map e_s basis /\
    forall t, is_state k L t -> v (Mst k L - 1 - N.to_nat t) = Csum (seq 0 (length basis)) (fun i => v0 i * sym_state w k L T kb b basis i t)%C.
Proof.
  intros w k L T kb b states basis OK Hsh F8 (Hst & Hnd & _) (es & Hcol & Harr) pf Hpf v0. destruct Hpf as [-> | ->].
  - unfold vec_dense. rewrite (all_visits w k L T kb b states es basis OK Hsh Hst Hcol Harr [LP; LZ] (or_introl eq_refl)). split; [eexists; reflexivity|]. intros real v after E. destruct (real_refused L T kb b real); [discriminate|]. injection E as <- <-.
    split; [rewrite map_map; reflexivity|]. intros t Ht. rewrite (step_n w k L T b OK), flips_len. pose proof (proj2 (M_st k L t) Ht) as D. replace (N.of_nat (Mst k L - 1 - (Mst k L - 1 - N.to_nat t))) with t by lia.
    apply (dense_ok w k L T kb b states es basis OK Hsh F8 Hst Hnd Hcol Harr v0 t Ht).
  - unfold vec_sparse. rewrite (all_visits w k L T kb b states es basis OK Hsh Hst Hcol Harr [LZ; LP] (or_intror eq_refl)). split; [eexists; reflexivity|]. intros real v after E. destruct (real_refused L T kb b real); [discriminate|]. injection E as <- <-.
    split; [rewrite map_map; reflexivity|]. intros t Ht. apply Csum_ext. intros i Hi. apply in_seq in Hi. assert (Hi' : i < length basis) by lia. rewrite (nth_visits w k L T b basis i Hi'). cbn [fst]. rewrite (spread_plain w k L T kb b states es basis OK Hsh F8 Hst Hcol Harr i t Hi' Ht). reflexivity.
Qed.
Print Assumptions C53_project_from_partial.

(* norms of the columns in general *)
Lemma column w k L T kb b states es basis : block_ok w k L T b -> full_shift w k L b -> (forall s, In s states -> is_state k L s) -> collect w k L T kb b states = Some es -> arranged es basis ->
  forall real P after, get_proj w k L T kb b basis real None = Some (P, after) -> forall i, i < length basis ->
  Csum (seq 0 (Mst k L)) (fun x => Cconj (P x i) * P x i)%C = RtoC (nn_of L T kb b basis i * nn_of L T kb b basis i * (/ norm_of L T kb b (nth i basis entry0) * / norm_of L T kb b (nth i basis entry0))).
Proof.
  intros OK Hsh Hst Hcol Harr real P after E i Hi. unfold get_proj in E. rewrite (all_visits w k L T kb b states es basis OK Hsh Hst Hcol Harr [LP; LZ] (or_introl eq_refl)) in E. destruct (real_refused L T kb b real); [discriminate|]. injection E as <- <-.
  rewrite (nth_visits w k L T b basis i Hi). cbn [fst n_rows]. rewrite rows_states.
  destruct (all_nn w k L T kb b states es basis OK Hst Hcol Harr i Hi) as [_ Ed]. rewrite !RtoC_mul. rewrite <- RtoC_mul, <- Ed. unfold P_block1d.dotv. rewrite <- Csum_mul_r. apply Csum_ext. intros t Ht. apply al_in in Ht.
  rewrite (spread_V w k L T kb b states es basis OK Hsh Hst Hcol Harr i t Hi (proj1 (M_st k L t) Ht)). rewrite Cconj_mul, Cconj_RtoC. unfold Wb. ring.
Qed.

Lemma stored_at w k L T kb b states es basis s l e : collect w k L T kb b states = Some es -> arranged es basis -> In s states -> keep w k L T kb b s = Some l -> In e l -> exists i, i < length basis /\ nth i basis entry0 = e.
Proof.
  intros Hcol Harr Hs Ek He. unfold collect in Hcol. destruct (all_some (map (keep w k L T kb b) states)) as [ls|] eqn:Ea; [|discriminate]. apply all_some_spec in Ea. injection Hcol as <-.
  assert (Il : In (Some l) (map Some ls)) by (rewrite <- Ea, <- Ek; apply in_map, Hs). apply in_map_iff in Il. destruct Il as (l' & El & Il). injection El as ->.
  assert (Ie : In e basis) by (apply (Permutation_in _ (proj1 Harr)), in_concat; exists l; auto). destruct (In_nth _ _ entry0 Ie) as (i & Hi & E). exists i. auto.
Qed.
Lemma ratio a c : (0 <= a)%R -> (0 < c)%R -> (sqrt a * sqrt a * (/ sqrt c * / sqrt c) = a / c)%R.
Proof. intros Ha Hc. rewrite (sqrt_sqrt a Ha). pose proof (sqrt_lt_R0 c Hc) as Q. rewrite <- (sqrt_sqrt c) at 3 by lra. field. lra. Qed.

(* Four spins, unit cells of two sites, reflection and momentum pi (kblock=1, a=2): the test for momentum pi in _get_norms
   ignores the size of the unit cell, and the column of the state 1000 has squared norm 2. *)
Theorem C53_cell_pi_refuted : let k := Hcp false in let b := BT_P 1 in
  block_ok U32 k 4 2 b /\ full_shift U32 k 4 b /\
  forall states basis, sector k 4 b states -> In 8%N states -> constructed U32 k 4 2 1 b states basis ->
  forall real P after, get_proj U32 k 4 2 1 b basis real None = Some (P, after) ->
  exists i, i < length basis /\ e_s (nth i basis entry0) = 8%N /\ Csum (seq 0 (Mst k 4)) (fun x => Cconj (P x i) * P x i)%C = RtoC 2.
Proof.
  intros k b. assert (OK : block_ok U32 k 4 2 b). { split; [split; [lia|cbn; lia]|]. split; [intros _|left; reflexivity]. split; [split; [split; [lia|cbn; lia]|left; cbn; lia]|]. split; [lia|exists 2; reflexivity]. }
  assert (Hsh : full_shift U32 k 4 b) by discriminate. split; [exact OK|]. split; [exact Hsh|]. intros states basis (Hst & Hnd & _) I8 (es & Hcol & Harr) real P after E.
  assert (Ek : keep U32 k 4 2 1 b 8 = Some [mk 8 2 0]) by (vm_compute; reflexivity).
  destruct (stored_at U32 k 4 2 1 b states es basis 8%N _ _ Hcol Harr I8 Ek (or_introl eq_refl)) as (i & Hi & Ei). exists i. split; [exact Hi|]. split; [rewrite Ei; reflexivity|].
  rewrite (column U32 k 4 2 1 b states es basis OK Hsh Hst Hcol Harr real P after E i Hi). apply (f_equal RtoC). change (nn_of 4 2 1 b basis i) with (sqrt (kap0 4 2 1 b * nrms 4 2 1 b (nth i basis entry0))). rewrite Ei.
  change (norm_of 4 2 1 b (mk 8 2 0)) with (sqrt (norm2 4 2 1 b (mk 8 2 0))).
  assert (E1 : (kap0 4 2 1 b * nrms 4 2 1 b (mk 8 2 0) = 4)%R).
  { unfold kap0. rewrite (nu_flat U32 k 4 2 1 b OK eq_refl). change (flat 4 2 1) with true. change (n_of 4 2 b) with 2. change (length (heads b)) with 2. unfold nrms, b, norm_TP. cbn [e_m e_N]. change (0 <=? 0 mod (Z.of_nat 4 + 1) - 1)%Z with false. change (sgn 2) with 1%Z. cbv match. cbn [INR]. field. }
  assert (E2 : norm2 4 2 1 b (mk 8 2 0) = 2%R).
  { unfold norm2, b. cbn [e_m e_N]. change (0 <=? 0 mod (Z.of_nat 4 + 1) - 1)%Z with false. change (special_k 4 1) with false. change (Z.sgn 2) with 1%Z. cbv match zeta. unfold cells2. cbn [INR]. field. }
  rewrite E1, E2, ratio by lra. lra.
Qed.
Print Assumptions C53_cell_pi_refuted.

(* Twelve spins, momentum 2 pi/12, reflection and spin inversion with labels -1: the label of the state 111111000000 is too
   large for the 8-bit integers of _get_norms, and its column has squared norm 4. *)
Theorem C53_norm_wraps_refuted : let k := Hcp false in let b := BT_P_Z (-1) (-1) in
  block_ok U32 k 12 1 b /\ full_shift U32 k 12 b /\
  forall states basis, sector k 12 b states -> In 4032%N states -> constructed U32 k 12 1 1 b states basis ->
  forall real P after, get_proj U32 k 12 1 1 b basis real None = Some (P, after) ->
  exists i, i < length basis /\ e_s (nth i basis entry0) = 4032%N /\ Csum (seq 0 (Mst k 12)) (fun x => Cconj (P x i) * P x i)%C = RtoC 4.
Proof.
  intros k b. assert (OK : block_ok U32 k 12 1 b). { split; [split; [lia|cbn; lia]|]. split; [intros _|split; [exact I|split; right; reflexivity]]. split; [split; [split; [lia|cbn; lia]|left; cbn; lia]|]. split; [lia|exists 12; reflexivity]. }
  assert (Hsh : full_shift U32 k 12 b) by discriminate. split; [exact OK|]. split; [exact Hsh|]. intros states basis (Hst & Hnd & _) Is (es & Hcol & Harr) real P after E.
  assert (Kv : kval 12 1 1 = (PI / 6)%R) by (unfold kval; cbn [INR]; field).
  assert (C6 : cosm 12 1 1 6 = (-1)%R) by (unfold cosm; rewrite Kv; replace (PI / 6 * 6)%R with PI by field; apply cos_PI).
  assert (C10 : cosm 12 1 1 10 = (/ 2)%R). { unfold cosm. rewrite Kv. replace (PI / 6 * 10)%R with (- (PI / 3) + 2 * PI)%R by field. replace (- (PI / 3) + 2 * PI)%R with (- (PI / 3) + 2 * INR 1 * PI)%R by (cbn; ring). rewrite cos_period, cos_neg, cos_PI3. field. }
  set (e := mk 4032 12 1774).
  assert (Ek : exists l, keep U32 k 12 1 1 b 4032 = Some l /\ In e l).
  { assert (Ec : check_T_P_Z U32 k 12 1 1 4032 = Some [12; 6; 6; 0; 1; 1; 1]%Z) by (vm_compute; reflexivity). unfold keep, b, keep_TPZ. rewrite Ec. cbv zeta. eexists. split; [reflexivity|].
    change (0 <? 12)%Z with true. change (6 =? -1)%Z with false. change (0 =? -1)%Z with false. cbn [negb andb app]. apply in_map_iff. exists 1%Z. split; [reflexivity|]. apply filter_In. split; [right; left; reflexivity|].
    rewrite C6. unfold Rzero. destruct (Req_EM_T (1 + 1 * 1 * -1 * -1) 0) as [Q|_]; [lra|]. destruct (Req_EM_T (1 + -1 * 1 * -1) 0) as [Q|_]; [lra|]. reflexivity. }
  destruct Ek as (l & Ek & Il). destruct (stored_at U32 k 12 1 1 b states es basis 4032%N _ _ Hcol Harr Is Ek Il) as (i & Hi & Ei). exists i. split; [exact Hi|]. split; [rewrite Ei; reflexivity|].
  rewrite (column U32 k 12 1 1 b states es basis OK Hsh Hst Hcol Harr real P after E i Hi). apply (f_equal RtoC). change (nn_of 12 1 1 b basis i) with (sqrt (kap0 12 1 1 b * nrms 12 1 1 b (nth i basis entry0))). rewrite Ei.
  change (norm_of 12 1 1 b e) with (sqrt (norm2 12 1 1 b e)).
  assert (E1 : (kap0 12 1 1 b * nrms 12 1 1 b e = 96)%R).
  { unfold kap0. rewrite (nu_flat U32 k 12 1 1 b OK eq_refl). change (flat 12 1 1) with false. change (n_of 12 1 b) with 12. change (length (heads b)) with 4. unfold nrms, b, norm_TPZ. cbv zeta. change (cTPZ 12 e) with 10%Z. change (f1TPZ 12 e) with 1%Z. change (mmTPZ 12 e) with 6%Z. change (nnTPZ 12 e) with 6%Z. change (sgn (e_N e)) with 1%Z. cbv match. cbn [e_N e]. rewrite C6. cbn [INR]. field. }
  assert (E2 : norm2 12 1 1 b e = 24%R).
  { unfold norm2, b. rewrite (small_flat U32 k 12 1 1 b OK eq_refl). change (flat 12 1 1) with false. cbv zeta. change (int8 (e_m e / ((Z.of_nat 12 + 1) * (Z.of_nat 12 + 1)))) with 10%Z. change (int8 (int8 (e_m e / (Z.of_nat 12 + 1)) mod (Z.of_nat 12 + 1))) with 10%Z. change (int8 (e_m e mod (Z.of_nat 12 + 1))) with 6%Z. change (Z.sgn (e_N e)) with 1%Z. cbv match. cbn [e_N e]. rewrite C6, C10. unfold cells2. cbn [INR]. field. }
  rewrite E1, E2, ratio by lra. lra.
Qed.
Print Assumptions C53_norm_wraps_refuted.

(* project_from refuses sparse vectors of every block with a momentum other than 0 and pi or with momentum and reflection,
   although it accepts the same vector as an array. *)
Theorem C53_sparse_vector_refuted : exists w k L T kb b states basis,
  block_ok w k L T b /\ full_shift w k L b /\ labels_fit L T kb b /\ sector k L b states /\ constructed w k L T kb b states basis /\
  forall v0, (exists r, vec_dense w k L T kb b basis false v0 = Some r) /\ vec_of_sparse w k L T kb b basis false v0 = None.
Proof.
  exists U32, (Hcp false), 3, 1, 1, BT, [1; 2; 4]%N.
  assert (OK : block_ok U32 (Hcp false) 3 1 BT). { split; [split; [lia|cbn; lia]|]. split; [intros _|exact I]. split; [split; [split; [lia|cbn; lia]|left; cbn; lia]|]. split; [lia|exists 3; reflexivity]. }
  assert (Se : sector (Hcp false) 3 BT [1; 2; 4]%N) by (split; [intros s Hs; cbn in Hs; cbn; lia|]; split; [repeat constructor; cbn; intuition discriminate|discriminate]).
  destruct (C52_constructed U32 (Hcp false) 3 1 1 BT [1; 2; 4]%N OK Se) as [basis Co]. exists basis. assert (Hsh : full_shift U32 (Hcp false) 3 BT) by discriminate.
  split; [exact OK|]. split; [exact Hsh|]. split; [exact I|]. split; [exact Se|]. split; [exact Co|]. intros v0. split; [|reflexivity].
  apply (C53_project_from_partial U32 (Hcp false) 3 1 1 BT _ basis OK Hsh I Se Co _ (or_introl eq_refl) v0).
Qed.
Print Assumptions C53_sparse_vector_refuted.
(* where project_from accepts a sparse vector, the result is the same *)
Theorem C53_sparse_vector_partial : forall w k L T kb b states basis,
  block_ok w k L T b -> full_shift w k L b -> labels_fit L T kb b -> sector k L b states -> constructed w k L T kb b states basis ->
  forall real v0 v, vec_of_sparse w k L T kb b basis real v0 = Some v ->
  forall t, is_state k L t -> v (Mst k L - 1 - N.to_nat t) = Csum (seq 0 (length basis)) (fun i => v0 i * sym_state w k L T kb b basis i t)%C.
Proof.
  intros w k L T kb b states basis OK Hsh F8 Se Co real v0 v E t Ht. destruct (C53_get_proj_partial w k L T kb b states basis OK Hsh F8 Se Co) as [_ H]. unfold vec_of_sparse in E. destruct (dtype_called L T kb b); [discriminate|].
  destruct (get_proj w k L T kb b basis real None) as [[P after]|] eqn:EP; [|discriminate]. injection E as <-. destruct (H real P after EP) as [_ HP]. apply Csum_ext. intros i Hi. apply in_seq in Hi. rewrite HP by (assumption || lia). ring.
Qed.
Print Assumptions C53_sparse_vector_partial.

(* two spins, momentum 0: the hypotheses hold; the state |01> + |10> is column 1 *)
Example C53_met :
  block_ok U32 (Hcp false) 2 1 BT /\ full_shift U32 (Hcp false) 2 BT /\ labels_fit 2 1 0 BT /\ sector (Hcp false) 2 BT [0; 1; 2; 3]%N /\ closed U32 (Hcp false) 2 1 BT [0; 1; 2; 3]%N /\
  constructed U32 (Hcp false) 2 1 0 BT [0; 1; 2; 3]%N zero_mom /\ Permutation [0; 1; 2; 3]%N [0; 1; 2; 3]%N /\ StronglySorted N.lt [0; 1; 2; 3]%N /\
  exists P, get_proj U32 (Hcp false) 2 1 0 BT zero_mom true None = Some (P, [3; 2; 0]%N) /\ P 1 1 = P 2 1 /\ P 1 1 = RtoC (/ sqrt 2) /\ P 0 1 = C0.
Proof.
  destruct C52_complete_met as (OK & Se & Cl & Co & _). split; [exact OK|]. split; [discriminate|]. split; [exact I|]. split; [exact Se|]. split; [exact Cl|]. split; [exact Co|]. split; [apply Permutation_refl|].
  split; [repeat constructor; lia|].
  assert (EV : all_some (map (fun e => visits U32 (Hcp false) 2 1 BT [LP; LZ] (e_s e)) zero_mom) = Some [([vis 0 1 3 1; vis 1 1 3 1], 3%N); ([vis 0 1 2 1; vis 1 1 1 1], 2%N); ([vis 0 1 0 1; vis 1 1 0 1], 0%N)]) by (vm_compute; reflexivity).
  unfold get_proj. rewrite EV. change (real_refused 2 1 0 BT true) with false. cbv iota. eexists. split; [reflexivity|].
  assert (N2 : norm_of 2 1 0 BT (mk 2 2 0) = sqrt 2) by (unfold norm_of, norm2, cells2; cbn [e_N INR]; f_equal; field).
  unfold spread. cbn [nth zero_mom fst]. change (n_rows (Hcp false) 2 None) with 4.
  rewrite !Csum_cons, Csum_nil. cbn [v_state get_index]. change (N.to_nat 2) with 2. change (N.to_nat 1) with 1. cbn [Nat.sub Nat.eqb]. unfold weight. cbn [v_r v_label v_sign]. change (C_fun 2 1 0 BT (mk 2 2 0) 0) with C1. change (C_fun 2 1 0 BT (mk 2 2 0) 1) with C1. rewrite N2.
  split; [apply C_eq; cbn; ring|]. split; [apply C_eq; cbn; ring|apply C_eq; cbn; ring].
Qed.
