(* Projector and vector transformations in terms of rows. *)
From Verif Require Import AuxN SpecC SpecSymm SpecSector SpecBasis SpecIndex SpecOps SpecProj M_symm M_index M_proj P_symm P_norm P_symminst P_index P_proj P_symop P_projop.
Local Open Scope nat_scope.

Section Rows.
Variables (M : nat) (pers : list nat) (qs : list Z) (ms : smap) (S : N -> Prop) (L : list (N * Z)) (bp : option (list N)).
Notation nt := (length pers).
Notation D := (fun s => (s < N.of_nat M)%N).
Hypothesis HG : good_maps D nt pers ms.
Hypothesis SD : forall s, S s -> (s < N.of_nat M)%N.
Hypothesis SC : closed_under S nt ms.
Hypothesis HL : lists_decreasing (in_block S nt pers qs ms) L.
Hypothesis Hbp : rows_are M S bp.
Notation V := (symm_state pers qs ms).
Notation st i := (fst (nth i L (0%N, 0%Z))).
Notation Ns := (row_count M bp).
Notation idx := (row_index M bp).
Notation rs := (row_state M bp).
Variable sts : list N.
Hypothesis HE : enumerates sts S.
Definition E (t : N) : Prop := exists r, r < Ns /\ rs r = t.

Lemma idx_rs r : r < Ns -> idx (rs r) = Z.of_nat r.
Proof.
  intros Hr. unfold row_count, row_index, row_state, rows_are in *. destruct bp as [b|].
  - destruct Hbp as [Hd _]. unfold pcon_index. destruct (rep_position_ok b (nth r b 0%N) Hd) as [(i & Hi & ->)|[H _]]; [|exfalso; apply H, nth_In, Hr].
    f_equal. assert (Hil : i < length b) by (apply nth_error_Some; congruence). apply nth_error_nth with (d := 0%N) in Hi.
    destruct (Nat.lt_trichotomy i r) as [Q|[Q|Q]]; [|exact Q|].
    + pose proof (decreasing_nth b i r Hd Q Hr). lia.
    + pose proof (decreasing_nth b r i Hd Q Hil). lia.
  - unfold full_index. lia.
Qed.
Lemma SE s : S s -> E s.
Proof.
  intros Hs. unfold E, row_count, row_state, rows_are in *. destruct bp as [b|].
  - destruct Hbp as [_ Hb]. apply Hb in Hs. apply In_nth with (d := 0%N) in Hs. exact Hs.
  - apply SD in Hs. exists (M - 1 - N.to_nat s). split; lia.
Qed.
Lemma idx_inj s t : S s -> E t -> idx s = idx t -> s = t.
Proof. intros Hs (r & Hr & <-) H. destruct (SE s Hs) as (r' & Hr' & <-). rewrite !idx_rs in H by assumption. f_equal. lia. Qed.
Lemma rs_E r : r < Ns -> E (rs r). Proof. intros H. exists r. split; [exact H|reflexivity]. Qed.
Lemma rs_inj r r' : r < Ns -> r' < Ns -> rs r = rs r' -> r = r'.
Proof. intros H H' EQ. apply (f_equal idx) in EQ. rewrite !idx_rs in EQ by assumption. lia. Qed.
Lemma bp_decr : match bp with None => True | Some b => nt = 0 -> map fst L = b end.
Proof.
  unfold rows_are in Hbp. destruct bp as [b|]; [|exact I]. intros H0. destruct Hbp as [Hd Hb]. pose proof (A_dec nt pers ms qs S L HL) as Hd'.
  assert (HI : forall s, In s (map fst L) <-> In s b).
  { intros s. rewrite Hb. split.
    - intros H. apply in_map_iff in H. destruct H as ([x k] & <- & H). apply HL in H. apply H.
    - intros Hs. apply in_map_iff. exists (s, Z.of_nat (stabilisers pers ms s)). split; [reflexivity|]. apply HL. split; [exact Hs|]. assert (EP : pers = []) by (apply length_zero_iff_nil; exact H0).
      split; [|split; [|reflexivity]].
      + intros t Ht. assert (t = s); [|lia]. apply (reach_act' D nt pers ms HG) in Ht; [|apply SD, Hs]. destruct Ht as (g & Hg & <-). apply (group_valid D nt pers ms HG) in Hg. rewrite EP in Hg. cbn in Hg. destruct Hg as [<-|[]]. reflexivity.
      + rewrite EP. intros g [Hg _] _. apply length_zero_iff_nil in Hg. rewrite Hg. unfold theta. cbn. apply C_eq; cbn; try rewrite cos_0; try rewrite sin_0; try ring. }
  assert (UQ : forall l l' : list N, StronglySorted (fun a b => (b < a)%N) l -> StronglySorted (fun a b => (b < a)%N) l' -> (forall s, In s l <-> In s l') -> l = l').
  { clear. induction l as [|a l IH]; intros l' H H' HI; destruct l' as [|a' l']; [reflexivity| | |].
    - exfalso. apply (HI a'). left. reflexivity.
    - exfalso. apply (HI a). left. reflexivity.
    - apply StronglySorted_inv in H, H'. destruct H as [H1 F1], H' as [H2 F2]. rewrite Forall_forall in F1, F2.
      assert (a = a').
      { destruct (proj1 (HI a) (or_introl eq_refl)) as [Q|Q]; [symmetry; exact Q|]. destruct (proj2 (HI a') (or_introl eq_refl)) as [Q'|Q']; [exact Q'|]. specialize (F2 a Q). specialize (F1 a' Q'). lia. }
      subst a'. f_equal. apply IH; [assumption|assumption|]. intros s. split; intros Hs.
      + destruct (proj1 (HI s) (or_intror Hs)) as [Q|Q]; [|exact Q]. specialize (F1 s Hs). lia.
      + destruct (proj2 (HI s) (or_intror Hs)) as [Q|Q]; [|exact Q]. specialize (F2 s Hs). lia. }
  apply UQ; assumption.
Qed.
Lemma bp_row k : nt = 0 -> (match bp with None => false | Some _ => true end) = true -> k < length L -> k < Ns /\ rs k = st k.
Proof.
  intros H0 Hb Hk. pose proof bp_decr as HB. unfold row_count, row_state. destruct bp as [b|]; [|discriminate]. specialize (HB H0). rewrite <- HB, map_length. split; [exact Hk|].
  rewrite <- (map_nth fst). reflexivity.
Qed.
Lemma col_ok real k : k < length L -> (real = false \/ real_characters pers qs) ->
  let c := get_proj_column real (match bp with None => false | Some _ => true end) idx pers qs ms nt k (st k) (snd (nth k L (0%N, 0%Z))) in
  fst c = (st k, true) /\ forall r, r < Ns -> snd c (Z.of_nat r) = V (st k) (rs r).
Proof.
  intros Hk HR. destruct HE as [Hnd Hin]. destruct (L_at nt pers ms qs S L HL k Hk) as (Sk & _ & _ & ->).
  pose proof (column_ok D nt pers ms qs HG S sts SD SC Hin idx E SE idx_inj real (match bp with None => false | Some _ => true end) k (st k) Sk) as H.
  assert (HI : nt = 0 -> (match bp with None => false | Some _ => true end) = true -> idx (st k) = Z.of_nat k).
  2:{ intros c. destruct (H HI HR) as [H1 H2]. split; [exact H1|]. intros r Hr. rewrite <- (idx_rs r Hr). apply H2, rs_E, Hr. }
  intros H0 Hb. destruct (bp_row k H0 Hb Hk) as [R1 R2]. rewrite <- R2. apply idx_rs, R1.
Qed.
Lemma proj_ok real : (real = false \/ real_characters pers qs) ->
  let P := get_proj real M bp pers qs ms nt L in
  fst P = (map fst L, true) /\ forall k r, k < length L -> r < Ns -> snd P k (Z.of_nat r) = V (st k) (rs r).
Proof.
  intros HR P. unfold P, get_proj. cbn [fst snd]. split.
  - f_equal.
    + transitivity (map (fun k => st k) (seq 0 (length L))).
      * apply map_ext_in. intros k Hk. apply in_seq in Hk. destruct (col_ok real k ltac:(lia) HR) as [H _]. rewrite H. reflexivity.
      * rewrite <- (map_map (fun k => nth k L (0%N, 0%Z)) fst). f_equal. clear. induction L as [|a l IH]; [reflexivity|]. cbn [length seq map nth]. f_equal. rewrite <- seq_shift, map_map. exact IH.
    + apply forallb_forall. intros k Hk. apply in_seq in Hk. destruct (col_ok real k ltac:(lia) HR) as [H _]. rewrite H. reflexivity.
  - intros k r Hk Hr. apply (col_ok real k Hk HR). exact Hr.
Qed.
Lemma proj_refused d : d < nt -> (11 / 10 ^ 16 < Rabs (sin (2 * PI * IZR (nth d qs 0%Z) / INR (nth d pers 0%nat))))%R -> L <> [] ->
  fst (get_proj true M bp pers qs ms nt L) = (map fst L, false).
Proof.
  clear HL. intros Hd Hs Hne. assert (HC : forall k, fst (get_proj_column true (match bp with None => false | Some _ => true end) idx pers qs ms nt k (st k) (snd (nth k L (0%N, 0%Z)))) = (st k, false)).
  { intros k. unfold get_proj_column. destruct (Nat.eqb_spec nt 0) as [Q|_]; [lia|].
    rewrite (helper_refused D nt pers ms qs HG idx nt 0 _ eq_refl ltac:(lia)); [reflexivity|]. exists d. split; [lia|]. unfold too_complex. cbn [cis snd andb]. rewrite sin_neg, Rabs_Ropp.
    destruct (Rlt_dec (11 / 10 ^ 16) (Rabs (sin (ks qs pers d)))) as [_|Q]; [reflexivity|]. exfalso. apply Q. exact Hs. }
  unfold get_proj. cbn [fst]. f_equal.
  - transitivity (map (fun k => st k) (seq 0 (length L))).
    + apply map_ext_in. intros k _. rewrite HC. reflexivity.
    + rewrite <- (map_map (fun k => nth k L (0%N, 0%Z)) fst). f_equal. clear. induction L as [|a l IH]; [reflexivity|]. cbn [length seq map nth]. f_equal. rewrite <- seq_shift, map_map. exact IH.
  - destruct L as [|a l]; [contradiction|]. cbn [length seq forallb]. specialize (HC 0). rewrite HC. reflexivity.
Qed.

(* sums over rows are sums over the sector *)
Lemma rows_sum (F : N -> C) : (forall t, ~ S t -> F t = C0) -> Csum (seq 0 Ns) (fun r => F (rs r)) = Csum sts F.
Proof.
  intros HF. destruct HE as [Hnd Hin]. rewrite <- (Csum_map rs (seq 0 Ns) F).
  assert (N1 : NoDup (map rs (seq 0 Ns))).
  { assert (K : forall l : list nat, NoDup l -> (forall r, In r l -> r < Ns) -> NoDup (map rs l)).
    { induction 1 as [|r l Hr H IH]; intros Hl; cbn [map]; constructor.
      - intros Q. apply in_map_iff in Q. destruct Q as (r' & Q & Hr'). apply rs_inj in Q; [subst; contradiction|apply Hl; right; exact Hr'|apply Hl; left; reflexivity].
      - apply IH. intros r' Hr'. apply Hl. right. exact Hr'. }
    apply K; [apply seq_NoDup|]. intros r Hr. apply in_seq in Hr. lia. }
  assert (I1 : forall s, In s sts -> In s (map rs (seq 0 Ns))).
  { intros s Hs. apply Hin in Hs. destruct (SE s Hs) as (r & Hr & <-). apply in_map, in_seq. lia. }
  assert (EQ : Csum (map rs (seq 0 Ns)) F = Csum (filter (fun t => existsb (N.eqb t) sts) (map rs (seq 0 Ns))) F).
  { assert (K : forall t, existsb (N.eqb t) sts = false -> F t = C0).
    { intros t Ht. apply HF. intros Hs. apply Hin in Hs. assert (existsb (N.eqb t) sts = true); [|congruence]. apply existsb_exists. exists t. split; [exact Hs|apply N.eqb_refl]. }
    clear - K. induction (map rs (seq 0 Ns)) as [|a l IH]; [reflexivity|]. cbn [filter]. rewrite Csum_cons, IH. destruct (existsb (N.eqb a) sts) eqn:EA; [rewrite Csum_cons; reflexivity|]. rewrite (K a EA). ring. }
  rewrite EQ. apply Csum_perm. apply NoDup_Permutation; [apply NoDup_filter, N1|exact Hnd|]. intros t. rewrite filter_In, existsb_exists. split.
  - intros [_ (y & Hy & Ey)]. apply N.eqb_eq in Ey. subst. exact Hy.
  - intros Ht. split; [apply I1, Ht|]. exists t. split; [exact Ht|apply N.eqb_refl].
Qed.
Lemma V_off k t : k < length L -> ~ S t -> V (st k) t = C0.
Proof.
  intros Hk Ht. destruct HE as [Hnd Hin]. destruct (L_at nt pers ms qs S L HL k Hk) as (Sk & _). apply (V_zero D nt pers ms qs HG). intros g Hg EQ. apply Ht. rewrite <- EQ.
  apply (act_S D nt pers ms S sts SD SC Hin); assumption.
Qed.
Lemma L_sum (f : N -> C) : Csum (seq 0 (length L)) (fun k => f (st k)) = Csum L (fun p => f (fst p)).
Proof.
  rewrite <- (Csum_map (fun k => nth k L (0%N, 0%Z)) (seq 0 (length L)) (fun p => f (fst p))). f_equal. clear.
  induction L as [|a l IH]; [reflexivity|]. cbn [length seq map nth]. f_equal. rewrite <- seq_shift, map_map. exact IH.
Qed.
Lemma isometry j k : j < length L -> k < length L -> Csum (seq 0 Ns) (fun r => Cconj (V (st j) (rs r)) * V (st k) (rs r))%C = if j =? k then C1 else C0.
Proof.
  intros Hj Hk. destruct HE as [Hnd Hin]. rewrite (rows_sum (fun t => Cconj (V (st j) t) * V (st k) t)%C).
  - destruct (L_at nt pers ms qs S L HL j Hj) as (Sj & Rj & Cj & _). destruct (L_at nt pers ms qs S L HL k Hk) as (Sk & Rk & Ck & _).
    rewrite (orthonormal D nt pers ms qs HG S sts SD SC Hnd Hin (st k) (st j) Sk Sj Rk Rj Ck Cj).
    destruct (Nat.eqb_spec j k) as [->|Ne].
    + rewrite N.eqb_refl. reflexivity.
    + destruct (N.eqb_spec (st k) (st j)) as [EQ|_]; [|reflexivity]. exfalso. apply Ne. symmetry. exact (L_inj nt pers ms qs S L HL k j Hk Hj EQ).
  - intros t Ht. rewrite (V_off k t Hk Ht). ring.
Qed.
Lemma resolution psi r : block_vector M S bp Ns nt pers qs ms psi -> r < Ns ->
  Csum (seq 0 (length L)) (fun k => V (st k) (rs r) * Csum (seq 0 Ns) (fun r' => Cconj (V (st k) (rs r')) * psi r'))%C = psi r.
Proof.
  intros (f & Hf & H0 & Hpsi) Hr. destruct HE as [Hnd Hin].
  transitivity (Csum (seq 0 (length L)) (fun k => V (st k) (rs r) * Csum sts (fun u => Cconj (V (st k) u) * f u))%C).
  { apply Csum_ext. intros k Hk. apply in_seq in Hk. f_equal. rewrite <- (rows_sum (fun u => Cconj (V (st k) u) * f u)%C).
    - apply Csum_ext. intros r' Hr'. apply in_seq in Hr'. rewrite Hpsi by lia. reflexivity.
    - intros t Ht. rewrite (H0 t Ht). ring. }
  rewrite (Hpsi r Hr). destruct (in_dec N.eq_dec (rs r) sts) as [Hi|Hi].
  - apply Hin in Hi. rewrite (L_sum (fun s => V s (rs r) * Csum sts (fun u => Cconj (V s u) * f u))%C). apply (complete D nt pers ms qs HG S sts SD SC Hnd Hin L HL f (rs r) Hf Hi).
  - assert (Hn : ~ S (rs r)) by (intros Q; apply Hi, Hin, Q). rewrite (H0 _ Hn). apply Csum_zero. intros k Hk. apply in_seq in Hk. rewrite V_off by first [lia|exact Hn]. ring.
Qed.
Lemma column_block k : k < length L -> block_vector M S bp Ns nt pers qs ms (fun r => V (st k) (rs r)).
Proof.
  intros Hk. destruct HE as [Hnd Hin]. exists (V (st k)). split; [|split; [intros t; apply V_off, Hk|reflexivity]].
  destruct (L_at nt pers ms qs S L HL k Hk) as (Sk & _). apply (V_sector D nt pers ms qs HG S SD _ Sk).
Qed.

(* the transformations *)
Lemma order_facts order : Permutation order (seq 0 (length L)) -> Forall (fun k => k < length L) order /\ NoDup order.
Proof.
  intros HP. split; [|eapply Permutation_NoDup; [apply Permutation_sym, HP|apply seq_NoDup]].
  apply Forall_forall. intros k Hk. apply (Permutation_in _ HP), in_seq in Hk. lia.
Qed.
Lemma from_ok real sparse order v : (real = false \/ real_characters pers qs) -> Permutation order (seq 0 (length L)) ->
  exists out, project_from real sparse order M bp pers qs ms nt L v = Some out /\
    forall r, r < Ns -> out r = Csum (seq 0 (length L)) (fun k => V (st k) (rs r) * v k)%C.
Proof.
  intros HR HO. destruct HE as [Hnd Hin]. unfold project_from. destruct sparse.
  - destruct (proj_ok real HR) as [H1 H2]. cbv zeta in H1, H2. rewrite H1. cbn [snd]. eexists. split; [reflexivity|]. intros r Hr. apply Csum_ext. intros k Hk. apply in_seq in Hk. rewrite H2 by lia. reflexivity.
  - destruct (order_facts order HO) as [OF _].
    destruct (from_dense_ok D nt pers ms qs HG S sts SD SC Hin idx E idx_inj L HL real v order OF (fun _ => C0)) as [H1 H2].
    destruct (project_from_dense real idx pers qs ms nt L order v (fun _ => C0)) as [out ok]. cbn [fst snd] in H1, H2. rewrite (H2 HR) in *. eexists. split; [reflexivity|]. intros r Hr.
    cbv beta. rewrite <- (idx_rs r Hr). rewrite (H1 eq_refl (rs r) (rs_E r Hr)). rewrite (Csum_perm _ _ _ HO).
    match goal with |- (C0 + ?a)%C = _ => replace (C0 + a)%C with a by ring end. apply Csum_ext. intros k _. f_equal.
    destruct HR as [->|HR]; [reflexivity|]. apply (V_real D nt pers ms qs HG). exact HR.
Qed.
Lemma to_sparse_ok real order v : (real = false \/ real_characters pers qs) ->
  exists out, project_to real true order M bp pers qs ms nt L v = Some out /\
    forall k, k < length L -> out k = Csum (seq 0 Ns) (fun r => V (st k) (rs r) * v r)%C.
Proof.
  intros HR. unfold project_to. destruct (proj_ok real HR) as [H1 H2]. cbv zeta in H1, H2. rewrite H1. cbn [snd]. eexists. split; [reflexivity|].
  intros k Hk. apply Csum_ext. intros r Hr. apply in_seq in Hr. rewrite H2 by lia. reflexivity.
Qed.
Lemma to_dense_rows (cj real : bool) order v rep_to : (real = false \/ real_characters pers qs) -> Permutation order (seq 0 (length L)) ->
  rep_to = to_walk real idx pers qs ms nt (if cj then 1 else -1)%R (fun r => v (Z.to_nat r)) ->
  exists out, project_to_dense rep_to pers L order (fun _ => C0) = (out, true) /\
    forall k, k < length L -> out (Z.of_nat k) = Csum (seq 0 Ns) (fun r => (if cj then Cconj (V (st k) (rs r)) else V (st k) (rs r)) * v r)%C.
Proof.
  intros HR HO ->. destruct HE as [Hnd Hin]. destruct (order_facts order HO) as [OF ON].
  destruct (to_dense_ok D nt pers ms qs HG S sts SD SC Hnd Hin idx L HL cj real (fun r => v (Z.to_nat r)) order OF ON (fun _ => C0)) as [H1 H2].
  destruct (project_to_dense _ pers L order (fun _ => C0)) as [out ok]. cbn [fst snd] in H1, H2. rewrite (H2 HR) in *. exists out. split; [reflexivity|]. intros k Hk.
  rewrite (H1 eq_refl k). replace (existsb (Nat.eqb k) order) with true.
  2:{ symmetry. apply existsb_exists. exists k. split; [|apply Nat.eqb_refl]. apply (Permutation_in _ (Permutation_sym HO)), in_seq. lia. }
  match goal with |- (C0 + ?a)%C = _ => replace (C0 + a)%C with a by ring end.
  rewrite <- (rows_sum (fun t => as_type real (if cj then Cconj (V (st k) t) else V (st k) t) * v (Z.to_nat (idx t)))%C).
  - apply Csum_ext. intros r Hr. apply in_seq in Hr. rewrite idx_rs, Nat2Z.id by lia. f_equal.
    assert (EQ : forall z, as_type real z = z -> as_type real (Cconj z) = Cconj z).
    { intros z. destruct real; [|reflexivity]. cbn. intros Q. apply (f_equal snd) in Q. cbn in Q. apply C_eq; [reflexivity|]. cbn. rewrite <- Q. ring. }
    assert (VR : as_type real (V (st k) (rs r)) = V (st k) (rs r)) by (destruct HR as [->|HR]; [reflexivity|]; apply (V_real D nt pers ms qs HG); exact HR).
    destruct cj; [apply EQ|]; exact VR.
  - intros t Ht. rewrite (V_off k t Hk Ht). destruct cj; [replace (Cconj C0) with C0 by (apply C_eq; cbn; ring)|]; rewrite as_type_0; ring.
Qed.

(* what is not the adjoint *)
Lemma phase_zero (a b c s : R) : (c * c + s * s = 1)%R -> s <> 0%R -> (a = (c * c - s * s) * a + 2 * s * c * b)%R -> (b = (c * c - s * s) * b - 2 * s * c * a)%R -> a = 0%R /\ b = 0%R.
Proof.
  intros H1 Hs H2 H3. assert (Hc : (c * c = 1 - s * s)%R) by lra. rewrite Hc in H2, H3. assert (E1 : (s * (s * a - c * b) = 0)%R) by lra. assert (E2 : (s * (s * b + c * a) = 0)%R) by lra.
  apply Rmult_integral in E1, E2. destruct E1 as [E1|E1]; [contradiction|]. destruct E2 as [E2|E2]; [contradiction|].
  split.
  - assert (X : ((c * c + s * s) * a = 0)%R). { replace ((c * c + s * s) * a)%R with (s * (s * a - c * b) + c * (s * b + c * a))%R by ring. rewrite E1, E2. ring. } rewrite H1 in X. lra.
  - assert (X : ((c * c + s * s) * b = 0)%R). { replace ((c * c + s * s) * b)%R with (s * (s * b + c * a) - c * (s * a - c * b))%R by ring. rewrite E1, E2. ring. } rewrite H1 in X. lra.
Qed.
Lemma transposed_zero d j k : d < nt -> sin (2 * PI * IZR (nth d qs 0%Z) / INR (nth d pers 0%nat)) <> 0%R -> j < length L -> k < length L ->
  Csum (seq 0 Ns) (fun r => V (st j) (rs r) * V (st k) (rs r))%C = C0.
Proof.
  intros Hd Hs Hj Hk. destruct HE as [Hnd Hin]. rewrite (rows_sum (fun t => V (st j) t * V (st k) t)%C) by (intros t Ht; rewrite (V_off j t Hj Ht); ring).
  destruct (L_at nt pers ms qs S L HL j Hj) as (Sj & _). destruct (L_at nt pers ms qs S L HL k Hk) as (Sk & _).
  set (q := (2 * PI * IZR (nth d qs 0%Z) / INR (nth d pers 0%nat))%R) in *.
  assert (EQ : Csum sts (fun t => V (st j) t * V (st k) t)%C = (Cconj (cis q) * Cconj (cis q) * Csum sts (fun t => V (st j) t * V (st k) t))%C).
  { rewrite (sum_translate D nt pers ms HG S sts SD SC Hnd Hin (unit_elem nt pers d) _ (unit_valid D nt pers ms HG d Hd)) at 1. rewrite <- Csum_mul_l. apply Csum_ext. intros t Ht. apply Hin in Ht.
    rewrite !(V_cov D nt pers ms qs HG (unit_elem nt pers d)) by first [apply (unit_valid D nt pers ms HG d Hd)|apply SD; assumption].
    unfold ph. rewrite (unit_theta D nt pers ms qs HG d Hd). fold q. rewrite (unit_act D nt pers ms HG d t Hd (SD t Ht)).
    pose proof (Cpm _ (gm_sign _ _ _ _ HG d t Hd (SD t Ht))) as E2.
    transitivity ((RtoC (IZR (snd (ms d t))) * RtoC (IZR (snd (ms d t)))) * (Cconj (cis q) * Cconj (cis q) * (V (st j) t * V (st k) t)))%C; [ring|]. rewrite E2. ring. }
  destruct (Csum sts (fun t => V (st j) t * V (st k) t)%C) as [a b]. unfold cis, Cconj, Cmul in EQ. cbn [fst snd] in EQ.
  pose proof (f_equal fst EQ) as Ea. pose proof (f_equal snd EQ) as Eb. cbn [fst snd] in Ea, Eb.
  destruct (phase_zero a b (cos q) (sin q)) as [-> ->]; [pose proof (sin2_cos2 q) as X; unfold Rsqr in X; lra|exact Hs|rewrite Ea at 1; ring|rewrite Eb at 1; ring|reflexivity].
Qed.
Lemma pcon_dense_first real order v : match bp with None => False | Some _ => True end -> 2 <= nt -> (real = false \/ real_characters pers qs) -> Forall (fun k => k < length L) order -> v 0 = C0 ->
  exists out, project_to real false order M bp pers qs ms nt L v = Some out /\ forall k, out k = C0.
Proof.
  clear Hbp. intros Hb Hnt HR HF Hv.
  assert (K : forall order out, Forall (fun k => k < length L) order -> exists out', project_to_dense (project_to_rep_basis real idx pers qs ms nt (fun r => v (Z.to_nat r))) pers L order out = (out', true) /\ forall i, out' i = out i).
  { clear order HF. induction order as [|k order IH]; intros out HF; [exists out; split; reflexivity|]. inversion HF as [|? ? Hk HF']. subst. cbn [project_to_dense].
    destruct (L_at nt pers ms qs S L HL k Hk) as (Sk & _ & _ & Ek). unfold project_to_rep_basis at 1. replace (nt <=? 1) with false by (symmetry; apply Nat.leb_gt; lia).
    destruct (walk_upd D nt pers ms qs HG (fun s ph c out => update_out real c ph (v (Z.to_nat 0)) (Z.of_nat k + idx s)%Z out) (-1) nt 0 (st k) 1 (rep_factor pers (snd (nth k L (0%N, 0%Z)))) out eq_refl (SD _ Sk)) as (ph' & EE & _). rewrite EE. clear EE.
    destruct (upd_all_sum real (fun s => (Z.of_nat k + idx s)%Z) (fun _ => v (Z.to_nat 0)) (wl pers ms qs (-1) nt 0 (st k, 1%Z) (rep_factor pers (snd (nth k L (0%N, 0%Z))))) out) as [H1 H2]. cbv zeta in H1, H2.
    assert (Hok := H2 ltac:(destruct HR as [HR|HR]; [left; exact HR|right; apply (wl_real nt); [right; reflexivity|reflexivity|exact HR|reflexivity]])). specialize (H1 Hok). rewrite Hok.
    destruct (upd_all _ _ out) as [o1 ok1]. cbn [fst snd] in *. destruct (IH o1 HF') as (o2 & E2 & H3). exists o2. split; [exact E2|]. intros i. rewrite H3, H1, Csum_zero; [ring|].
    intros w _. cbn [Z.to_nat]. rewrite Hv. destruct (i =? _)%Z; ring. }
  unfold project_to. assert (EQ : exists b, bp = Some b) by (destruct bp as [b|]; [exists b; reflexivity|contradiction]). destruct EQ as [b EQ].
  destruct (K order (fun _ => C0) HF) as (out & E1 & E2). rewrite EQ in E1 |- *. rewrite E1. exists (fun k => out (Z.of_nat k)). split; [reflexivity|]. intros k. apply E2.
Qed.
End Rows.
