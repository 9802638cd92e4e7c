(* Lists of terms: consolidation, hermiticity check, particle number check, symmetry check. *)
From Verif Require Import AuxN SpecC SpecBits SpecDigits SpecMaps SpecOps M_ops M_opstr P_ops P_fermion P_mat P_opstr P_opinst P_hc.
From Coq Require Import Setoid Morphisms Permutation Sorted.
Local Open Scope nat_scope.

Section TM.
Variables (M : nat) (op : opl -> N -> C -> option (N * C)).
Notation TM := (terms_matrix op).
Lemma TM_nil : TM [] = mzero. Proof. reflexivity. Qed.
Lemma TM_cons t l : TM (t :: l) = madd (term_matrix op t) (TM l). Proof. reflexivity. Qed.
Lemma TM_app a b : meq M (TM (a ++ b)) (madd (TM a) (TM b)).
Proof. induction a as [|t a IH]; cbn [app]; [rewrite TM_nil, madd_0_l; reflexivity|]. rewrite !TM_cons, IH, madd_assoc. reflexivity. Qed.
Lemma TM_perm a b : Permutation a b -> meq M (TM a) (TM b).
Proof.
  induction 1 as [|t a b P IH|t u a|a b c P1 IH1 P2 IH2]; [reflexivity|rewrite !TM_cons, IH; reflexivity| |rewrite IH1; exact IH2].
  rewrite !TM_cons, <- !madd_assoc, (madd_comm M (term_matrix op u)). reflexivity.
Qed.
Lemma TM_map f l : (forall t, In t l -> meq M (term_matrix op (f t)) (term_matrix op t)) -> meq M (TM (map f l)) (TM l).
Proof.
  induction l as [|t l IH]; intros H; [reflexivity|]. cbn [map]. rewrite !TM_cons, IH, (H t (or_introl eq_refl)); [reflexivity|]. intros u Hu. apply H. right. exact Hu.
Qed.
Lemma TM_adj f l : (forall t, In t l -> meq M (term_matrix op (f t)) (madj (term_matrix op t))) -> meq M (TM (map f l)) (madj (TM l)).
Proof.
  induction l as [|t l IH]; intros H; [rewrite TM_nil, madj_zero; reflexivity|]. cbn [map]. rewrite !TM_cons, madj_add, IH, (H t (or_introl eq_refl)); [reflexivity|]. intros u Hu. apply H. right. exact Hu.
Qed.
Lemma TM_flat_map f l : (forall t, In t l -> meq M (TM (f t)) (term_matrix op t)) -> meq M (TM (flat_map f l)) (TM l).
Proof.
  induction l as [|t l IH]; intros H; [reflexivity|]. cbn [flat_map]. rewrite TM_cons, TM_app, IH, (H t (or_introl eq_refl)); [reflexivity|]. intros u Hu. apply H. right. exact Hu.
Qed.
Lemma TM_filter (p : term -> bool) l : (forall t, In t l -> p t = false -> meq M (op_matrix (op (fst t))) mzero) -> meq M (TM (filter p l)) (TM l).
Proof.
  induction l as [|t l IH]; intros H; [reflexivity|]. cbn [filter]. assert (IH' : meq M (TM (filter p l)) (TM l)) by (apply IH; intros u Hu; apply H; right; exact Hu).
  destruct (p t) eqn:E; rewrite ?TM_cons, IH'; [reflexivity|]. unfold term_matrix. rewrite (H t (or_introl eq_refl) E), mscale_zero, madd_0_l. reflexivity.
Qed.
End TM.

(* equality tests *)
Lemma list_eqb_eq {A} (eqb : A -> A -> bool) : (forall x y, eqb x y = true <-> x = y) -> forall a b, list_eqb eqb a b = true <-> a = b.
Proof.
  intros H a. induction a as [|x a IH]; intros [|y b]; cbn; try (split; [discriminate|discriminate]); [tauto|].
  rewrite andb_true_iff, H, IH. split; [intros [-> ->]; reflexivity|intros E; injection E; auto].
Qed.
Lemma opstr_eqb_eq a b : opstr_eqb a b = true <-> a = b.
Proof. apply list_eqb_eq. apply Ascii.eqb_eq. Qed.
Lemma indx_eqb_eq a b : indx_eqb a b = true <-> a = b.
Proof. apply list_eqb_eq. apply Nat.eqb_eq. Qed.
Lemma oi_eqb_eq a b : oi_eqb a b = true <-> a = b.
Proof.
  destruct a as [x i], b as [y j]. unfold oi_eqb. cbn [fst snd]. rewrite andb_true_iff, Ascii.eqb_eq, Nat.eqb_eq. split; [intros [-> ->]; reflexivity|intros E; injection E; auto].
Qed.
Lemma Ceqb_eq a b : Ceqb a b = true <-> a = b.
Proof.
  unfold Ceqb. rewrite andb_true_iff. destruct (Req_EM_T (fst a) (fst b)) as [E1|E1], (Req_EM_T (snd a) (snd b)) as [E2|E2]; split; intros H;
    try (destruct H; discriminate); try (subst; contradiction); [apply C_eq; assumption|split; reflexivity].
Qed.
Lemma term_eqb_eq a b : term_eqb a b = true <-> a = b.
Proof.
  destruct a as [l J], b as [l' J']. unfold term_eqb. cbn [fst snd]. rewrite andb_true_iff, (list_eqb_eq _ oi_eqb_eq), Ceqb_eq.
  split; [intros [-> ->]; reflexivity|intros E; injection E; auto].
Qed.
Lemma term_in_iff t l : term_in t l = true <-> In t l.
Proof.
  unfold term_in. rewrite existsb_exists. split; [intros (x & Hx & E); apply term_eqb_eq in E; subst; exact Hx|intros H; exists t; split; [exact H|apply term_eqb_eq; reflexivity]].
Qed.

(* dictionaries *)
Section Dict.
Context {K V : Type}.
Variables (eqb : K -> K -> bool) (M : nat) (w : K -> V -> cmat).
Hypothesis Heq : forall a b, eqb a b = true -> a = b.
Definition dsum (d : list (K * V)) : cmat := fold_right (fun kv acc => madd (w (fst kv) (snd kv)) acc) mzero d.
Lemma dsum_upd k f d c : (forall v, meq M (w k (f (Some v))) (madd (w k v) c)) -> meq M (w k (f None)) c ->
  meq M (dsum (dict_upd eqb k f d)) (madd (dsum d) c).
Proof.
  intros H1 H2. induction d as [|[k' v] d IH]; cbn [dict_upd].
  - cbn [dsum fold_right fst snd]. rewrite madd_0_r, madd_0_l. exact H2.
  - destruct (eqb k k') eqn:E.
    + apply Heq in E. subst k'. cbn [dsum fold_right fst snd]. rewrite H1, !madd_assoc, (madd_comm M c). reflexivity.
    + cbn [dsum fold_right fst snd]. fold (dsum d). fold (dsum (dict_upd eqb k f d)). rewrite IH, madd_assoc. reflexivity.
Qed.
End Dict.

Section Consolidate.
Variables (M : nat) (op : opl -> N -> C -> option (N * C)).
Definition winner (o : list ascii) (i : list nat) (J : C) : cmat := mscale J (op_matrix (op (combine o i))).
Definition wouter (o : list ascii) (d : list (list nat * C)) : cmat := dsum (winner o) d.
Definition dval (d : dict2) : cmat := dsum wouter d.

Lemma add_term_val d t : meq M (dval (add_term d t)) (madd (dval d) (term_matrix op t)).
Proof.
  destruct t as [l J]. unfold add_term, dval. cbn [fst snd].
  assert (E : term_matrix op (l, J) = winner (map fst l) (map snd l) J) by (unfold winner, term_matrix; cbn [fst snd]; rewrite combine_split; reflexivity). rewrite E.
  apply (dsum_upd opstr_eqb M wouter); [intros a b H; apply opstr_eqb_eq; exact H| |].
  - intros v. unfold wouter. apply (dsum_upd indx_eqb M (winner (map fst l))); [intros a b H; apply indx_eqb_eq; exact H| |reflexivity].
    intros J0. unfold winner. apply mscale_plus.
  - unfold wouter. transitivity (madd (dsum (winner (map fst l)) []) (winner (map fst l) (map snd l) J)); [|cbn [dsum fold_right]; apply madd_0_l].
    apply (dsum_upd indx_eqb M (winner (map fst l))); [intros a b H; apply indx_eqb_eq; exact H| |reflexivity]. intros J0. unfold winner. apply mscale_plus.
Qed.
Lemma fold_add_val l : forall d, meq M (dval (fold_left add_term l d)) (madd (dval d) (terms_matrix op l)).
Proof.
  induction l as [|t l IH]; intros d; cbn [fold_left]; [rewrite TM_nil, madd_0_r; reflexivity|]. rewrite IH, add_term_val, TM_cons, madd_assoc. reflexivity.
Qed.
Definition dropped (eps : R) (d : dict2) : list term :=
  flat_map (fun od => flat_map (fun ij => if Cabs_gt (snd ij) eps then [] else [(combine (fst od) (fst ij), snd ij)]) (snd od)) d.
Lemma split_inner (o : list ascii) eps inner : meq M (dsum (winner o) inner)
  (madd (terms_matrix op (flat_map (fun ij => if Cabs_gt (snd ij) eps then [(combine o (fst ij), snd ij)] else []) inner))
        (terms_matrix op (flat_map (fun ij => if Cabs_gt (snd ij) eps then [] else [(combine o (fst ij), snd ij)]) inner))).
Proof.
  induction inner as [|[i J] inner IH]; cbn [dsum flat_map fold_right fst snd]; [rewrite TM_nil, madd_0_r; reflexivity|].
  fold (dsum (winner o) inner). rewrite IH. destruct (Cabs_gt J eps); cbn [app]; rewrite TM_cons; unfold term_matrix at 1; cbn [fst snd]; fold (winner o i J).
  - rewrite madd_assoc. reflexivity.
  - rewrite <- !madd_assoc, (madd_comm M (winner o i J)). reflexivity.
Qed.
Lemma split_dict eps d : meq M (dval d) (madd (terms_matrix op (dict_terms eps d)) (terms_matrix op (dropped eps d))).
Proof.
  unfold dval, dict_terms, dropped. induction d as [|[o inner] d IH]; cbn [dsum flat_map fold_right fst snd]; [rewrite TM_nil, madd_0_r; reflexivity|].
  fold (dsum wouter d). rewrite IH. unfold wouter. rewrite (split_inner o eps inner), !TM_app.
  rewrite !madd_assoc. apply madd_proper; [reflexivity|]. rewrite <- !madd_assoc. apply madd_proper; [|reflexivity]. apply madd_comm.
Qed.
Lemma consolidate_ok eps l : meq M (terms_matrix op l) (madd (terms_matrix op (consolidate eps l)) (terms_matrix op (dropped eps (fold_left add_term l [])))).
Proof.
  unfold consolidate. rewrite <- split_dict, fold_add_val. cbn [dval dsum fold_right]. rewrite madd_0_l. reflexivity.
Qed.
End Consolidate.

Definition small (eps : R) (J : C) : Prop := (sqrt (fst J * fst J + snd J * snd J) <= eps)%R.
Lemma Cabs_gt_false J eps : Cabs_gt J eps = false <-> small eps J.
Proof. unfold Cabs_gt, small. destruct (Rlt_dec eps _); split; intros H; try discriminate; try reflexivity; lra. Qed.
Lemma dropped_small eps d t : In t (dropped eps d) -> small eps (snd t).
Proof.
  unfold dropped. intros H. apply in_flat_map in H. destruct H as (od & _ & H). apply in_flat_map in H. destruct H as (ij & _ & H).
  destruct (Cabs_gt (snd ij) eps) eqn:E; [destruct H|]. destruct H as [<-|[]]. apply Cabs_gt_false. exact E.
Qed.
Lemma kept_large eps l t : In t (consolidate eps l) -> ~ small eps (snd t).
Proof.
  unfold consolidate, dict_terms. intros H. apply in_flat_map in H. destruct H as (od & _ & H). apply in_flat_map in H. destruct H as (ij & _ & H).
  destruct (Cabs_gt (snd ij) eps) eqn:E; [|destruct H]. destruct H as [<-|[]]. cbn [snd]. intros X. apply Cabs_gt_false in X. congruence.
Qed.
Lemma small0 J : small 0 J -> J = C0.
Proof.
  unfold small. intros H. assert (P : (0 <= fst J * fst J + snd J * snd J)%R) by nra. assert (S := sqrt_pos (fst J * fst J + snd J * snd J)).
  assert (E : (fst J * fst J + snd J * snd J = 0)%R) by (apply sqrt_eq_0; lra). apply C_eq; cbn; nra.
Qed.

(* keys of the dictionary are distinct *)
Lemma dict_upd_keys {K V} (eqb : K -> K -> bool) k (f : option V -> V) d : (forall a b, eqb a b = true <-> a = b) -> NoDup (map fst d) ->
  NoDup (map fst (dict_upd eqb k f d)) /\ (forall x, In x (map fst (dict_upd eqb k f d)) <-> x = k \/ In x (map fst d)).
Proof.
  intros He. induction d as [|[k' v] d IH]; intros HN; cbn [dict_upd map fst] in *.
  - split; [repeat constructor; intros []|]. intros x. cbn. intuition congruence.
  - inversion HN as [|? ? Hk HN']; subst. destruct (IH HN') as [IH1 IH2]. destruct (eqb k k') eqn:E.
    + apply He in E. subst k'. cbn [map fst]. split; [constructor; assumption|]. intros x. cbn. intuition congruence.
    + cbn [map fst]. split.
      * constructor; [|exact IH1]. rewrite IH2. intros [->|H]; [|contradiction]. enough (eqb k k = true) by congruence. apply He. reflexivity.
      * intros x. cbn. rewrite IH2. tauto.
Qed.

(* hermiticity *)
Section Herm.
Variables (M : nat) (op : opl -> N -> C -> option (N * C)) (ok : ascii * nat -> Prop) (sort hc : term -> term).
Hypothesis Hsort : forall t, Forall ok (fst t) -> meq M (term_matrix op (sort t)) (term_matrix op t) /\ Forall ok (fst (sort t)).
Hypothesis Hhc : forall t, Forall ok (fst t) -> meq M (term_matrix op (hc t)) (madj (term_matrix op t)).
Hypothesis Hinv : forall t, hc (hc (sort t)) = sort t.

Lemma herm_sound l : Forall (fun t => Forall ok (fst t)) l -> NoDup (map sort l) -> check_hermitian sort hc l = true ->
  meq M (madj (terms_matrix op l)) (terms_matrix op l).
Proof.
  intros HF HN HC. rewrite Forall_forall in HF. unfold check_hermitian in HC. cbv zeta in HC. rewrite forallb_forall in HC.
  assert (P : Permutation (map sort l) (map hc (map sort l))).
  { apply NoDup_Permutation_bis; [exact HN|rewrite !map_length; lia|]. intros t Ht. apply term_in_iff. apply HC. exact Ht. }
  assert (E : meq M (terms_matrix op (map sort l)) (terms_matrix op l)) by (apply TM_map; intros t Ht; apply Hsort; apply HF; exact Ht).
  assert (E2 : meq M (terms_matrix op (map hc (map sort l))) (madj (terms_matrix op (map sort l)))).
  { apply TM_adj. intros t Ht. apply in_map_iff in Ht. destruct Ht as (u & <- & Hu). apply Hhc. apply Hsort. apply HF. exact Hu. }
  rewrite <- E at 1. rewrite <- E2, <- (TM_perm M op _ _ P). exact E.
Qed.
Lemma herm_complete l : (forall t, In t (map sort l) -> In (hc t) (map sort l)) -> check_hermitian sort hc l = true.
Proof.
  intros H. unfold check_hermitian. cbv zeta. apply forallb_forall. intros t Ht. apply term_in_iff. assert (Ht' := Ht). apply in_map_iff in Ht'. destruct Ht' as (u & <- & Hu).
  apply in_map_iff. exists (hc (sort u)). split; [apply Hinv|]. apply H. exact Ht.
Qed.
End Herm.

Lemma hc_hc_sorted t : hc_opstr (hc_opstr (sort_opstr t)) = sort_opstr t.
Proof.
  destruct t as [l J]. unfold hc_opstr, sort_opstr. cbn [fst snd]. rewrite Cconj_invol. f_equal.
  assert (H := hc_list_reord nograde _ _ _ (fun _ => eq_refl) (stable_sort_reord (hc_list (stable_sort l)))). rewrite hc_list_invol in H.
  rewrite <- (stable_sort_unique _ _ _ _ H). apply stable_sort_id. apply stable_sort_sorted.
Qed.
Lemma fermion_sort_eq l J : fermion_sort (l, J) = (stable_sort l, (J * RtoC (IZR (invsign is_pm l)))%C).
Proof. unfold fermion_sort. destruct (fermion_sort_spec l J) as (t & E & _ & ->). rewrite E. reflexivity. Qed.
Lemma fermion_hc_eq l J : fermion_hc (l, J) = (stable_sort (hc_list l), (Cconj J * RtoC (IZR (invsign is_pm (hc_list l))))%C).
Proof. unfold fermion_hc, fermion_hc_opstr. cbn [fst snd]. destruct (fermion_sort_spec (hc_list l) (Cconj J)) as (t & E & _ & ->). rewrite E. reflexivity. Qed.
Lemma invsign_pm g l : invsign g l = 1%Z \/ invsign g l = (-1)%Z.
Proof.
  assert (L : forall x l, lead g x l = 1%Z \/ lead g x l = (-1)%Z).
  { intros x l'. induction l' as [|y l' IH]; [left; reflexivity|]. cbn [lead]. unfold sg. destruct (snd y <? snd x), (g (fst x) && g (fst y))%bool; lia. }
  induction l as [|x l IH]; [left; reflexivity|]. cbn [invsign]. specialize (L x l). lia.
Qed.
Lemma fermion_hc_hc_sorted t : fermion_hc (fermion_hc (fermion_sort t)) = fermion_sort t.
Proof.
  destruct t as [l J]. rewrite fermion_sort_eq. set (l0 := stable_sort l). set (J0 := (J * _)%C). rewrite !fermion_hc_eq.
  assert (H0 : StronglySorted site_le l0) by apply stable_sort_sorted.
  destruct (fermion_sort_spec (hc_list l0) C1) as (t1 & _ & R1 & E1). assert (R2 := hc_list_reord _ _ _ _ swap_pm_is_pm R1). rewrite hc_list_invol in R2.
  assert (S2 := reord_invsign _ _ _ _ R2). rewrite (sorted_invsign _ _ H0), E1 in S2.
  f_equal.
  - rewrite <- (stable_sort_unique _ _ _ _ R2). apply stable_sort_id. exact H0.
  - rewrite Cconj_mul, Cconj_invol, Cconj_RtoC.
    assert (Z : (RtoC (IZR (invsign is_pm (hc_list l0))) * RtoC (IZR (invsign is_pm (hc_list (stable_sort (hc_list l0))))) = C1)%C)
      by (rewrite <- RtoC_mul, <- mult_IZR, <- S2; reflexivity).
    transitivity (J0 * (RtoC (IZR (invsign is_pm (hc_list l0))) * RtoC (IZR (invsign is_pm (hc_list (stable_sort (hc_list l0)))))))%C; [ring|]. rewrite Z. ring.
Qed.
Lemma hc_sort t : hc_opstr (sort_opstr t) = hc_opstr t.
Proof.
  destruct t as [l J]. unfold hc_opstr, sort_opstr. cbn [fst snd]. f_equal. symmetry.
  apply (stable_sort_unique nograde _ _ 1). exact (hc_list_reord nograde _ _ _ (fun _ => eq_refl) (stable_sort_reord l)).
Qed.
Lemma fermion_hc_sort t : fermion_hc (fermion_sort t) = fermion_hc t.
Proof.
  destruct t as [l J]. rewrite fermion_sort_eq, !fermion_hc_eq. destruct (fermion_sort_spec l C1) as (s & _ & R1 & E1).
  assert (R2 := hc_list_reord _ _ _ _ swap_pm_is_pm R1). assert (I := reord_invsign _ _ _ _ R2). f_equal.
  - symmetry. exact (stable_sort_unique _ _ _ _ R2).
  - rewrite I, <- E1, Cconj_mul, Cconj_RtoC, mult_IZR, RtoC_mul. ring.
Qed.
Lemma herm_complete' (sort hc : term -> term) l : (forall t, hc (hc (sort t)) = sort t) -> (forall t, hc (sort t) = hc t) ->
  (forall t, In t l -> exists u, In u l /\ sort u = hc t) -> check_hermitian sort hc l = true.
Proof.
  intros H1 H2 H. apply herm_complete; [exact H1|]. intros t Ht. apply in_map_iff in Ht. destruct Ht as (u & <- & Hu). destruct (H u Hu) as (w & Hw & E).
  apply in_map_iff. exists w. split; [|exact Hw]. rewrite E. symmetry. apply H2.
Qed.
