(* Fermionic maps: the sign in terms of crossings, unitarity, and lists accepted by the symmetry check. *)
From Verif Require Import AuxN SpecC SpecBits SpecDigits SpecMaps SpecSymm SpecOps SpecInv SpecFermi SpecProj M_bitcount M_maps M_fmap M_ops M_opstr P_next P_boson P_maps P_period P_ops P_mat P_fermion P_opstr P_opinst P_lists P_listinst P_symmlist P_symopinst P_fmap P_fmap2.
From Coq Require Import Setoid Morphisms Permutation Sorted.
Local Open Scope nat_scope.

Lemma nodup_map_in {X Y} (f : X -> Y) l : (forall a b, In a l -> In b l -> f a = f b -> a = b) -> NoDup l -> NoDup (map f l).
Proof.
  intros INJ ND. induction ND as [|x l N1 N2 IH]; [constructor|]. cbn [map]. constructor.
  - intros H. apply in_map_iff in H. destruct H as (y & E & Hy). apply (INJ y x (or_intror Hy) (or_introl eq_refl)) in E. subst y. contradiction.
  - apply IH. intros a b Ha Hb. apply INJ; right; assumption.
Qed.
Lemma sgnb_spec n m s : sgnb n m s = Nat.odd (crossings n m s + odd_inverted n m s).
Proof.
  rewrite Nat.odd_add. unfold sgnb, crossings, odd_inverted. rewrite <- !bsum_odd, bsum_prod, xorb_comm. f_equal.
  - rewrite (bsum_swap (seq 0 n) (seq 0 n)). apply bsum_ext. intros k _. rewrite <- bsum_andl. apply bsum_ext. intros l _. unfold crossing. cbn [fst snd]. rewrite !occ_val.
    destruct (occ n s k), (occ n s l), (l <? k), (target (nth k m 0%Z) <? target (nth l m 0%Z)); reflexivity.
  - apply bsum_ext. intros k _. rewrite occ_val. destruct (occ n s k), (flips (nth k m 0%Z)), (Nat.odd k); reflexivity.
Qed.
Lemma fermion_map_sign n m s : snd (fermion_map_bits n m s) = neg_one_pow (crossings n m s + odd_inverted n m s).
Proof. rewrite fermion_map_eq. cbn [snd]. rewrite sgnb_spec. reflexivity. Qed.
Lemma filled_spec n m i : filled n m i = Nat.odd (filled_behind n m i).
Proof. unfold filled, filled_behind. rewrite bsum_odd. reflexivity. Qed.
Lemma eta_spec n m i : cs (eta n m i) = RtoC (IZR (neg_one_pow ((if flips (nth i m 0%Z) then i else 0) + filled_behind n m i))).
Proof.
  unfold eta, neg_one_pow. rewrite filled_spec, Nat.odd_add. replace (flips (nth i m 0%Z) && Nat.odd i)%bool with (Nat.odd (if flips (nth i m 0%Z) then i else 0)) by (destruct (flips _); reflexivity).
  match goal with |- cs ?b = _ => destruct b end; reflexivity.
Qed.

Section Unitary.
Variables (n : nat) (m : list Z).
Hypothesis Hm : signed_perm n m.
Let M := N.to_nat (2 ^ N.of_nat n).
Notation UM := (map_matrix (fermion_map_bits n m)).
Notation U s := (hcb_map_bits n m s).
Lemma U_inj r s : (r < 2 ^ N.of_nat n)%N -> (s < 2 ^ N.of_nat n)%N -> U r = U s -> r = s.
Proof.
  intros Hr Hs E. apply (occ_ext n r s Hr Hs). intros k Hk. pose proof (occ_U n m Hm r k Hk) as X. rewrite E, (occ_U n m Hm s k Hk) in X.
  destruct (occ n r k), (occ n s k), (flips (nth k m 0%Z)); cbn in X; congruence.
Qed.
Lemma UM_entry t s : UM t s = if (t =? U s)%N then cs (sgnb n m s) else C0.
Proof. unfold map_matrix. rewrite fermion_map_eq. cbn [fst snd]. destruct (sgnb n m s); reflexivity. Qed.
Lemma cs_conj b : Cconj (cs b) = cs b. Proof. destruct b; apply C_eq; cbn; ring. Qed.
Lemma in_M s : (s < N.of_nat M)%N <-> (s < 2 ^ N.of_nat n)%N. Proof. unfold M. rewrite N2Nat.id. reflexivity. Qed.
(* U A has in row U r the row r of A *)
Lemma UM_row A r s : (r < 2 ^ N.of_nat n)%N -> mmul M UM A (U r) s = (cs (sgnb n m r) * A r s)%C.
Proof.
  intros Hr. unfold mmul. rewrite (Csum_single _ _ r (NoDup_all_states M)); [|apply In_all_states, in_M, Hr|].
  - rewrite UM_entry, N.eqb_refl. reflexivity.
  - intros k Hk Nk. apply In_all_states, in_M in Hk. rewrite UM_entry. destruct (N.eqb_spec (U r) (U k)) as [E|]; [|ring]. apply U_inj in E; [congruence|assumption|assumption].
Qed.
Lemma UM_col A t s : (s < 2 ^ N.of_nat n)%N -> mmul M A UM t s = (A t (U s) * cs (sgnb n m s))%C.
Proof.
  intros Hs. unfold mmul. rewrite (Csum_single _ _ (U s) (NoDup_all_states M)); [|apply In_all_states, in_M, U_lt, Hm|].
  - rewrite UM_entry, N.eqb_refl. reflexivity.
  - intros k Hk Nk. rewrite UM_entry. destruct (N.eqb_spec k (U s)); [congruence|ring].
Qed.
Lemma UM_unitary : meq M (mmul M (madj UM) UM) mident.
Proof.
  intros r s Hr Hs. apply in_M in Hr, Hs. rewrite UM_col by exact Hs. unfold madj. rewrite UM_entry. unfold mident. destruct (N.eqb_spec r s) as [->|Ne].
  - rewrite N.eqb_refl, cs_conj, cs_sq. reflexivity.
  - destruct (N.eqb_spec (U s) (U r)) as [E|]; [exfalso; apply U_inj in E; [congruence|assumption|assumption]|]. apply C_eq; cbn; ring.
Qed.
Lemma UM_unitary' : meq M (mmul M UM (madj UM)) mident.
Proof.
  assert (SU : forall r, (r < 2 ^ N.of_nat n)%N -> exists s, (s < 2 ^ N.of_nat n)%N /\ U s = r).
  { intros r Hr. assert (P : Permutation (map (fun s => U s) (all_states M)) (all_states M)).
    { apply NoDup_Permutation_bis; [|rewrite map_length; lia|].
      - apply nodup_map_in; [|apply NoDup_all_states]. intros a b Ha Hb E. apply In_all_states, in_M in Ha, Hb. exact (U_inj a b Ha Hb E).
      - intros t Ht. apply in_map_iff in Ht. destruct Ht as (s & <- & _). apply In_all_states, in_M, U_lt, Hm. }
    assert (I : In r (all_states M)) by (apply In_all_states, in_M, Hr). apply (Permutation_in _ (Permutation_sym P)) in I. apply in_map_iff in I. destruct I as (s & E & Hs).
    exists s. split; [apply in_M, In_all_states, Hs|exact E]. }
  intros r t Hr Ht. apply in_M in Hr, Ht. destruct (SU r Hr) as (s & Hs & <-). rewrite UM_row by exact Hs. unfold madj. rewrite UM_entry. unfold mident. destruct (N.eqb_spec t (U s)) as [->|Ne].
  - rewrite N.eqb_refl, cs_conj, cs_sq. reflexivity.
  - destruct (N.eqb_spec (U s) t) as [E|]; [congruence|]. apply C_eq; cbn; ring.
Qed.
(* commuting matrices in components *)
Lemma UM_commutes A : meq M (mmul M UM A) (mmul M A UM) -> forall r s, (r < 2 ^ N.of_nat n)%N -> (s < 2 ^ N.of_nat n)%N ->
  (RtoC (IZR (snd (fermion_map_bits n m r) * snd (fermion_map_bits n m s))) * A (fst (fermion_map_bits n m r)) (fst (fermion_map_bits n m s)))%C = A r s.
Proof.
  intros H r s Hr Hs. assert (L : (U r < N.of_nat M)%N) by (apply in_M, U_lt, Hm). pose proof (H (U r) s L (proj2 (in_M s) Hs)) as E.
  rewrite UM_row, UM_col in E by assumption. rewrite !fermion_map_eq. cbn [fst snd].
  transitivity (cs (sgnb n m r) * (A (U r) (U s) * cs (sgnb n m s)))%C.
  - destruct (sgnb n m r), (sgnb n m s); apply C_eq; cbn; ring.
  - rewrite <- E. transitivity ((cs (sgnb n m r) * cs (sgnb n m r)) * A r s)%C; [ring|]. rewrite cs_sq. ring.
Qed.
End Unitary.

Section Lists.
Variables (bytes : N) (n : nat) (m : list Z).
Hypothesis Hw : (N.of_nat n <= 8 * bytes)%N.
Hypothesis Hn : n <= 256.
Hypothesis Hm : signed_perm n m.
Hypothesis NI : no_inversion m.
Notation M := (N.to_nat (2 ^ N.of_nat n)).
Notation mp := (fun i => nth i m 0%Z).
Notation tg k := (target (nth k m 0%Z)).
Notation UM := (map_matrix (fermion_map_bits n m)).
Notation c := (cop bytes n).
Notation op := (fermion_op bytes n).
Notation ok := (fun oi : ascii * nat => fermion_known (fst oi) /\ snd oi < n).
Notation relabel := (map (fun oi : ascii * nat => (fst oi, tg (snd oi)))).
Lemma law_string l : Forall ok l -> meq M (mmul M UM (string_matrix M c l)) (mmul M (string_matrix M c (relabel l)) UM).
Proof.
  induction 1 as [|[o i] l [Ho Hi] HF IH]; [rewrite mmul_ident_l, mmul_ident_r; reflexivity|]. cbn [map fst snd]. rewrite !SM_cons.
  rewrite <- mmul_assoc, (law_letter bytes n m Hw Hn Hm NI o i Ho Hi), mmul_assoc, IH, <- mmul_assoc. reflexivity.
Qed.
Lemma relabel_ok l : Forall ok l -> Forall ok (relabel l).
Proof. intros H. rewrite Forall_map. eapply Forall_impl; [|exact H]. intros [o i] [Ho Hi]. cbn [fst snd] in *. split; [exact Ho|exact (tg_lt' n m Hm i Hi)]. Qed.
Lemma nofl x : P_symmlist.fl mp x = false. Proof. unfold P_symmlist.fl. exact (fl_no m NI (snd x)). Qed.
Lemma symm_no l J : symm_term mp (l, J) = ((relabel l, J), false).
Proof.
  rewrite symm_term_eq. assert (F : fine mp l) by (intros x Hx _; rewrite nofl; unfold nfl; replace (filter (P_symmlist.fl mp) l) with (@nil (ascii * nat)); [reflexivity|];
    clear Hx x; induction l as [|y l IH]; [reflexivity|]; cbn [filter]; rewrite nofl; exact IH).
  rewrite (fine_h mp l F). f_equal; [f_equal|].
  - apply map_ext. intros x. unfold h. rewrite nofl. reflexivity.
  - replace (csign mp l) with C1; [ring|]. clear F. induction l as [|x l IH]; [reflexivity|]. cbn [csign fold_right]. rewrite nofl. cbn [andb]. exact IH.
  - clear F. unfold oddn. induction l as [|x l IH]; [reflexivity|]. cbn [existsb]. rewrite nofl. exact IH.
Qed.
Definition fstep (t : term) : term := fermion_sort (fst (symm_term mp t)).
Let G := fermion_good bytes n Hw Hn.
Lemma fterm_law t : Forall ok (fst t) -> meq M (mmul M UM (term_matrix op t)) (mmul M (term_matrix op (fstep t)) UM).
Proof.
  destruct t as [l J]. cbn [fst]. intros HF. unfold fstep. rewrite symm_no. cbn [fst].
  destruct (graded_sort_t M op c ok G (relabel l, J) (relabel_ok l HF)) as [E _]. rewrite E. unfold term_matrix. cbn [fst snd].
  rewrite mscale_mul_l, mscale_mul_r. apply mscale_proper; [reflexivity|].
  rewrite (go_matrix _ _ _ _ _ G l HF), (go_matrix _ _ _ _ _ G (relabel l) (relabel_ok l HF)). apply law_string, HF.
Qed.
Lemma fsort_str t : fst (fermion_sort t) = stable_sort (fst t).
Proof. destruct t as [l J]. unfold fermion_sort. destruct (fermion_sort_spec l J) as (s & E & _). rewrite E. reflexivity. Qed.
Lemma fsort_coef l (J : C) : exists b, (b = 1 \/ b = -1)%Z /\ forall J', fermion_sort (l, J') = (stable_sort l, (J' * RtoC (IZR b))%C).
Proof.
  exists (invsign is_pm l). split.
  - destruct (fermion_sort_spec l J) as (s & _ & HR & <-). clear - HR. induction HR as [|l1 x y l2 l' s Hd HR IH]; [left; reflexivity|]. unfold sg. destruct (_ && _)%bool; destruct IH as [-> | ->]; lia.
  - intros J'. unfold fermion_sort. destruct (fermion_sort_spec l J') as (s & E & _ & ->). rewrite E. reflexivity.
Qed.
Lemma relabel_h l : relabel l = map (h mp) l.
Proof. apply map_ext. intros x. unfold h. rewrite nofl. reflexivity. Qed.
Lemma fstep_inj t u : Forall ok (fst t) -> Forall ok (fst u) -> StronglySorted site_le (fst t) -> StronglySorted site_le (fst u) -> fstep t = fstep u -> t = u.
Proof.
  destruct t as [l J], u as [k K]. cbn [fst]. intros Hl Hk S1 S2 E. unfold fstep in E. rewrite !symm_no in E. cbn [fst] in E.
  assert (L1 : Forall (fun x => snd x < n) l) by (eapply Forall_impl; [|exact Hl]; intros x Hx; apply Hx).
  assert (L2 : Forall (fun x => snd x < n) k) by (eapply Forall_impl; [|exact Hk]; intros x Hx; apply Hx).
  assert (E1 := f_equal fst E). rewrite !fsort_str in E1. cbn [fst] in E1. rewrite !relabel_h in E1.
  assert (EQ : l = k).
  { apply sorted_unique; [exact S1|exact S2|]. intros i. destruct (Nat.lt_ge_cases i n) as [Hi|Hi].
    - assert (X : at_site (target (nth i m 0%Z)) (map (h mp) l) = at_site (target (nth i m 0%Z)) (map (h mp) k)).
      { rewrite (reord_at_site _ _ _ _ _ (stable_sort_reord (map (h mp) l))), (reord_at_site _ _ _ _ _ (stable_sort_reord (map (h mp) k))), E1. reflexivity. }
      rewrite !(at_site_h n m Hm) in X by assumption. apply (map_h_inj n m Hm) in X; [exact X| |]; apply Forall_forall; intros x Hx; apply filter_In in Hx.
      + rewrite Forall_forall in L1. apply L1. tauto.
      + rewrite Forall_forall in L2. apply L2. tauto.
    - rewrite !at_site_none; [reflexivity| |]; intros x Hx.
      + rewrite Forall_forall in L2. specialize (L2 x Hx). lia.
      + rewrite Forall_forall in L1. specialize (L1 x Hx). lia. }
  subst k. f_equal. destruct (fsort_coef (relabel l) C1) as (b & Hb & Eb). rewrite !Eb in E. injection E as E2 E3.
  destruct Hb as [-> | ->]; [apply C_eq; cbn in E2, E3; lra|apply C_eq; cbn in E2, E3; lra].
Qed.
Lemma fsymm_sound l : Forall (fun t => Forall ok (fst t)) l -> NoDup (map fermion_sort l) ->
  check_symm_map fermion_sort mp l = true -> meq M (mmul M UM (terms_matrix op l)) (mmul M (terms_matrix op l) UM).
Proof.
  intros HF ND HC. rewrite Forall_forall in HF. unfold check_symm_map in HC. cbv zeta in HC. set (sl := map fermion_sort l) in *. rewrite forallb_forall in HC.
  assert (Hsl : forall t, In t sl -> Forall ok (fst t) /\ StronglySorted site_le (fst t)).
  { intros t Ht. apply in_map_iff in Ht. destruct Ht as (u & <- & Hu). split; [|rewrite fsort_str; apply stable_sort_sorted].
    eapply Permutation_Forall; [exact (proj2 (graded_sort_t M op c ok G u (HF u Hu)))|exact (HF u Hu)]. }
  assert (HC' : forall t, In t sl -> In (fstep t) sl).
  { intros t Ht. specialize (HC t Ht). unfold fstep. destruct (symm_term mp t) as [t' odd]. apply andb_prop in HC. destruct HC as [_ C2]. apply term_in_iff. exact C2. }
  assert (P : Permutation (map fstep sl) sl).
  { apply NoDup_Permutation_bis; [|rewrite map_length; lia|intros t Ht; apply in_map_iff in Ht; destruct Ht as (u & <- & Hu); apply HC'; exact Hu].
    apply nodup_map_in; [|exact ND]. intros t u Ht Hu E. destruct (Hsl t Ht), (Hsl u Hu). apply fstep_inj; assumption. }
  assert (K : meq M (mmul M UM (terms_matrix op sl)) (mmul M (terms_matrix op (map fstep sl)) UM)).
  { assert (Hall : forall t, In t sl -> meq M (mmul M UM (term_matrix op t)) (mmul M (term_matrix op (fstep t)) UM)) by (intros t Ht; apply fterm_law, Hsl, Ht).
    clear - Hall. induction sl as [|t k IH]; [cbn [map]; change (terms_matrix op []) with mzero; rewrite mmul_0_l, mmul_0_r; reflexivity|]. cbn [map]. rewrite !TM_cons, mmul_add_l, mmul_add_r.
    rewrite (Hall t (or_introl eq_refl)), IH by (intros u Hu; apply Hall; right; exact Hu). reflexivity. }
  assert (E : meq M (terms_matrix op sl) (terms_matrix op l)).
  { apply TM_map. intros x Hx. exact (proj1 (graded_sort_t M op c ok G x (HF x Hx))). }
  rewrite (TM_perm M op _ _ P), E in K. exact K.
Qed.
End Lists.
