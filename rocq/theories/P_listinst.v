(* Instances of the list checks for the bases, and the counterexamples. *)
From Verif Require Import AuxN SpecC SpecBits SpecDigits SpecMaps SpecOps SpecInv M_maps M_ops M_opstr P_maps P_ops P_fermion P_mat P_opstr P_opinst P_hc P_lists P_lists2 P_pcon P_merge P_symmlist.
From Coq Require Import Setoid Morphisms Permutation Sorted.
Local Open Scope nat_scope.

Section Plain.
Variables (M : nat) (op : opl -> N -> C -> option (N * C)) (mat : ascii -> nat -> cmat) (ok : ascii * nat -> Prop).
Hypothesis G : good_ops M op mat nograde ok.
Lemma plain_sort_t t : Forall ok (fst t) -> meq M (term_matrix op (sort_opstr t)) (term_matrix op t) /\ Permutation (fst t) (fst (sort_opstr t)).
Proof.
  destruct t as [l J]. cbn [fst]. intros H. split; [apply mscale_proper; [reflexivity|exact (plain_sort _ _ _ _ G l H)]|exact (reord_perm _ _ _ _ (stable_sort_reord l))].
Qed.
Lemma plain_sort_ok t : Forall ok (fst t) -> meq M (term_matrix op (sort_opstr t)) (term_matrix op t) /\ Forall ok (fst (sort_opstr t)).
Proof. intros H. destruct (plain_sort_t t H) as [H1 H2]. split; [exact H1|exact (Permutation_Forall H2 H)]. Qed.
Lemma plain_hc_t t : Forall ok (fst t) -> meq M (term_matrix op (hc_opstr t)) (madj (term_matrix op t)).
Proof. destruct t as [l J]. intros H. exact (plain_hc _ _ _ _ G l J H). Qed.
Lemma plain_herm l : Forall (fun t => Forall ok (fst t)) l -> NoDup (map sort_opstr l) -> check_hermitian sort_opstr hc_opstr l = true ->
  meq M (madj (terms_matrix op l)) (terms_matrix op l).
Proof. exact (herm_sound M op ok sort_opstr hc_opstr plain_sort_ok plain_hc_t l). Qed.
End Plain.
Section Graded.
Variables (M : nat) (op : opl -> N -> C -> option (N * C)) (mat : ascii -> nat -> cmat) (ok : ascii * nat -> Prop).
Hypothesis G : good_ops M op mat is_pm ok.
Lemma graded_sort_t t : Forall ok (fst t) -> meq M (term_matrix op (fermion_sort t)) (term_matrix op t) /\ Permutation (fst t) (fst (fermion_sort t)).
Proof.
  destruct t as [l J]. cbn [fst]. intros H. unfold fermion_sort. destruct (fermion_sort_spec l J) as (s & E & HR & _). split.
  - rewrite E. exact (graded_sort _ _ _ _ G l J _ _ H E).
  - rewrite E. exact (reord_perm _ _ _ _ HR).
Qed.
Lemma graded_sort_ok t : Forall ok (fst t) -> meq M (term_matrix op (fermion_sort t)) (term_matrix op t) /\ Forall ok (fst (fermion_sort t)).
Proof. intros H. destruct (graded_sort_t t H) as [H1 H2]. split; [exact H1|exact (Permutation_Forall H2 H)]. Qed.
Lemma graded_hc_t t : Forall ok (fst t) -> meq M (term_matrix op (fermion_hc t)) (madj (term_matrix op t)).
Proof.
  destruct t as [l J]. cbn [fst]. intros H. unfold fermion_hc. destruct (fermion_sort_spec (hc_list l) (Cconj J)) as (s & E & _).
  change (fermion_hc_opstr (l, J)) with (fermion_sort_opstr (hc_list l, Cconj J)). rewrite E. exact (graded_hc _ _ _ _ G l J _ _ H E).
Qed.
Lemma graded_herm l : Forall (fun t => Forall ok (fst t)) l -> NoDup (map fermion_sort l) -> check_hermitian fermion_sort fermion_hc l = true ->
  meq M (madj (terms_matrix op l)) (terms_matrix op l).
Proof. exact (herm_sound M op ok fermion_sort fermion_hc graded_sort_ok graded_hc_t l). Qed.
End Graded.

(* the check of the dynamic list is the check of the list at t0 *)
Section HermDyn.
Variables (sort hc : term -> term).
Hypothesis Hscale : forall l J c, sort (l, (J * c)%C) = (fst (sort (l, J)), (snd (sort (l, J)) * c)%C).
Hypothesis Hidem : forall t, sort (sort t) = sort t.
Hypothesis Hhs : forall t, hc (sort t) = hc t.
Lemma herm_dyn t0 l : check_hermitian_dynamic sort hc t0 l = check_hermitian sort hc (at_values (fun f => f t0) l).
Proof.
  unfold check_hermitian_dynamic, check_hermitian. cbv zeta. rewrite !map_map.
  assert (E : map (fun x : dterm (R -> C) => sort (let '(x0, J, f) := let '(x0, J, f) := x in (fst (sort (x0, J)), snd (sort (x0, J)), f) in (x0, (J * f t0)%C))) l =
    map sort (at_values (fun f => f t0) l)).
  { unfold at_values. rewrite map_map. apply map_ext. intros [[x J] f]. cbn [fst snd]. rewrite <- Hscale, Hidem. reflexivity. }
  assert (E2 : map (fun x : dterm (R -> C) => hc (let '(x0, J, f) := let '(x0, J, f) := x in (fst (sort (x0, J)), snd (sort (x0, J)), f) in (x0, (J * f t0)%C))) l =
    map (fun x => hc (sort x)) (at_values (fun f => f t0) l)).
  { unfold at_values. rewrite map_map. apply map_ext. intros [[x J] f]. cbn [fst snd]. rewrite <- Hscale. reflexivity. }
  rewrite E, E2. reflexivity.
Qed.
End HermDyn.
Lemma plain_scale l J c : sort_opstr (l, (J * c)%C) = (fst (sort_opstr (l, J)), (snd (sort_opstr (l, J)) * c)%C).
Proof. reflexivity. Qed.
Lemma plain_idem t : sort_opstr (sort_opstr t) = sort_opstr t.
Proof. unfold sort_opstr. cbn [fst snd]. f_equal. apply stable_sort_id. apply stable_sort_sorted. Qed.
Lemma graded_scale l J c : fermion_sort (l, (J * c)%C) = (fst (fermion_sort (l, J)), (snd (fermion_sort (l, J)) * c)%C).
Proof. rewrite !fermion_sort_eq. cbn [fst snd]. f_equal. ring. Qed.
Lemma graded_idem t : fermion_sort (fermion_sort t) = fermion_sort t.
Proof.
  destruct t as [l J]. rewrite fermion_sort_eq, fermion_sort_eq. rewrite (stable_sort_id (stable_sort l)) by apply stable_sort_sorted.
  rewrite (sorted_invsign _ _ (stable_sort_sorted l)). f_equal. apply C_eq; cbn; ring.
Qed.

(* expansion of x and y *)
Lemma expand_sites fuel : forall p l J ts t, expand_opstr fuel p l J = Some ts -> In t ts -> map snd (fst t) = map snd l.
Proof.
  induction fuel as [|fuel IH]; intros p l J ts t E Ht; [discriminate|]. cbn [expand_opstr] in E. destruct l as [|x [|y l]].
  - injection E as <-. destruct Ht as [<-|[]]. reflexivity.
  - injection E as <-. unfold expand_one in Ht. destruct (fst x =? "x")%char; [|destruct (fst x =? "y")%char]; cbn [In] in Ht; destruct x as [o i]; decompose [or] Ht; subst; try reflexivity; contradiction.
  - set (l0 := x :: y :: l) in *. set (i := length l0 / 2) in *. destruct (expand_opstr fuel p (firstn i l0) J) as [l1|] eqn:E1; [|discriminate].
    destruct (expand_opstr fuel p (skipn i l0) C1) as [l2|] eqn:E2; [|discriminate]. injection E as <-. apply in_flat_map in Ht. destruct Ht as (a & Ha & Ht).
    apply in_map_iff in Ht. destruct Ht as (b & <- & Hb). cbn [fst]. rewrite map_app, (IH _ _ _ _ _ E1 Ha), (IH _ _ _ _ _ E2 Hb), <- map_app, firstn_skipn. reflexivity.
Qed.
Lemma spin_expand_ok p n t : (p = 0 \/ p = 1 \/ p = -1)%Z -> Forall (fun oi => spin_known (fst oi) /\ snd oi < n) (fst t) ->
  meq (N.to_nat (2 ^ N.of_nat n)) (terms_matrix (spin_op p n) (spin_expand p t)) (term_matrix (spin_op p n) t) /\
  Forall (fun u => Forall (okd (fun oi => spin_known (fst oi) /\ snd oi < n)) (fst u) /\ map snd (fst u) = map snd (fst t)) (spin_expand p t).
Proof.
  intros Hp H. destruct t as [l J]. cbn [fst] in *. unfold spin_expand. cbn [fst snd]. destruct (expand_ok p n Hp l J H) as (ts & E & HM & HK). rewrite E. split; [exact HM|].
  apply Forall_forall. intros u Hu. split; [apply Forall_forall; intros x Hx; exact (HK u x Hu Hx)|exact (expand_sites _ _ _ _ _ _ E Hu)].
Qed.
Lemma no_expand_ok M op (ok : ascii * nat -> Prop) t : (forall x, ok x -> fst x <> "x"%char /\ fst x <> "y"%char) -> Forall ok (fst t) ->
  meq M (terms_matrix op (no_expand t)) (term_matrix op t) /\ Forall (fun u => Forall (okd ok) (fst u) /\ map snd (fst u) = map snd (fst t)) (no_expand t).
Proof.
  intros Hx H. split; [unfold no_expand; rewrite TM_cons, TM_nil, madd_0_r; reflexivity|]. repeat constructor. eapply Forall_impl; [|exact H]. intros x Hxo. split; [exact Hxo|exact (Hx x Hxo)].
Qed.
Lemma spin_pcon p n eps l : (p = 0 \/ p = 1 \/ p = -1)%Z -> Forall (fun t => Forall (fun oi => spin_known (fst oi) /\ snd oi < n) (fst t)) l ->
  (forall t x, In t l -> count_occ Nat.eq_dec (map snd (fst t)) x <= 2) -> check_pcon sort_opstr (spin_expand p) 1 eps l = true ->
  exists D A, Forall (fun t => small eps (snd t)) D /\ meq (N.to_nat (2 ^ N.of_nat n)) (terms_matrix (spin_op p n) l) (madd A (terms_matrix (spin_op p n) D)) /\ conserves 2 n A.
Proof.
  intros Hp HF HC. apply (pcon_sound 2 n (spin_op p n) (fun o => site_matrix 2 n (pauli_site p o)) (fun oi => spin_known (fst oi) /\ snd oi < n) sort_opstr (spin_expand p));
    [lia|intros k Hk; exact (go_matrix _ _ _ _ _ (spin_good p n) k Hk)|intros x [_ Hx]; exact Hx|intros x; apply spin_moves|intros t; exact (plain_sort_t _ _ _ _ (spin_good p n) t)|intros t; exact (spin_expand_ok p n t Hp)|reflexivity|exact HF|exact HC].
Qed.
Lemma boson_pcon B n eps l m : (2 <= B)%N -> N.of_nat (S m) = B -> Forall (fun t => Forall (fun oi => boson_known (fst oi) /\ snd oi < n) (fst t)) l ->
  (forall t x, In t l -> count_occ Nat.eq_dec (map snd (fst t)) x <= S m) -> check_pcon sort_opstr no_expand m eps l = true ->
  exists D A, Forall (fun t => small eps (snd t)) D /\ meq (N.to_nat (B ^ N.of_nat n)) (terms_matrix (boson_op B n) l) (madd A (terms_matrix (boson_op B n) D)) /\ conserves B n A.
Proof.
  intros HB Hm HF HC. apply (pcon_sound B n (boson_op B n) (fun o => site_matrix B n (boson_code_site B o)) (fun oi => boson_known (fst oi) /\ snd oi < n) sort_opstr no_expand);
    [exact HB|intros k Hk; exact (go_matrix _ _ _ _ _ (boson_good B n HB) k Hk)|intros x [_ Hx]; exact Hx|intros x; apply boson_moves; exact HB|intros t; exact (plain_sort_t _ _ _ _ (boson_good B n HB) t)| |exact Hm|exact HF|exact HC].
  intros t. apply no_expand_ok. intros [o i] [K _]. unfold boson_known in K. cbn in *. split; intros ->; decompose [or] K; discriminate || contradiction.
Qed.
Lemma fermion_pcon bytes n eps l : (N.of_nat n <= 8 * bytes)%N -> n <= 256 -> Forall (fun t => Forall (fun oi => fermion_known (fst oi) /\ snd oi < n) (fst t)) l ->
  (forall t x, In t l -> count_occ Nat.eq_dec (map snd (fst t)) x <= 2) -> check_pcon fermion_sort no_expand 1 eps l = true ->
  exists D A, Forall (fun t => small eps (snd t)) D /\ meq (N.to_nat (2 ^ N.of_nat n)) (terms_matrix (fermion_op bytes n) l) (madd A (terms_matrix (fermion_op bytes n) D)) /\ conserves 2 n A.
Proof.
  intros Hw Hn HF HC. apply (pcon_sound 2 n (fermion_op bytes n) (cop bytes n) (fun oi => fermion_known (fst oi) /\ snd oi < n) fermion_sort no_expand);
    [lia|intros k Hk; exact (go_matrix _ _ _ _ _ (fermion_good bytes n Hw Hn) k Hk)|intros x [_ Hx]; exact Hx|intros x; apply fermion_moves; assumption|intros t; exact (graded_sort_t _ _ _ _ (fermion_good bytes n Hw Hn) t)| |reflexivity|exact HF|exact HC].
  intros t. apply no_expand_ok. intros [o i] [K _]. unfold fermion_known in K. cbn in *. split; intros ->; decompose [or] K; discriminate || contradiction.
Qed.
(* symmetry *)
Lemma spin_symm p n m l : signed_perm n m -> Forall (fun t => Forall (fun oi => spin_known (fst oi) /\ snd oi < n) (fst t)) l ->
  Forall (fun t => fine (fun i => nth i m 0%Z) (fst t)) l -> NoDup (map sort_opstr l) -> check_symm_map sort_opstr (fun i => nth i m 0%Z) l = true ->
  commutes_with_map 2 n m (terms_matrix (spin_op p n) l).
Proof.
  intros Hm HF HFi ND HC. apply (symm_sound 2 n m ltac:(lia) Hm (spin_op p n) _ (fun oi => spin_known (fst oi) /\ snd oi < n) (spin_good p n)); try assumption.
  - intros x [_ Hx]. exact Hx.
  - intros [o i] [K Hi]. unfold h. cbn [fst snd] in *. split; [|apply signed_perm_lt; assumption]. destruct (fl _ _); [|exact K].
    unfold spin_known in *. cbn [In] in *. destruct K as [<-|[<-|[<-|[<-|[<-|[<-|[<-|[]]]]]]]]; cbn; tauto.
  - intros x Hx. apply spin_letter; assumption.
Qed.
Lemma higher_spin_symm B n m l : (2 <= B)%N -> signed_perm n m -> Forall (fun t => Forall (fun oi => spinS_known (fst oi) /\ snd oi < n) (fst t)) l ->
  Forall (fun t => fine (fun i => nth i m 0%Z) (fst t)) l -> NoDup (map sort_opstr l) -> check_symm_map sort_opstr (fun i => nth i m 0%Z) l = true ->
  commutes_with_map B n m (terms_matrix (higher_spin_op B n) l).
Proof.
  intros HB Hm HF HFi ND HC. apply (symm_sound B n m HB Hm (higher_spin_op B n) _ (fun oi => spinS_known (fst oi) /\ snd oi < n) (higher_spin_good B n HB)); try assumption.
  - intros x [_ Hx]. exact Hx.
  - intros [o i] [K Hi]. unfold h. cbn [fst snd] in *. split; [|apply signed_perm_lt; assumption]. destruct (fl _ _); [|exact K].
    unfold spinS_known in *. cbn [In] in *. destruct K as [<-|[<-|[<-|[<-|[]]]]]; cbn; tauto.
  - intros x [Hx _]. apply spinS_letter; assumption.
Qed.
Lemma boson_symm B n m l : (2 <= B)%N -> signed_perm n m -> (forall i, i < n -> flips (nth i m 0%Z) = false) ->
  Forall (fun t => Forall (fun oi => boson_known (fst oi) /\ snd oi < n) (fst t)) l -> NoDup (map sort_opstr l) -> check_symm_map sort_opstr (fun i => nth i m 0%Z) l = true ->
  commutes_with_map B n m (terms_matrix (boson_op B n) l).
Proof.
  intros HB Hm Hfl HF ND HC. apply (symm_sound B n m HB Hm (boson_op B n) _ (fun oi => boson_known (fst oi) /\ snd oi < n) (boson_good B n HB)); try assumption.
  - intros x [_ Hx]. exact Hx.
  - intros [o i] [K Hi]. unfold h, fl. cbn [fst snd] in *. rewrite (Hfl i Hi). split; [exact K|apply signed_perm_lt; assumption].
  - intros x [[K Hx] _]. apply site_letter; [exact HB|exact Hm|exact Hx|]. intros a b _ _ F. unfold fl in F. rewrite (Hfl _ Hx) in F. discriminate.
  - apply Forall_forall. intros t Ht x Hx Hp. rewrite Forall_forall in HF. specialize (HF t Ht). rewrite Forall_forall in HF. unfold fl. rewrite (Hfl _ (proj2 (HF x Hx))).
    assert (Z : nfl (fun i => nth i m 0%Z) (fst t) = 0); [|rewrite Z; reflexivity]. unfold nfl. clear - HF Hfl. induction (fst t) as [|y k IH]; [reflexivity|]. cbn [filter]. unfold fl at 1.
    rewrite (Hfl _ (proj2 (HF y (or_introl eq_refl)))). apply IH. intros z Hz. apply HF. right. exact Hz.
Qed.
