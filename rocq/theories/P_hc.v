(* Hermitian conjugation, sorting and expansion of operator strings for the concrete bases. *)
From Verif Require Import AuxN SpecC SpecBits SpecOps M_ops M_opstr P_ops P_fermion P_mat P_opstr P_opinst.
From Coq Require Import Setoid Morphisms Permutation Sorted.
Local Open Scope nat_scope.

(* ungraded bases *)
Section Plain.
Variables (M : nat) (op : opl -> N -> C -> option (N * C)) (mat : ascii -> nat -> cmat) (ok : ascii * nat -> Prop).
Hypothesis G : good_ops M op mat nograde ok.

Lemma plain_sort l : Forall ok l -> meq M (op_matrix (op (stable_sort l))) (op_matrix (op l)).
Proof.
  intros H. rewrite (go_reord _ _ _ _ _ G l (stable_sort l) 1 (stable_sort_reord l) H). change (RtoC 1) with C1. rewrite mscale_1. reflexivity.
Qed.
Lemma plain_hc l J : Forall ok l ->
  meq M (mscale (snd (hc_opstr (l, J))) (op_matrix (op (fst (hc_opstr (l, J)))))) (madj (mscale J (op_matrix (op l)))).
Proof.
  intros H. unfold hc_opstr, sort_opstr. cbn [fst snd]. rewrite madj_scale.
  rewrite (plain_sort _ (hc_ok _ _ _ _ _ G l H)), (go_hc _ _ _ _ _ G l H). reflexivity.
Qed.
End Plain.

(* graded bases *)
Section Graded.
Variables (M : nat) (op : opl -> N -> C -> option (N * C)) (mat : ascii -> nat -> cmat) (ok : ascii * nat -> Prop).
Hypothesis G : good_ops M op mat is_pm ok.

Lemma graded_sort l J l' J' : Forall ok l -> fermion_sort_opstr (l, J) = Some (l', J') ->
  meq M (mscale J' (op_matrix (op l'))) (mscale J (op_matrix (op l))).
Proof.
  intros H E. destruct (fermion_sort_spec l J) as (t & E' & HR & _). assert (X := eq_trans (eq_sym E') E). injection X as <- <-.
  rewrite (go_reord _ _ _ _ _ G l _ t HR H). rewrite mscale_scale. reflexivity.
Qed.
Lemma graded_hc l J l' J' : Forall ok l -> fermion_hc_opstr (l, J) = Some (l', J') ->
  meq M (mscale J' (op_matrix (op l'))) (madj (mscale J (op_matrix (op l)))).
Proof.
  intros H E. unfold fermion_hc_opstr in E. cbn [fst snd] in E. rewrite (graded_sort _ _ _ _ (hc_ok _ _ _ _ _ G l H) E).
  rewrite madj_scale, (go_hc _ _ _ _ _ G l H). reflexivity.
Qed.
End Graded.

(* exchanging two groups of operators on disjoint sites *)
Definition pmz (n : nat) : Z := if Nat.odd n then (-1)%Z else 1%Z.
Lemma pmz_add a b : pmz (a + b) = (pmz a * pmz b)%Z.
Proof. unfold pmz. rewrite Nat.odd_add. destruct (Nat.odd a), (Nat.odd b); reflexivity. Qed.
Lemma pmz_pow n : IZR (pmz n) = ((-1) ^ n)%R.
Proof.
  induction n as [|n IH]; [reflexivity|]. change (S n) with (1 + n). rewrite pmz_add, mult_IZR, IH. cbn. ring.
Qed.
Definition gcount (g : ascii -> bool) (l : opl) : nat := length (filter (fun x => g (fst x)) l).
Lemma reord_move g x b c : (forall y, In y b -> snd y <> snd x) ->
  reord g (x :: b ++ c) (b ++ x :: c) (pmz (if g (fst x) then gcount g b else 0)).
Proof.
  induction b as [|y b IH]; intros H; [cbn; destruct (g (fst x)); apply reord_refl|]. cbn [app].
  replace (pmz (if g (fst x) then gcount g (y :: b) else 0)) with (sg g x y * pmz (if g (fst x) then gcount g b else 0))%Z.
  - apply (reord_swap g [] x y (b ++ c)); [intros E; apply (H y (or_introl eq_refl)); congruence|]. cbn [app]. apply reord_cons. apply IH. intros z Hz. apply H. right. exact Hz.
  - unfold sg, gcount. cbn [filter]. destruct (g (fst x)); cbn [andb]; [|reflexivity]. destruct (g (fst y)); cbn [length]; [|lia].
    change (S (length (filter (fun x0 => g (fst x0)) b))) with (1 + length (filter (fun x0 => g (fst x0)) b)). rewrite pmz_add. reflexivity.
Qed.
Lemma reord_exchange g a b : (forall x y, In x a -> In y b -> snd x <> snd y) -> reord g (a ++ b) (b ++ a) (pmz (gcount g a * gcount g b)).
Proof.
  induction a as [|x a IH]; intros H; [rewrite app_nil_r; apply reord_refl|]. cbn [app].
  replace (pmz (gcount g (x :: a) * gcount g b)) with (pmz (gcount g a * gcount g b) * pmz (if g (fst x) then gcount g b else 0))%Z.
  - eapply reord_trans; [apply reord_cons; apply IH; intros u v Hu Hv; apply H; [right; exact Hu|exact Hv]|].
    apply reord_move. intros y Hy E. apply (H x y (or_introl eq_refl) Hy). congruence.
  - change (gcount g (x :: a)) with (length (if g (fst x) then x :: filter (fun x0 => g (fst x0)) a else filter (fun x0 => g (fst x0)) a)). rewrite <- pmz_add. fold (gcount g a). destruct (g (fst x)); cbn [length]; fold (gcount g a); f_equal; lia.
Qed.
Definition shift (L : nat) (l : opl) : opl := map (fun oi => (fst oi, snd oi + L)) l.
Lemma reord_shift g L l l' s : reord g l l' s -> reord g (shift L l) (shift L l') s.
Proof.
  induction 1 as [l|l1 x y l2 l' s Hd H IH]; [apply reord_refl|]. unfold shift in *. rewrite map_app in IH |- *. cbn [map] in IH |- *.
  change (sg g x y) with (sg g (fst x, snd x + L) (fst y, snd y + L)). apply reord_swap; [cbn; lia|exact IH].
Qed.
Lemma hc_list_app a b : hc_list (a ++ b) = hc_list b ++ hc_list a.
Proof. unfold hc_list. rewrite map_app, rev_app_distr. reflexivity. Qed.
Lemma hc_list_shift L l : hc_list (shift L l) = shift L (hc_list l).
Proof. unfold hc_list, shift. rewrite map_rev. f_equal. rewrite !map_map. reflexivity. Qed.
Lemma gcount_hc g l : (forall o, g (swap_pm o) = g o) -> gcount g (hc_list l) = gcount g l.
Proof.
  intros Hg. unfold gcount, hc_list. induction l as [|x l IH]; [reflexivity|]. cbn [map rev filter]. rewrite filter_app, app_length, IH. cbn [filter fst]. rewrite Hg. destruct (g (fst x)); cbn [length]; lia.
Qed.
Lemma gcount_shift g L l : gcount g (shift L l) = gcount g l.
Proof. unfold gcount, shift. induction l as [|x l IH]; [reflexivity|]. cbn. destruct (g (fst x)); cbn; rewrite IH; reflexivity. Qed.
Lemma hc_sites l x : In x (hc_list l) -> exists y, In y l /\ snd y = snd x.
Proof. unfold hc_list. intros H. apply in_rev in H. apply in_map_iff in H. destruct H as (y & <- & Hy). exists y. split; [exact Hy|reflexivity]. Qed.

Section Spinful.
Variables (bytes : N) (L : nat).
Hypothesis Hw : (N.of_nat (2 * L) <= 8 * bytes)%N.
Hypothesis Hn : 2 * L <= 256.
Let M := N.to_nat (2 ^ N.of_nat (2 * L)).
Let ok1 (oi : ascii * nat) := fermion_known (fst oi) /\ snd oi < L.
Let ok (oi : ascii * nat) := fermion_known (fst oi) /\ snd oi < 2 * L.
Let G : good_ops M (fermion_op bytes (2 * L)) (cop bytes (2 * L)) is_pm ok := fermion_good bytes (2 * L) Hw Hn.

Lemma spinful_ok l r : Forall ok1 l -> Forall ok1 r -> Forall ok (l ++ shift L r).
Proof.
  intros H1 H2. apply Forall_app. split.
  - eapply Forall_impl; [|exact H1]. intros [o i] [A B]. unfold ok. cbn [fst snd] in *. split; [exact A|lia].
  - unfold shift. rewrite Forall_map. eapply Forall_impl; [|exact H2]. intros [o i] [A B]. unfold ok. cbn [fst snd] in *. split; [exact A|lia].
Qed.
Lemma reord_app g a a' b b' s t : reord g a a' s -> reord g b b' t -> reord g (a ++ b) (a' ++ b') (s * t).
Proof.
  intros H1 H2. eapply reord_trans; [|apply reord_app_l; exact H2]. clear H2 t b'. induction H1 as [a|l1 x y l2 l' s Hd H IH]; [apply reord_refl|].
  rewrite <- app_assoc in IH |- *. cbn [app] in *. apply reord_swap; [exact Hd|exact IH].
Qed.
Lemma spinful_sort l r J l' r' J' : Forall ok1 l -> Forall ok1 r -> spinful_sort_opstr (l, r, J) = Some (l', r', J') ->
  meq M (mscale J' (op_matrix (fermion_op bytes (2 * L) (l' ++ shift L r')))) (mscale J (op_matrix (fermion_op bytes (2 * L) (l ++ shift L r)))).
Proof.
  intros H1 H2 E. unfold spinful_sort_opstr in E. destruct (fermion_sort_spec l C1) as (t1 & E1 & R1 & _). destruct (fermion_sort_spec r C1) as (t2 & E2 & R2 & _).
  rewrite E1, E2 in E. injection E as <- <- <-.
  rewrite (go_reord _ _ _ _ _ G _ _ _ (reord_app _ _ _ _ _ _ _ R1 (reord_shift _ L _ _ _ R2)) (spinful_ok l r H1 H2)), mscale_scale, mult_IZR, RtoC_mul.
  apply mscale_proper; [ring|reflexivity].
Qed.
Lemma spinful_hc l r J l' r' J' : Forall ok1 l -> Forall ok1 r -> spinful_hc_opstr (l, r, J) = Some (l', r', J') ->
  meq M (mscale J' (op_matrix (fermion_op bytes (2 * L) (l' ++ shift L r')))) (madj (mscale J (op_matrix (fermion_op bytes (2 * L) (l ++ shift L r))))).
Proof.
  intros H1 H2 E. unfold spinful_hc_opstr, fermion_hc_opstr in E. cbn [fst snd] in E.
  destruct (fermion_sort_spec (hc_list l) (Cconj J)) as (t1 & E1 & R1 & _). destruct (fermion_sort_spec (hc_list r) (Cconj C1)) as (t2 & E2 & R2 & _).
  rewrite E1, E2 in E. injection E as <- <- <-.
  assert (HO := spinful_ok l r H1 H2). rewrite madj_scale, <- (go_hc _ _ _ _ _ G _ HO).
  assert (HO' := hc_ok _ _ _ _ _ G _ HO). rewrite hc_list_app, hc_list_shift in HO' |- *.
  assert (RX : reord is_pm (shift L (hc_list r) ++ hc_list l) (hc_list l ++ shift L (hc_list r)) (pmz (count_pm l * count_pm r))).
  { replace (pmz (count_pm l * count_pm r)) with (pmz (gcount is_pm (shift L (hc_list r)) * gcount is_pm (hc_list l))).
    - apply reord_exchange. intros x y Hx Hy. unfold shift in Hx. apply in_map_iff in Hx. destruct Hx as (z & <- & Hz). cbn [snd].
      apply hc_sites in Hy. destruct Hy as (y' & Hy & <-). rewrite Forall_forall in H1. specialize (H1 y' Hy). destruct H1 as [_ H1]. lia.
    - rewrite gcount_shift, !gcount_hc by apply swap_pm_is_pm. rewrite Nat.mul_comm. reflexivity. }
  rewrite (go_reord _ _ _ _ _ G _ _ _ (reord_trans _ _ _ _ _ _ RX (reord_app _ _ _ _ _ _ _ R1 (reord_shift _ L _ _ _ R2))) HO').
  rewrite mscale_scale, !mult_IZR, !RtoC_mul, pmz_pow. apply mscale_proper; [|reflexivity].
  replace (Cconj C1) with C1 by (apply C_eq; cbn; ring). ring.
Qed.
End Spinful.

(* expansion of x and y *)
Section Expand.
Variables (pauli : Z) (n : nat).
Hypothesis Hp : pauli = 0%Z \/ pauli = 1%Z \/ pauli = (-1)%Z.
Let M := N.to_nat (2 ^ N.of_nat n).
Let mat o := site_matrix 2 n (pauli_site pauli o).
Let ok (oi : ascii * nat) := spin_known (fst oi) /\ snd oi < n.
Let G : good_ops M (spin_op pauli n) mat nograde ok := spin_good pauli n.
Notation SM := (string_matrix M mat).
Definition sums (ts : list term) : cmat := fold_right (fun t acc => madd (mscale (snd t) (SM (fst t))) acc) mzero ts.
Lemma sums_app a b : meq M (sums (a ++ b)) (madd (sums a) (sums b)).
Proof. induction a as [|t a IH]; cbn [app sums fold_right]; [rewrite madd_0_l; reflexivity|]. fold (sums (a ++ b)). fold (sums a). rewrite IH, madd_assoc. reflexivity. Qed.
Lemma sums_prod l1 l2 : meq M (sums (flat_map (fun a => map (fun b => (fst a ++ fst b, (snd a * snd b)%C)) l2) l1)) (mmul M (sums l1) (sums l2)).
Proof.
  induction l1 as [|a l1 IH]; cbn [flat_map sums fold_right]; [rewrite mmul_0_l; reflexivity|]. rewrite sums_app, IH. fold (sums l1). rewrite mmul_add_l.
  apply madd_proper; [|reflexivity]. clear. induction l2 as [|b l2 IH]; cbn [map sums fold_right]; [rewrite mmul_0_r; reflexivity|].
  fold (sums l2). fold (sums (map (fun b0 => (fst a ++ fst b0, (snd a * snd b0)%C)) l2)). rewrite IH, mmul_add_r. apply madd_proper; [|reflexivity].
  cbn [fst snd]. rewrite SM_app, mscale_mul_l, mscale_mul_r, mscale_scale. reflexivity.
Qed.
Lemma expand_letter (c1 c2 : C) o o1 o2 i : i < n -> (forall a b, (a < 2)%N -> (b < 2)%N -> pauli_site pauli o a b = (c1 * pauli_site pauli o1 a b + c2 * pauli_site pauli o2 a b)%C) ->
  meq M (mat o i) (madd (mscale c1 (mat o1 i)) (mscale c2 (mat o2 i))).
Proof.
  intros Hi H r s Hr Hs. unfold mat, madd, mscale, site_matrix. destruct (same_except 2 n i r s); [apply H; apply site_val_lt; lia|ring].
Qed.
Lemma expand_one_ok oi J : ok oi -> meq M (sums (expand_one pauli oi J)) (mscale J (SM [oi])).
Proof.
  destruct oi as [o i]. intros [Ho Hi]. cbn [fst snd] in *. unfold expand_one. cbn [fst snd].
  set (hf := if ((pauli =? 0) || (pauli =? 1))%Z%bool then RtoC (1 / 2) else C1).
  destruct (Ascii.eqb_spec o "x"%char) as [->|Nx]; [|destruct (Ascii.eqb_spec o "y"%char) as [->|Ny]].
  - cbn [sums fold_right fst snd]. rewrite !SM_one, madd_0_r. rewrite (expand_letter hf hf "x" "+" "-" i Hi).
    + rewrite mscale_add, !mscale_scale. reflexivity.
    + unfold hf. intros a b Ha Hb. apply eqb01 in Ha. apply eqb01 in Hb. destruct Hp as [->|[->| ->]], Ha as [->| ->], Hb as [->| ->]; apply C_eq; cbn; lra.
  - cbn [sums fold_right fst snd]. rewrite !SM_one, madd_0_r. rewrite (expand_letter (Copp Ci * hf)%C (Ci * hf)%C "y" "+" "-" i Hi).
    + rewrite mscale_add, !mscale_scale. reflexivity.
    + unfold hf. intros a b Ha Hb. apply eqb01 in Ha. apply eqb01 in Hb. destruct Hp as [->|[->| ->]], Ha as [->| ->], Hb as [->| ->]; apply C_eq; cbn; lra.
  - cbn [sums fold_right fst snd]. rewrite madd_0_r. reflexivity.
Qed.
Lemma expand_known oi J t : ok oi -> In t (expand_one pauli oi J) -> Forall (fun x => ok x /\ fst x <> "x"%char /\ fst x <> "y"%char) (fst t).
Proof.
  destruct oi as [o i]. intros [Ho Hi]. cbn [fst snd] in *. unfold expand_one. cbn [fst snd]. cbv zeta.
  assert (K : ok ("+"%char, i) /\ ok ("-"%char, i)) by (unfold ok, spin_known; cbn; tauto).
  destruct (Ascii.eqb_spec o "x"%char) as [->|Nx]; [|destruct (Ascii.eqb_spec o "y"%char) as [->|Ny]]; cbn [In]; intros HI;
    repeat (destruct HI as [<-|HI]); try destruct HI; cbn [fst]; (constructor; [|constructor]); cbn [fst]; (split; [try apply K; unfold ok; cbn; tauto|split; try discriminate; assumption]).
Qed.
Lemma expand_spec fuel : forall l J, Forall ok l -> length l <= fuel -> 0 < fuel ->
  exists ts, expand_opstr fuel pauli l J = Some ts /\ meq M (sums ts) (mscale J (SM l)) /\
    (forall t, In t ts -> Forall (fun x => ok x /\ fst x <> "x"%char /\ fst x <> "y"%char) (fst t)).
Proof.
  induction fuel as [|fuel IH]; intros l J HF Hl H0; [lia|]. cbn [expand_opstr]. destruct l as [|x [|y l]].
  - eexists. split; [reflexivity|]. split; [cbn [sums fold_right fst snd]; rewrite madd_0_r; reflexivity|]. intros t [<-|[]]. constructor.
  - eexists. split; [reflexivity|]. inversion HF; subst. split; [apply expand_one_ok; assumption|]. intros t Ht. eapply expand_known; eassumption.
  - set (l0 := x :: y :: l) in *. set (i := length l0 / 2).
    assert (Li : 0 < i < length l0).
    { unfold i. assert (2 <= length l0) by (cbn; lia). split; [apply Nat.div_str_pos; lia|apply Nat.div_lt; lia]. }
    assert (HS : l0 = firstn i l0 ++ skipn i l0) by (symmetry; apply firstn_skipn). rewrite HS in HF. apply Forall_app in HF. destruct HF as [HF1 HF2].
    destruct (IH (firstn i l0) J HF1) as (t1 & E1 & M1 & K1); [rewrite firstn_length; lia|lia|].
    destruct (IH (skipn i l0) C1 HF2) as (t2 & E2 & M2 & K2); [rewrite skipn_length; lia|lia|].
    rewrite E1, E2. eexists. split; [reflexivity|]. split.
    + rewrite sums_prod, M1, M2. rewrite HS at 3. rewrite SM_app, mscale_mul_l, mscale_1. reflexivity.
    + intros t Ht. apply in_flat_map in Ht. destruct Ht as (a & Ha & Ht). apply in_map_iff in Ht. destruct Ht as (b & <- & Hb). cbn [fst]. apply Forall_app. split; auto.
Qed.
Lemma sums_terms ts : (forall t, In t ts -> Forall ok (fst t)) -> meq M (sums ts) (terms_matrix (spin_op pauli n) ts).
Proof.
  induction ts as [|t ts IH]; intros H; [reflexivity|]. cbn [sums terms_matrix fold_right]. fold (sums ts). fold (terms_matrix (spin_op pauli n) ts).
  rewrite IH by (intros u Hu; apply H; right; exact Hu). apply madd_proper; [|reflexivity]. unfold term_matrix.
  rewrite (go_matrix _ _ _ _ _ G (fst t) (H t (or_introl eq_refl))). reflexivity.
Qed.
Lemma expand_ok l J : Forall ok l -> exists ts, expand_opstr (S (length l)) pauli l J = Some ts /\
  meq M (terms_matrix (spin_op pauli n) ts) (mscale J (op_matrix (spin_op pauli n l))) /\
  (forall t oi, In t ts -> In oi (fst t) -> ok oi /\ fst oi <> "x"%char /\ fst oi <> "y"%char).
Proof.
  intros HF. destruct (expand_spec (S (length l)) l J HF) as (ts & E & HM & HK); [lia|lia|]. exists ts. split; [exact E|]. split.
  - rewrite <- sums_terms; [|intros t Ht; eapply Forall_impl; [|exact (HK t Ht)]; intros x Hx; apply Hx]. rewrite HM, (go_matrix _ _ _ _ _ G l HF). reflexivity.
  - intros t oi Ht Hi. specialize (HK t Ht). rewrite Forall_forall in HK. apply HK. exact Hi.
Qed.
End Expand.
