(* Sorting and conjugating operator strings. *)
From Verif Require Import AuxN SpecC SpecOps M_ops M_opstr P_ops P_mat.
From Coq Require Import Setoid Morphisms Permutation Sorted.
Local Open Scope nat_scope.

(* exchange of neighbours on different sites; g: which letters are fermionic *)
Definition sg (g : ascii -> bool) (x y : ascii * nat) : Z := if (g (fst x) && g (fst y))%bool then (-1)%Z else 1%Z.
Inductive reord (g : ascii -> bool) : opl -> opl -> Z -> Prop :=
| reord_refl l : reord g l l 1
| reord_swap l1 x y l2 l' s : snd x <> snd y -> reord g (l1 ++ y :: x :: l2) l' s -> reord g (l1 ++ x :: y :: l2) l' (sg g x y * s).

Lemma reord_trans g a b c s t : reord g a b s -> reord g b c t -> reord g a c (s * t).
Proof.
  induction 1 as [l|l1 x y l2 l' s Hd H IH]; intros H2; [rewrite Z.mul_1_l; exact H2|].
  rewrite <- Z.mul_assoc. apply reord_swap; [exact Hd|apply IH; exact H2].
Qed.
Lemma reord_cons g a l l' s : reord g l l' s -> reord g (a :: l) (a :: l') s.
Proof.
  induction 1 as [l|l1 x y l2 l' s Hd H IH]; [apply reord_refl|]. apply (reord_swap g (a :: l1) x y l2); [exact Hd|exact IH].
Qed.
Lemma reord_app_l g a l l' s : reord g l l' s -> reord g (a ++ l) (a ++ l') s.
Proof. intros H. induction a as [|x a IH]; cbn; [exact H|]. apply reord_cons. exact IH. Qed.
Lemma sg_sym g x y : sg g x y = sg g y x.
Proof. unfold sg. rewrite andb_comm. reflexivity. Qed.
Lemma sg_sq g x y : (sg g x y * sg g x y = 1)%Z.
Proof. unfold sg. destruct (_ && _)%bool; reflexivity. Qed.
Lemma reord_pm g l l' s : reord g l l' s -> s = 1%Z \/ s = (-1)%Z.
Proof. induction 1 as [|l1 x y l2 l' s Hd H IH]; [auto|]. unfold sg. destruct (_ && _)%bool; destruct IH as [->| ->]; auto. Qed.
Lemma reord_sym g l l' s : reord g l l' s -> reord g l' l s.
Proof.
  induction 1 as [l|l1 x y l2 l' s Hd H IH]; [apply reord_refl|].
  rewrite Z.mul_comm. eapply reord_trans; [exact IH|]. rewrite <- (Z.mul_1_r (sg g x y)). rewrite sg_sym. apply reord_swap; [congruence|apply reord_refl].
Qed.
Lemma reord_perm g l l' s : reord g l l' s -> Permutation l l'.
Proof. induction 1 as [l|l1 x y l2 l' s Hd H IH]; [reflexivity|]. rewrite <- IH. apply Permutation_app_head. apply perm_swap. Qed.

Section Semantic.
Variables (M : nat) (mat : ascii -> nat -> cmat) (g : ascii -> bool) (ok : ascii * nat -> Prop).
Hypothesis Hcomm : forall x y, ok x -> ok y -> snd x <> snd y ->
  meq M (mmul M (mat (fst x) (snd x)) (mat (fst y) (snd y))) (mscale (RtoC (IZR (sg g x y))) (mmul M (mat (fst y) (snd y)) (mat (fst x) (snd x)))).
Notation SM := (string_matrix M mat).

Lemma reord_matrix l l' s : reord g l l' s -> Forall ok l -> meq M (SM l) (mscale (RtoC (IZR s)) (SM l')).
Proof.
  induction 1 as [l|l1 x y l2 l' s Hd H IH]; intros HF; [symmetry; apply mscale_1|].
  assert (HF' : Forall ok (l1 ++ y :: x :: l2)) by (eapply Permutation_Forall; [|exact HF]; apply Permutation_app_head; apply perm_swap).
  specialize (IH HF'). apply Forall_app in HF. destruct HF as [_ HF]. inversion HF as [|? ? Hx HF2]; subst. inversion HF2 as [|? ? Hy _]; subst.
  destruct x as [o i], y as [o' j]. rewrite SM_app in IH |- *. rewrite !SM_cons in IH |- *. rewrite <- (mmul_assoc M (mat o i)). rewrite <- (mmul_assoc M (mat o' j)) in IH.
  assert (HC := Hcomm (o, i) (o', j) Hx Hy Hd). cbn [fst snd] in HC. rewrite HC. rewrite mscale_mul_l, mscale_mul_r, IH, mscale_scale, <- RtoC_mul, <- mult_IZR. reflexivity.
Qed.
End Semantic.

(* canonical form *)
Definition at_site (i : nat) (l : opl) : opl := filter (fun x => snd x =? i) l.
Definition site_le (x y : ascii * nat) : Prop := snd x <= snd y.

Lemma reord_at_site g l l' s i : reord g l l' s -> at_site i l = at_site i l'.
Proof.
  induction 1 as [l|l1 x y l2 l' s Hd H IH]; [reflexivity|]. rewrite <- IH. unfold at_site. rewrite !filter_app. f_equal. cbn [filter].
  destruct (Nat.eqb_spec (snd x) i), (Nat.eqb_spec (snd y) i); try reflexivity. congruence.
Qed.
Lemma at_site_none i l : (forall x, In x l -> snd x <> i) -> at_site i l = [].
Proof.
  induction l as [|x l IH]; intros H; [reflexivity|]. cbn. destruct (Nat.eqb_spec (snd x) i) as [E|_]; [exfalso; exact (H x (or_introl eq_refl) E)|].
  apply IH. intros y Hy. apply H. right. exact Hy.
Qed.
Lemma at_site_all l : (forall i, at_site i l = []) -> l = [].
Proof. destruct l as [|x l]; [reflexivity|]. intros H. specialize (H (snd x)). cbn in H. rewrite Nat.eqb_refl in H. discriminate. Qed.
Lemma sorted_unique l l' : StronglySorted site_le l -> StronglySorted site_le l' -> (forall i, at_site i l = at_site i l') -> l = l'.
Proof.
  revert l'. induction l as [|x l IH]; intros l' H1 H2 H; [symmetry; apply at_site_all; intros i; rewrite <- (H i); reflexivity|].
  destruct l' as [|y l']; [exfalso; specialize (H (snd x)); cbn in H; rewrite Nat.eqb_refl in H; discriminate|].
  inversion H1 as [|? ? H1a H1b]; subst. inversion H2 as [|? ? H2a H2b]; subst. rewrite Forall_forall in H1b, H2b.
  assert (Exy : snd x = snd y).
  { assert (A : snd y <= snd x).
    { assert (I : In x (at_site (snd x) (y :: l'))) by (rewrite <- (H (snd x)); cbn; rewrite Nat.eqb_refl; left; reflexivity).
      apply filter_In in I. destruct I as [[->|I] _]; [lia|]. apply H2b in I. exact I. }
    assert (B : snd x <= snd y).
    { assert (I : In y (at_site (snd y) (x :: l))) by (rewrite (H (snd y)); cbn; rewrite Nat.eqb_refl; left; reflexivity).
      apply filter_In in I. destruct I as [[->|I] _]; [lia|]. apply H1b in I. exact I. }
    lia. }
  assert (E : x = y /\ forall i, at_site i l = at_site i l').
  { assert (Hx := H (snd x)). cbn in Hx. rewrite Nat.eqb_refl in Hx. rewrite Exy, Nat.eqb_refl in Hx. injection Hx as -> Hx.
    split; [reflexivity|]. intros i. specialize (H i). cbn in H. destruct (Nat.eqb_spec (snd y) i) as [Ei|Ei]; [rewrite <- Ei; exact Hx|exact H]. }
  destruct E as [-> E]. f_equal. apply IH; assumption.
Qed.

(* stable sort *)
Definition nograde : ascii -> bool := fun _ => false.
Lemma sg_nograde x y : sg nograde x y = 1%Z. Proof. reflexivity. Qed.
Lemma insert_reord x l : reord nograde (x :: l) (insert_site x l) 1.
Proof.
  induction l as [|y l IH]; cbn; [apply reord_refl|]. destruct (Nat.leb_spec (snd x) (snd y)); [apply reord_refl|].
  change 1%Z with (sg nograde x y * 1)%Z. apply (reord_swap nograde [] x y l); [lia|]. cbn. apply reord_cons. exact IH.
Qed.
Lemma stable_sort_reord l : reord nograde l (stable_sort l) 1.
Proof.
  induction l as [|x l IH]; [apply reord_refl|]. cbn [stable_sort fold_right]. change 1%Z with (1 * 1)%Z.
  eapply reord_trans; [apply reord_cons; exact IH|]. apply insert_reord.
Qed.
Lemma insert_sorted x l : StronglySorted site_le l -> StronglySorted site_le (insert_site x l).
Proof.
  induction 1 as [|y l H IH HF]; cbn; [repeat constructor|]. destruct (Nat.leb_spec (snd x) (snd y)).
  - constructor; [constructor; assumption|]. constructor; [assumption|]. eapply Forall_impl; [|exact HF]. unfold site_le. intros; lia.
  - constructor; [exact IH|]. assert (P : Permutation (x :: l) (insert_site x l)) by (eapply reord_perm; apply insert_reord).
    eapply Permutation_Forall; [exact P|]. constructor; [unfold site_le; lia|exact HF].
Qed.
Lemma stable_sort_sorted l : StronglySorted site_le (stable_sort l).
Proof. induction l as [|x l IH]; cbn; [constructor|]. apply insert_sorted. exact IH. Qed.
Lemma stable_sort_unique g l l' s : reord g l l' s -> stable_sort l = stable_sort l'.
Proof.
  intros H. apply sorted_unique; try apply stable_sort_sorted. intros i.
  rewrite <- (reord_at_site _ _ _ _ i (stable_sort_reord l)), <- (reord_at_site _ _ _ _ i (stable_sort_reord l')). eapply reord_at_site. exact H.
Qed.
Lemma stable_sort_id l : StronglySorted site_le l -> stable_sort l = l.
Proof.
  intros H. apply sorted_unique; [apply stable_sort_sorted|exact H|]. intros i. symmetry. exact (reord_at_site _ _ _ _ i (stable_sort_reord l)).
Qed.

(* sign: parity of the graded inversions *)
Fixpoint lead (g : ascii -> bool) (x : ascii * nat) (l : opl) : Z :=
  match l with [] => 1%Z | y :: l' => ((if (snd y <? snd x)%nat then sg g x y else 1) * lead g x l')%Z end.
Fixpoint invsign (g : ascii -> bool) (l : opl) : Z :=
  match l with [] => 1%Z | x :: l' => (lead g x l' * invsign g l')%Z end.
Lemma lead_perm g x l l' : Permutation l l' -> lead g x l = lead g x l'.
Proof. induction 1; cbn [lead]; try lia. Qed.
Lemma invsign_swap g l1 x y l2 : snd x <> snd y -> invsign g (l1 ++ x :: y :: l2) = (sg g x y * invsign g (l1 ++ y :: x :: l2))%Z.
Proof.
  intros Hd. induction l1 as [|a l1 IH]; cbn [app invsign lead].
  - rewrite (sg_sym g y x). destruct (Nat.ltb_spec (snd y) (snd x)), (Nat.ltb_spec (snd x) (snd y)); try lia.
    assert (S := sg_sq g x y). set (z := sg g x y) in *. clearbody z. replace (lead g x l2 * (lead g y l2 * invsign g l2))%Z with (1 * (lead g x l2 * (lead g y l2 * invsign g l2)))%Z by ring.
    rewrite <- S at 1. ring.
  - rewrite IH. rewrite (lead_perm g a (l1 ++ x :: y :: l2) (l1 ++ y :: x :: l2)) by (apply Permutation_app_head; apply perm_swap). ring.
Qed.
Lemma reord_invsign g l l' s : reord g l l' s -> invsign g l = (s * invsign g l')%Z.
Proof. induction 1 as [l|l1 x y l2 l' s Hd H IH]; [lia|]. rewrite invsign_swap, IH by exact Hd. ring. Qed.
Lemma sorted_invsign g l : StronglySorted site_le l -> invsign g l = 1%Z.
Proof.
  induction 1 as [|x l H IH HF]; [reflexivity|]. cbn. rewrite IH. assert (E : lead g x l = 1%Z); [|lia].
  clear -HF. induction HF as [|y l Hy _ IH]; [reflexivity|]. cbn [lead]. rewrite IH. unfold site_le in Hy. destruct (Nat.ltb_spec (snd y) (snd x)) as [Hq|Hq]; [exfalso; lia|reflexivity].
Qed.

(* bubble sort *)
Fixpoint below (x : ascii * nat) (l : opl) : nat := match l with [] => 0 | y :: l' => (if snd y <? snd x then 1 else 0) + below x l' end.
Fixpoint inversions (l : opl) : nat := match l with [] => 0 | x :: l' => below x l' + inversions l' end.
Lemma below_perm x l l' : Permutation l l' -> below x l = below x l'.
Proof. induction 1; cbn [below]; lia. Qed.
Lemma below_le x l : below x l <= length l.
Proof. induction l as [|y l IH]; cbn [below length]; [lia|]. destruct (snd y <? snd x); lia. Qed.
Lemma inversions_le l : inversions l <= length l * length l.
Proof. induction l as [|x l IH]; cbn [inversions length]; [lia|]. assert (H := below_le x l). nia. Qed.

Lemma bubble_pass_spec rest : forall x l s b, bubble_pass x rest = (l, s, b) ->
  reord is_pm (x :: rest) l s /\ inversions l + (if b then 1 else 0) <= inversions (x :: rest) /\
  (b = false -> l = x :: rest /\ StronglySorted site_le l).
Proof.
  induction rest as [|y rest IH]; intros x l s b E; cbn [bubble_pass] in E.
  - injection E as <- <- <-. split; [apply reord_refl|]. split; [lia|]. intros _. split; [reflexivity|repeat constructor].
  - destruct (Nat.ltb_spec (snd y) (snd x)) as [Hlt|Hge].
    + destruct (bubble_pass x rest) as [[l' s'] b'] eqn:E'. destruct (IH x l' s' b' E') as (H1 & H2 & H3). injection E as <- <- <-.
      split; [|split; [|discriminate]].
      * replace (if (is_pm (fst y) && is_pm (fst x))%bool then (- s')%Z else s') with (sg is_pm x y * s')%Z
          by (unfold sg; rewrite (andb_comm (is_pm (fst x))); destruct (_ && _)%bool; lia).
        apply (reord_swap is_pm [] x y rest); [lia|]. cbn. apply reord_cons. exact H1.
      * cbn [inversions below] in H2 |- *. rewrite <- (below_perm y (x :: rest) l') by (eapply reord_perm; exact H1). cbn [below].
        destruct (Nat.ltb_spec (snd y) (snd x)); [|lia]. destruct (Nat.ltb_spec (snd x) (snd y)); [lia|]. destruct b'; lia.
    + destruct (bubble_pass y rest) as [[l' s'] b'] eqn:E'. destruct (IH y l' s' b' E') as (H1 & H2 & H3). injection E as <- <- <-.
      split; [apply reord_cons; exact H1|]. split.
      * cbn [inversions] in H2 |- *. rewrite <- (below_perm x (y :: rest) l') by (eapply reord_perm; exact H1). cbn [below].
        destruct (Nat.ltb_spec (snd y) (snd x)); [lia|]. destruct b'; lia.
      * intros Eb. destruct (H3 Eb) as [-> Hs]. split; [reflexivity|]. constructor; [exact Hs|].
        inversion Hs as [|? ? Hs1 Hs2]; subst. constructor; [exact Hge|]. eapply Forall_impl; [|exact Hs2]. unfold site_le. intros; lia.
Qed.

Lemma bubble_sort_spec fuel : forall l s, inversions l < fuel ->
  exists l' t, bubble_sort fuel l s = Some (l', (s * t)%Z) /\ reord is_pm l l' t /\ StronglySorted site_le l'.
Proof.
  induction fuel as [|fuel IH]; intros l s Hf; [lia|]. cbn [bubble_sort]. destruct l as [|x rest].
  - exists [], 1%Z. rewrite Z.mul_1_r. split; [reflexivity|]. split; [apply reord_refl|constructor].
  - destruct (bubble_pass x rest) as [[l' s'] b] eqn:E. destruct (bubble_pass_spec _ _ _ _ _ E) as (H1 & H2 & H3). destruct b.
    + destruct (IH l' (s * s')%Z ltac:(lia)) as (l2 & t & E2 & R2 & S2). exists l2, (s' * t)%Z. rewrite E2, Z.mul_assoc.
      split; [reflexivity|]. split; [eapply reord_trans; eassumption|exact S2].
    + destruct (H3 eq_refl) as [-> Hs]. eexists _, s'. split; [reflexivity|]. split; assumption.
Qed.

Lemma fermion_sort_spec l J : exists t, fermion_sort_opstr (l, J) = Some (stable_sort l, (J * RtoC (IZR t))%C) /\
  reord is_pm l (stable_sort l) t /\ t = invsign is_pm l.
Proof.
  unfold fermion_sort_opstr. cbn [fst snd]. destruct (bubble_sort_spec (S (length l * length l)) l 1) as (l' & t & E & HR & HS).
  { assert (H := inversions_le l). lia. }
  rewrite E, Z.mul_1_l. assert (El : l' = stable_sort l).
  { apply sorted_unique; [exact HS|apply stable_sort_sorted|]. intros i. rewrite <- (reord_at_site _ _ _ _ i HR).
    apply (reord_at_site _ _ _ _ i (stable_sort_reord l)). }
  subst l'. exists t. split; [reflexivity|]. split; [exact HR|]. rewrite (reord_invsign _ _ _ _ HR), sorted_invsign by exact HS. lia.
Qed.

Lemma fermion_sort_unique l l' s J : reord is_pm l l' s ->
  fermion_sort_opstr (l, J) = fermion_sort_opstr (l', (J * RtoC (IZR s))%C).
Proof.
  intros H. destruct (fermion_sort_spec l J) as (t & E & _ & Ht). destruct (fermion_sort_spec l' (J * RtoC (IZR s))%C) as (t' & E' & _ & Ht').
  rewrite E, E', (stable_sort_unique _ _ _ _ H). rewrite (reord_invsign _ _ _ _ H) in Ht. rewrite <- Ht' in Ht. subst t.
  rewrite mult_IZR, RtoC_mul. f_equal. f_equal. ring.
Qed.

(* hermitian conjugation *)
Section Adjoint.
Variables (M : nat) (mat : ascii -> nat -> cmat) (ok : ascii * nat -> Prop).
Hypothesis Hadj : forall x, ok x -> meq M (madj (mat (fst x) (snd x))) (mat (swap_pm (fst x)) (snd x)).
Lemma hc_list_matrix l : Forall ok l -> meq M (madj (string_matrix M mat l)) (string_matrix M mat (hc_list l)).
Proof.
  induction 1 as [|[o i] l Hx HF IH]; [apply madj_ident|]. unfold hc_list. cbn [map rev fst snd].
  rewrite SM_cons, madj_mmul, IH, SM_app. fold (hc_list l). rewrite SM_one, (Hadj (o, i) Hx). reflexivity.
Qed.
End Adjoint.

Lemma swap_pm_invol o : swap_pm (swap_pm o) = o.
Proof.
  unfold swap_pm. destruct (Ascii.eqb_spec o "+"%char) as [->|H1]; [reflexivity|]. destruct (Ascii.eqb_spec o "-"%char) as [->|H2]; [reflexivity|].
  destruct (Ascii.eqb_spec o "+"%char); [contradiction|]. destruct (Ascii.eqb_spec o "-"%char); [contradiction|]. reflexivity.
Qed.
Lemma swap_pm_is_pm o : is_pm (swap_pm o) = is_pm o.
Proof.
  unfold swap_pm, is_pm. destruct (Ascii.eqb_spec o "+"%char) as [->|H1]; [reflexivity|]. destruct (Ascii.eqb_spec o "-"%char) as [->|H2]; [reflexivity|].
  destruct (Ascii.eqb_spec o "+"%char); [contradiction|]. destruct (Ascii.eqb_spec o "-"%char); [contradiction|]. reflexivity.
Qed.
Lemma hc_list_invol l : hc_list (hc_list l) = l.
Proof.
  unfold hc_list. rewrite map_rev, rev_involutive, map_map. rewrite <- (map_id l) at 2. apply map_ext. intros [o i]. cbn. rewrite swap_pm_invol. reflexivity.
Qed.
Lemma hc_list_reord g l l' s : (forall o, g (swap_pm o) = g o) -> reord g l l' s -> reord g (hc_list l) (hc_list l') s.
Proof.
  intros Hg. induction 1 as [l|l1 x y l2 l' s Hd H IH]; [apply reord_refl|].
  unfold hc_list in *. rewrite map_app in IH |- *. cbn [map] in IH |- *. rewrite rev_app_distr in IH |- *. cbn [rev] in IH |- *. rewrite <- !app_assoc in IH |- *. cbn [app] in IH |- *.
  set (x' := (swap_pm (fst x), snd x)) in *. set (y' := (swap_pm (fst y), snd y)) in *.
  replace (sg g x y) with (sg g y' x') by (unfold sg, x', y'; cbn [fst]; rewrite !Hg, andb_comm; reflexivity).
  apply reord_swap; [cbn; congruence|exact IH].
Qed.
