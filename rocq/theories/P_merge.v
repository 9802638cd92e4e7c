(* More about merging: distinct strings, examples. *)
From Verif Require Import AuxN SpecC SpecDigits SpecMaps SpecOps M_ops M_opstr P_ops P_fermion P_mat P_opstr P_opinst P_hc P_lists P_lists2 P_pcon.
From Coq Require Import Setoid Morphisms Permutation.
Local Open Scope nat_scope.

Lemma consolidate_exact op M l : meq M (terms_matrix op (consolidate 0 l)) (terms_matrix op l).
Proof.
  rewrite (consolidate_ok M op 0 l). set (D := dropped 0 _). assert (H : forall t, In t D -> snd t = C0) by (intros t Ht; apply small0; exact (dropped_small _ _ _ Ht)).
  assert (Z : meq M (terms_matrix op D) mzero).
  { clearbody D. induction D as [|t D IH]; [reflexivity|]. rewrite TM_cons, IH by (intros u Hu; apply H; right; exact Hu). unfold term_matrix. rewrite (H t (or_introl eq_refl)), mscale_0, madd_0_l. reflexivity. }
  rewrite Z, madd_0_r. reflexivity.
Qed.
Lemma NoDup_app_intro' {A} (a b : list A) : NoDup a -> NoDup b -> (forall x, In x a -> In x b -> False) -> NoDup (a ++ b).
Proof.
  intros Ha Hb H. induction Ha as [|x a Hx Ha IH]; [exact Hb|]. cbn. constructor.
  - rewrite in_app_iff. intros [I|I]; [contradiction|exact (H x (or_introl eq_refl) I)].
  - apply IH. intros y Hy. apply H. right. exact Hy.
Qed.
Definition goodd (d : dict2) : Prop := NoDup (map fst d) /\ forall o inner, In (o, inner) d -> NoDup (map fst inner) /\ forall i J, In (i, J) inner -> length o = length i.
Lemma goodd_add d t : goodd d -> goodd (add_term d t).
Proof.
  intros [H1 H2]. unfold add_term. split; [apply (proj1 (dict_upd_keys opstr_eqb _ _ d opstr_eqb_eq H1))|].
  intros o inner Hin. apply dict_upd_in in Hin; [|intros a b X; apply opstr_eqb_eq; exact X]. destruct Hin as [Hin|[-> Hin]]; [exact (H2 o inner Hin)|].
  assert (G : forall v0, NoDup (map fst v0) -> (forall i J, In (i, J) v0 -> length (map fst (fst t)) = length i) ->
    let v := dict_upd indx_eqb (map snd (fst t)) (fun j => match j with None => snd t | Some J => (J + snd t)%C end) v0 in
    NoDup (map fst v) /\ forall i J, In (i, J) v -> length (map fst (fst t)) = length i).
  { intros v0 N0 L0 v. split; [apply (proj1 (dict_upd_keys indx_eqb _ _ v0 indx_eqb_eq N0))|]. intros i J Hi. unfold v in Hi.
    apply dict_upd_in in Hi; [|intros a b X; apply indx_eqb_eq; exact X]. destruct Hi as [Hi|[-> _]]; [exact (L0 _ _ Hi)|rewrite !map_length; reflexivity]. }
  destruct Hin as [->|(v0 & Hv & ->)]; [apply (G []); [constructor|intros ? ? []]|]. destruct (H2 _ _ Hv) as [A1 A2]. apply G; assumption.
Qed.
Lemma combine_inj {A B} (o o' : list A) (i i' : list B) : length o = length i -> length o' = length i' -> combine o i = combine o' i' -> o = o' /\ i = i'.
Proof.
  revert o' i i'. induction o as [|x o IH]; intros [|x' o'] [|y i] [|y' i'] L L' E; try discriminate; [split; reflexivity|]. cbn in *. injection E as -> -> E.
  destruct (IH o' i i' ltac:(lia) ltac:(lia) E) as [-> ->]. split; reflexivity.
Qed.
Lemma consolidate_nodup eps l : NoDup (map fst (consolidate eps l)).
Proof.
  assert (G : goodd (fold_left add_term l [])).
  { assert (X : forall k d, goodd d -> goodd (fold_left add_term k d)) by (induction k as [|t k IH]; intros d Hd; [exact Hd|]; cbn; apply IH; apply goodd_add; exact Hd).
    apply X. split; [constructor|intros ? ? []]. }
  unfold consolidate. set (d := fold_left add_term l []) in *. clearbody d. destruct G as [G1 G2]. unfold dict_terms.
  induction d as [|[o inner] d IH]; [constructor|]. cbn [flat_map fst snd]. rewrite map_app. inversion G1 as [|? ? N1 N2]; subst.
  assert (IN : forall z, In z (map fst (flat_map (fun ij => if Cabs_gt (snd ij) eps then [(combine o (fst ij), snd ij)] else []) inner)) -> exists i J, In (i, J) inner /\ z = combine o i).
  { intros z Hz. apply in_map_iff in Hz. destruct Hz as (t & <- & Ht). apply in_flat_map in Ht. destruct Ht as ([i J] & Hi & Ht). cbn [fst snd] in Ht. destruct (Cabs_gt J eps); [|destruct Ht].
    destruct Ht as [<-|[]]. exists i, J. split; [exact Hi|reflexivity]. }
  apply NoDup_app_intro'.
  - destruct (G2 o inner (or_introl eq_refl)) as [M1 M2]. clear IN G1 G2 IH N1 N2. induction inner as [|[i J] inner IHi]; [constructor|]. cbn [flat_map fst snd]. inversion M1 as [|? ? K1 K2]; subst.
    assert (X : NoDup (map fst (flat_map (fun ij => if Cabs_gt (snd ij) eps then [(combine o (fst ij), snd ij)] else []) inner))).
    { apply IHi; [exact K2|intros i' J' Hi'; apply (M2 i' J'); right; exact Hi']. }
    destruct (Cabs_gt J eps); [|exact X]. cbn [app map fst]. constructor; [|exact X]. intros Hz. apply in_map_iff in Hz. destruct Hz as (t & Et & Ht). apply in_flat_map in Ht.
    destruct Ht as ([i' J'] & Hi' & Ht). cbn [fst snd] in Ht. destruct (Cabs_gt J' eps); [|destruct Ht]. destruct Ht as [<-|[]]. cbn [fst] in Et.
    assert (L1 := M2 i J (or_introl eq_refl)). assert (L2 := M2 i' J' (or_intror Hi')). destruct (combine_inj o o i' i L2 L1 Et) as [_ ->]. apply K1.
    apply in_map_iff. exists (i, J'). split; [reflexivity|exact Hi'].
  - apply IH; [exact N2|]. intros o' inner' Hin. apply G2. right. exact Hin.
  - intros z Hz1 Hz2. apply IN in Hz1. destruct Hz1 as (i & J & Hi & ->). apply in_map_iff in Hz2. destruct Hz2 as (t & Et & Ht). apply in_flat_map in Ht. destruct Ht as ([o' inner'] & Ho & Ht).
    apply in_flat_map in Ht. destruct Ht as ([i' J'] & Hi' & Ht). cbn [fst snd] in Ht. destruct (Cabs_gt J' eps); [|destruct Ht]. destruct Ht as [<-|[]]. cbn [fst] in Et.
    assert (L1 := proj2 (G2 o inner (or_introl eq_refl)) i J Hi). assert (L2 := proj2 (G2 o' inner' (or_intror Ho)) i' J' Hi').
    destruct (combine_inj o' o i' i L2 L1 Et) as [-> _]. apply N1. apply in_map_iff. exists (o, inner'). split; [reflexivity|exact Ho].
Qed.

(* entries of concrete strings *)
Lemma spin_entry p n l r s : Forall (fun oi => spin_known (fst oi) /\ snd oi < n) l -> (r < 2 ^ N.of_nat n)%N -> (s < 2 ^ N.of_nat n)%N ->
  op_matrix (spin_op p n l) r s = string_matrix (N.to_nat (2 ^ N.of_nat n)) (fun o => site_matrix 2 n (pauli_site p o)) l r s.
Proof. intros H Hr Hs. apply (go_matrix _ _ _ _ _ (spin_good p n) l H); rewrite N2Nat.id; assumption. Qed.

Ltac entries_in H := unfold string_matrix, mmul in H; repeat match type of H with context [all_states ?m] => let l := eval vm_compute in (all_states m) in change (all_states m) with l in H end;
  cbn in H.
Ltac entries := unfold string_matrix, mmul; repeat match goal with |- context [all_states ?m] => let l := eval vm_compute in (all_states m) in change (all_states m) with l end;
  cbn.

Lemma Cabs_gt_zero J eps : (0 <= eps)%R -> J = C0 -> Cabs_gt J eps = false.
Proof. intros H ->. apply Cabs_gt_false. unfold small. cbn. replace (0 * 0 + 0 * 0)%R with 0%R by ring. rewrite sqrt_0. exact H. Qed.
Lemma Cabs_gt_pos J : J <> C0 -> Cabs_gt J 0 = true.
Proof. intros H. destruct (Cabs_gt J 0) eqn:E; [reflexivity|]. exfalso. apply H. apply small0. apply Cabs_gt_false. exact E. Qed.

Lemma local_merge_wrong : exists (l : list (opl * C * nat)) (v : nat -> C),
  Forall (fun d => Forall (fun oi => In (fst oi) ["z"%char] /\ snd oi < 1) (fst (fst d))) l /\
  ~ meq 2 (terms_matrix (spin_op 0 1) (map (fun d => (fst (fst d), (snd (fst d) * v (snd d))%C)) (consolidate_dynamic_local 0 l)))
          (terms_matrix (spin_op 0 1) (map (fun d => (fst (fst d), (snd (fst d) * v (snd d))%C)) l)).
Proof.
  exists [([("z", 0)]%char, C1, 0); ([("z", 0)]%char, RtoC (-1), 1)], (fun f => match f with 0 => C1 | _ => C0 end). split.
  - repeat constructor; cbn; auto.
  - intros H. specialize (H 1%N 1%N ltac:(lia) ltac:(lia)). unfold consolidate_dynamic_local in H.
    cbn [fold_left add_dterm map fst snd dict_upd opstr_eqb indx_eqb list_eqb Ascii.eqb Bool.eqb Nat.eqb andb flat_map] in H.
    rewrite (Cabs_gt_zero (C1 + RtoC (-1))%C) in H; [|lra|apply C_eq; cbn; ring]. cbn [app map] in H. rewrite TM_nil in H. rewrite !TM_cons in H. unfold mzero, madd, term_matrix, mscale in H. cbn [fst snd] in H.
    rewrite !spin_entry in H by (cbn; try lia; repeat constructor; cbn; auto). apply (f_equal fst) in H. entries_in H. lra.
Qed.
Lemma merge_example : map fst (consolidate 0 [([("z", 0); ("z", 1)]%char, C1); ([("x", 0)]%char, C1); ([("z", 0); ("z", 1)]%char, C1); ([("x", 0)]%char, RtoC (-1))])
  = [[("z", 0); ("z", 1)]%char].
Proof.
  unfold consolidate, dict_terms. cbn [fold_left add_term map fst snd dict_upd opstr_eqb indx_eqb list_eqb Ascii.eqb Bool.eqb Nat.eqb andb flat_map].
  rewrite (Cabs_gt_zero (C1 + RtoC (-1))%C); [|lra|apply C_eq; cbn; ring]. rewrite (Cabs_gt_pos (C1 + C1)%C); [reflexivity|]. intros E. apply (f_equal fst) in E. cbn in E. lra.
Qed.
