(* Merging of dynamic lists, particle number and symmetry of lists of terms. *)
From Verif Require Import AuxN SpecC SpecBits SpecDigits SpecMaps SpecOps M_maps M_ops M_opstr P_maps P_period P_ops P_fermion P_mat P_opstr P_opinst P_hc P_lists.
From Coq Require Import Setoid Morphisms Permutation Sorted.
Local Open Scope nat_scope.

(* a dynamic list at a moment when the function f has the value v f *)
Section Dyn.
Context {F : Type}.
Variables (M : nat) (op : opl -> N -> C -> option (N * C)) (v : F -> C) (feqb : F -> F -> bool).
Hypothesis Hf : forall a b, feqb a b = true -> a = b.
Definition at_values (l : list (dterm F)) : list term := map (fun d => (fst (fst d), (snd (fst d) * v (snd d))%C)) l.
Definition groups_at (g : list (F * list term)) : list term := flat_map (fun p => map (fun t : term => (fst t, (snd t * v (fst p))%C)) (snd p)) g.
Definition wf (k : list ascii * F) (inner : list (list nat * C)) : cmat := mscale (v (snd k)) (dsum (winner op (fst k)) inner).
Definition wg (f : F) (l : list term) : cmat := mscale (v f) (terms_matrix op l).
Lemma TM_scaled c l : meq M (terms_matrix op (map (fun t : term => (fst t, (snd t * c)%C)) l)) (mscale c (terms_matrix op l)).
Proof.
  induction l as [|t l IH]; cbn [map]; [rewrite TM_nil, mscale_zero; reflexivity|]. rewrite !TM_cons, IH, mscale_add. apply madd_proper; [|reflexivity].
  destruct t as [x J]. unfold term_matrix. cbn [fst snd]. intros r s Hr Hs. unfold mscale. ring.
Qed.
Lemma add_fterm_val d (x : opl) J f : meq M (dsum wf (add_fterm feqb d (x, J, f))) (madd (dsum wf d) (mscale (J * v f)%C (op_matrix (op x)))).
Proof.
  unfold add_fterm. assert (E : mscale J (op_matrix (op x)) = winner op (map fst x) (map snd x) J) by (unfold winner; rewrite combine_split; reflexivity).
  assert (E2 : meq M (mscale (J * v f)%C (op_matrix (op x))) (mscale (v f) (winner op (map fst x) (map snd x) J))).
  { rewrite <- E. intros r s Hr Hs. unfold mscale. ring. }
  rewrite E2. apply (dsum_upd _ M wf).
  - intros [a fa] [b fb] H. cbn [fst snd] in H. apply andb_prop in H. destruct H as [H1 H2]. apply opstr_eqb_eq in H1. apply Hf in H2. congruence.
  - intros inner. unfold wf. cbn [fst snd]. rewrite <- mscale_add. apply mscale_proper; [reflexivity|].
    apply (dsum_upd indx_eqb M (winner op (map fst x))); [intros a b H; apply indx_eqb_eq; exact H| |reflexivity]. intros J0. unfold winner. apply mscale_plus.
  - unfold wf. cbn [fst snd]. apply mscale_proper; [reflexivity|].
    transitivity (madd (dsum (winner op (map fst x)) []) (winner op (map fst x) (map snd x) J)); [|cbn [dsum fold_right]; apply madd_0_l].
    apply (dsum_upd indx_eqb M (winner op (map fst x))); [intros a b H; apply indx_eqb_eq; exact H| |reflexivity]. intros J0. unfold winner. apply mscale_plus.
Qed.
Lemma fold_fterm_val l : forall d, meq M (dsum wf (fold_left (add_fterm feqb) l d)) (madd (dsum wf d) (terms_matrix op (at_values l))).
Proof.
  induction l as [|[[x J] f] l IH]; intros d; cbn [fold_left]; [cbn [at_values map]; rewrite TM_nil, madd_0_r; reflexivity|].
  rewrite IH, add_fterm_val. cbn [at_values map fst snd]. rewrite TM_cons, madd_assoc. reflexivity.
Qed.
Definition fkept eps (of : list ascii * F * list (list nat * C)) : list term :=
  flat_map (fun ij => if Cabs_gt (snd ij) eps then [(combine (fst (fst of)) (fst ij), snd ij)] else []) (snd of).
Definition fdrop eps (of : list ascii * F * list (list nat * C)) : list (dterm F) :=
  flat_map (fun ij => if Cabs_gt (snd ij) eps then [] else [(combine (fst (fst of)) (fst ij), snd ij, snd (fst of))]) (snd of).
Lemma regroup_val eps d : forall acc,
  meq M (madd (dsum wf d) (dsum wg acc)) (madd (dsum wg (fold_left (fun acc of => dict_upd feqb (snd (fst of)) (fun o => match o with None => fkept eps of | Some l => l ++ fkept eps of end) acc) d acc))
                   (terms_matrix op (at_values (flat_map (fdrop eps) d)))).
Proof.
  induction d as [|of d IH]; intros acc; cbn [fold_left flat_map].
  - cbn [dsum fold_right at_values map]. rewrite TM_nil, madd_0_l, madd_0_r. reflexivity.
  - cbn [dsum fold_right]. fold (dsum wf d). replace (at_values (fdrop eps of ++ flat_map (fdrop eps) d)) with (at_values (fdrop eps of) ++ at_values (flat_map (fdrop eps) d)) by (unfold at_values; symmetry; apply map_app).
    set (acc' := dict_upd _ _ _ _). specialize (IH acc').
    assert (HA : meq M (dsum wg acc') (madd (dsum wg acc) (mscale (v (snd (fst of))) (terms_matrix op (fkept eps of))))).
    { apply (dsum_upd feqb M wg); [exact Hf| |].
      - intros l. unfold wg. rewrite (TM_app M op), mscale_add. reflexivity.
      - unfold wg. reflexivity. }
    assert (HS : meq M (wf (fst of) (snd of)) (madd (mscale (v (snd (fst of))) (terms_matrix op (fkept eps of))) (terms_matrix op (at_values (fdrop eps of))))).
    { unfold wf, fkept. rewrite (split_inner M op (fst (fst of)) eps (snd of)), mscale_add. apply madd_proper; [reflexivity|].
      rewrite <- TM_scaled. unfold at_values, fdrop. clear. induction (snd of) as [|[i J] inner IH]; [reflexivity|]. cbn [flat_map fst snd].
      destruct (Cabs_gt J eps); cbn [app]; [exact IH|]. cbn [map fst snd]. rewrite !TM_cons, IH. reflexivity. }
    rewrite (TM_app M op). intros r s Hr Hs. specialize (IH r s Hr Hs). specialize (HA r s Hr Hs). specialize (HS r s Hr Hs).
    unfold madd in *. rewrite HA in IH. fold (dsum wf d). rewrite HS.
    match type of IH with _ = ?b => transitivity (b + terms_matrix op (at_values (fdrop eps of)) r s)%C; [rewrite <- IH; ring|ring] end.
Qed.
Lemma groups_val g : meq M (terms_matrix op (groups_at g)) (dsum wg g).
Proof.
  induction g as [|[f l] g IH]; [reflexivity|]. cbn [groups_at flat_map dsum fold_right fst snd]. fold (groups_at g). fold (dsum wg g).
  rewrite (TM_app M op), IH, TM_scaled. reflexivity.
Qed.
Lemma consolidate_dynamic_ok eps l : exists D : list (dterm F), Forall (fun d => small eps (snd (fst d))) D /\
  meq M (terms_matrix op (at_values l)) (madd (terms_matrix op (groups_at (consolidate_dynamic feqb eps l))) (terms_matrix op (at_values D))).
Proof.
  exists (flat_map (fdrop eps) (fold_left (add_fterm feqb) l [])). split.
  - apply Forall_forall. intros d Hd. apply in_flat_map in Hd. destruct Hd as (of & _ & Hd). unfold fdrop in Hd. apply in_flat_map in Hd. destruct Hd as (ij & _ & Hd).
    destruct (Cabs_gt (snd ij) eps) eqn:E; [destruct Hd|]. destruct Hd as [<-|[]]. cbn [fst snd]. apply Cabs_gt_false. exact E.
  - rewrite groups_val. assert (H := regroup_val eps (fold_left (add_fterm feqb) l []) []). assert (H2 := fold_fterm_val l []).
    cbn [dsum fold_right] in H, H2. rewrite madd_0_r in H. rewrite madd_0_l in H2. rewrite <- H2. exact H.
Qed.
End Dyn.

Lemma consolidate_dynamic_keys {F} (feqb : F -> F -> bool) eps (l : list (dterm F)) : (forall a b, feqb a b = true <-> a = b) ->
  NoDup (map fst (consolidate_dynamic feqb eps l)).
Proof.
  intros Hf. unfold consolidate_dynamic, regroup. set (d := fold_left (add_fterm feqb) l []). clearbody d.
  assert (G : forall acc, NoDup (map fst acc) -> NoDup (map fst (fold_left (fun acc of =>
    let new := flat_map (fun ij => if Cabs_gt (snd ij) eps then [(combine (fst (fst of)) (fst ij), snd ij)] else []) (snd of) in
    dict_upd feqb (snd (fst of)) (fun o => match o with None => new | Some l => l ++ new end) acc) d acc))).
  { induction d as [|of d IH]; intros acc HN; [exact HN|]. cbn [fold_left]. cbv zeta. apply IH. apply (proj1 (dict_upd_keys feqb _ _ acc Hf HN)). }
  apply G. constructor.
Qed.

Lemma C_dec (a b : C) : {a = b} + {a <> b}.
Proof.
  destruct a as [x y], b as [z w]. destruct (Req_EM_T x z) as [->|N1]; [|right; congruence]. destruct (Req_EM_T y w) as [->|N2]; [left; reflexivity|right; congruence].
Qed.
(* how a letter changes the occupations *)
Definition charge (o : ascii) : Z := if (o =? "+")%char then 1%Z else if (o =? "-")%char then (-1)%Z else 0%Z.
Definition moves (B : N) (n : nat) (A : cmat) (i : nat) (q : Z) : Prop := forall r s, (r < B ^ N.of_nat n)%N -> (s < B ^ N.of_nat n)%N -> A r s <> C0 ->
  forall j, j < n -> (Z.of_N (site_val B n r j) = Z.of_N (site_val B n s j) + if (j =? i)%nat then q else 0)%Z.

Section Charge.
Variables (B : N) (n : nat).
Hypothesis HB : (2 <= B)%N.
Notation M := (N.to_nat (B ^ N.of_nat n)).
Lemma digit_sum_shift r s (q : nat -> Z) : (forall j, j < n -> (Z.of_N (site_val B n r j) = Z.of_N (site_val B n s j) + q j)%Z) ->
  (Z.of_N (digit_sum B r n) = Z.of_N (digit_sum B s n) + fold_right Z.add 0 (map q (seq 0 n)))%Z.
Proof.
  intros H. assert (G : forall m, m <= n -> (Z.of_N (digit_sum B r m) = Z.of_N (digit_sum B s m) + fold_right Z.add 0 (map q (seq (n - m) m)))%Z).
  { induction m as [|m IH]; intros Hm; [cbn; lia|]. cbn [digit_sum]. specialize (IH ltac:(lia)). specialize (H (n - S m) ltac:(lia)).
    unfold site_val in H. replace (n - 1 - (n - S m)) with m in H by lia. replace (seq (n - S m) (S m)) with ((n - S m) :: seq (n - m) m) by (cbn [seq]; f_equal; f_equal; lia).
    cbn [map fold_right]. lia. }
  specialize (G n (le_n n)). rewrite Nat.sub_diag in G. exact G.
Qed.
Lemma single_sum i q : i < n -> fold_right Z.add 0%Z (map (fun j => if j =? i then q else 0%Z) (seq 0 n)) = q.
Proof.
  intros Hi. assert (G : forall k a, fold_right Z.add 0%Z (map (fun j => if j =? i then q else 0%Z) (seq a k)) = if ((a <=? i) && (i <? a + k))%bool then q else 0%Z).
  { induction k as [|k IH]; intros a; cbn [seq map fold_right].
    - destruct (Nat.leb_spec a i), (Nat.ltb_spec i (a + 0)); cbn; lia.
    - rewrite IH. destruct (Nat.eqb_spec a i), (Nat.leb_spec a i), (Nat.leb_spec (S a) i), (Nat.ltb_spec i (S a + k)), (Nat.ltb_spec i (a + S k)); cbn; lia. }
  rewrite G. destruct (Nat.leb_spec 0 i), (Nat.ltb_spec i (0 + n)); cbn; lia.
Qed.
Variables (mat : ascii -> nat -> cmat) (ok : ascii * nat -> Prop).
Hypothesis Hok : forall x, ok x -> snd x < n.
Hypothesis Hmv : forall x, ok x -> fst x <> "x"%char -> fst x <> "y"%char -> moves B n (mat (fst x) (snd x)) (snd x) (charge (fst x)).
Definition okd (x : ascii * nat) : Prop := ok x /\ fst x <> "x"%char /\ fst x <> "y"%char.
Definition qat (l : opl) (j : nat) : Z := fold_right Z.add 0%Z (map (fun x => if j =? snd x then charge (fst x) else 0%Z) l).
Lemma Csum_nonzero {X} (l : list X) f : Csum l f <> C0 -> exists x, In x l /\ f x <> C0.
Proof.
  induction l as [|x l IH]; intros H; [exfalso; apply H; reflexivity|]. rewrite Csum_cons in H. destruct (C_dec (f x) C0) as [E|E].
  - destruct IH as (y & Hy & Ny); [intros E'; apply H; rewrite E, E'; ring|]. exists y. split; [right; exact Hy|exact Ny].
  - exists x. split; [left; reflexivity|exact E].
Qed.
Lemma string_moves l : Forall okd l -> forall r s, (r < B ^ N.of_nat n)%N -> (s < B ^ N.of_nat n)%N -> string_matrix M mat l r s <> C0 ->
  forall j, j < n -> (Z.of_N (site_val B n r j) = Z.of_N (site_val B n s j) + qat l j)%Z.
Proof.
  induction 1 as [|[o i] l [H1 [H2 H3]] HF IH]; intros r s Hr Hs HN j Hj.
  - unfold string_matrix in HN. cbn [fold_right] in HN. unfold mident in HN. destruct (N.eqb_spec r s) as [->|]; [|contradiction]. cbn. lia.
  - rewrite SM_cons in HN. unfold mmul in HN. apply Csum_nonzero in HN. destruct HN as (k & Hk & HN). apply In_all_states in Hk. rewrite N2Nat.id in Hk.
    assert (N1 : mat o i r k <> C0) by (intros E; apply HN; rewrite E; ring). assert (N2 : string_matrix M mat l k s <> C0) by (intros E; apply HN; rewrite E; ring).
    specialize (IH k s Hk Hs N2 j Hj). assert (X := Hmv (o, i) H1 H2 H3 r k Hr Hk N1 j Hj). cbn [fst snd] in X. unfold qat in *. cbn [map fold_right fst snd]. lia.
Qed.
(* strings with as many + as - keep the number of particles *)
Lemma qat_total l : Forall (fun x => snd x < n) l -> fold_right Z.add 0%Z (map (qat l) (seq 0 n)) = (Z.of_nat (count_letter "+"%char l) - Z.of_nat (count_letter "-"%char l))%Z.
Proof.
  assert (A : forall (f g : nat -> Z) k, fold_right Z.add 0%Z (map (fun j => f j + g j)%Z k) = (fold_right Z.add 0%Z (map f k) + fold_right Z.add 0%Z (map g k))%Z).
  { intros f g k. induction k as [|a k IH]; [reflexivity|]. cbn [map fold_right]. lia. }
  assert (Z0 : forall k : list nat, fold_right Z.add 0%Z (map (fun _ => 0%Z) k) = 0%Z) by (induction k as [|a k IH]; cbn; [reflexivity|exact IH]).
  induction 1 as [|[o i] l Hi HF IH].
  - unfold qat. cbn [map fold_right]. rewrite Z0. reflexivity.
  - unfold qat in *. cbn [map fold_right fst snd] in *. rewrite A, IH, single_sum by exact Hi. unfold count_letter. cbn [filter fst]. unfold charge.
    destruct (Ascii.eqb_spec o "+"%char) as [->|]; [change (("+" =? "-")%char) with false; cbn [length]; lia|]. destruct (Ascii.eqb_spec o "-"%char) as [->|]; cbn [length]; lia.
Qed.
Lemma string_conserves l : Forall okd l -> count_letter "+"%char l = count_letter "-"%char l ->
  forall r s, (r < B ^ N.of_nat n)%N -> (s < B ^ N.of_nat n)%N -> string_matrix M mat l r s <> C0 -> digit_sum B r n = digit_sum B s n.
Proof.
  intros HF HC r s Hr Hs HN. assert (X := digit_sum_shift r s _ (string_moves l HF r s Hr Hs HN)).
  rewrite qat_total in X; [lia|]. eapply Forall_impl; [|exact HF]. intros x [Hx _]. apply Hok. exact Hx.
Qed.
(* too many + on a site *)
Lemma string_vanishes l i (c : ascii) : (c = "+" \/ c = "-")%char -> Forall okd l -> i < n ->
  (forall x, In x l -> snd x = i -> fst x = c) -> (B <= N.of_nat (length (filter (fun x => (fst x =? c)%char && (snd x =? i)%nat)%bool l)))%N ->
  meq M (string_matrix M mat l) mzero.
Proof.
  intros Hc HF Hi HA HB' r s Hr Hs. rewrite N2Nat.id in Hr, Hs. unfold mzero. destruct (C_dec (string_matrix M mat l r s) C0) as [E|E]; [exact E|exfalso].
  assert (X := string_moves l HF r s Hr Hs E i Hi). assert (L1 := site_val_lt B HB n r i). assert (L2 := site_val_lt B HB n s i).
  assert (Q : qat l i = (charge c * Z.of_nat (length (filter (fun x => (fst x =? c)%char && (snd x =? i)%nat)%bool l)))%Z).
  { clear - HA. unfold qat. induction l as [|[o j] l IH]; cbn [map fold_right filter fst snd length]; [ring|]. rewrite IH by (intros x Hx; apply HA; right; exact Hx).
    assert (A := HA (o, j) (or_introl eq_refl)). cbn [fst snd] in A. rewrite (Nat.eqb_sym i j). destruct (Nat.eqb_spec j i) as [->|Nj].
    - rewrite (A eq_refl), Ascii.eqb_refl. cbn [andb length]. lia.
    - rewrite andb_false_r. lia. }
  rewrite Q in X. destruct Hc as [-> | ->]; cbn [charge Ascii.eqb] in X; [change (charge "+") with 1%Z in X|change (charge "-") with (-1)%Z in X]; lia.
Qed.
End Charge.
