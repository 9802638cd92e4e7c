(* The symmetry check of lists of terms. *)
From Verif Require Import AuxN SpecC SpecBits SpecDigits SpecMaps SpecOps SpecInv M_maps M_ops M_opstr P_maps P_period P_ops P_fermion P_mat P_opstr P_opinst P_hc P_lists P_lists2.
From Coq Require Import Setoid Morphisms Permutation Sorted.
Local Open Scope nat_scope.

(* closed form of the loop *)
Definition sw (k : nat) (o : ascii) : ascii := if Nat.odd k then swap_pm o else o.
Lemma sw_S k o : swap_pm (sw k o) = sw (S k) o.
Proof. unfold sw. rewrite Nat.odd_succ, <- Nat.negb_odd. destruct (Nat.odd k); cbn [negb]; [apply swap_pm_invol|reflexivity]. Qed.
Lemma sw_char c k o : swap_pm c = c -> c <> "+"%char -> c <> "-"%char -> (sw k o =? c)%char = (o =? c)%char.
Proof.
  intros Hc N1 N2. unfold sw. destruct (Nat.odd k); [|reflexivity]. unfold swap_pm. destruct (Ascii.eqb_spec o "+"%char) as [->|]; [|destruct (Ascii.eqb_spec o "-"%char) as [->|]; [|reflexivity]].
  - rewrite (proj2 (Ascii.eqb_neq "-" c)), (proj2 (Ascii.eqb_neq "+" c)) by congruence. reflexivity.
  - rewrite (proj2 (Ascii.eqb_neq "-" c)), (proj2 (Ascii.eqb_neq "+" c)) by congruence. reflexivity.
Qed.
Definition zy (o : ascii) : bool := ((o =? "z")%char || (o =? "y")%char)%bool.
Section Loop.
Variable mp : nat -> Z.
Definition fl (x : ascii * nat) : bool := flips (mp (snd x)).
Definition nfl (l : opl) : nat := length (filter fl l).
Definition csign (l : opl) : C := fold_right (fun x acc => if (fl x && zy (fst x))%bool then (RtoC (-1) * acc)%C else acc) C1 l.
Definition oddn (l : opl) : bool := existsb (fun x => (fl x && (fst x =? "n")%char)%bool) l.
Lemma symm_loop_eq l2 : forall l1 k J odd acc,
  symm_loop mp (map snd l2) (length l1) (map (sw k) (map fst (l1 ++ l2))) J odd acc =
  (map (sw (k + nfl l2)) (map fst (l1 ++ l2)), rev acc ++ map (fun i => target (mp i)) (map snd l2), (J * csign l2)%C, (odd || oddn l2)%bool).
Proof.
  induction l2 as [|[o i] l2 IH]; intros l1 k J odd acc.
  - cbn [map symm_loop]. unfold nfl, csign, oddn. cbn [filter length fold_right existsb]. rewrite Nat.add_0_r, !app_nil_r, orb_false_r. f_equal. f_equal. ring.
  - cbn [map symm_loop snd]. assert (E : nth (length l1) (map (sw k) (map fst (l1 ++ (o, i) :: l2))) "000"%char = sw k o).
    { rewrite map_map, map_app. rewrite app_nth2 by (rewrite map_length; lia). rewrite map_length, Nat.sub_diag. reflexivity. }
    rewrite E. rewrite (sw_char "n" k o), (sw_char "z" k o), (sw_char "y" k o) by (reflexivity || discriminate).
    assert (A : l1 ++ (o, i) :: l2 = (l1 ++ [(o, i)]) ++ l2) by (rewrite <- app_assoc; reflexivity).
    assert (L : S (length l1) = length (l1 ++ [(o, i)])) by (rewrite app_length; cbn; lia). rewrite A, L.
    unfold csign, oddn, nfl. cbn [fold_right existsb filter]. fold (csign l2) (oddn l2). change (fl (o, i)) with (flips (mp i)). cbn [fst snd].
    change ((mp i <? 0)%Z) with (flips (mp i)).
    destruct (flips (mp i)) eqn:F.
    + rewrite map_map. rewrite (map_ext _ _ (sw_S k)). rewrite IH. cbn [rev length andb]. fold (nfl l2).
      assert (T : Z.to_nat (- (mp i + 1)) = target (mp i)) by (unfold target, flips in *; rewrite F; f_equal; lia). rewrite T.
      replace (k + S (nfl l2)) with (S k + nfl l2) by lia. rewrite <- (app_assoc (rev acc)). cbn [app]. rewrite orb_assoc. f_equal. f_equal. unfold zy. destruct ((o =? "z")%char || (o =? "y")%char)%bool; ring.
    + rewrite IH. cbn [rev andb]. assert (T : Z.to_nat (mp i) = target (mp i)) by (unfold target, flips in *; rewrite F; reflexivity). rewrite T, <- (app_assoc (rev acc)). reflexivity.
Qed.
Definition h (x : ascii * nat) : ascii * nat := (if fl x then swap_pm (fst x) else fst x, target (mp (snd x))).
(* the condition under which the whole-string exchange is the letter-wise one *)
Definition fine (l : opl) : Prop := forall x, In x l -> is_pm (fst x) = true -> fl x = Nat.odd (nfl l).
Lemma symm_term_eq l J : symm_term mp (l, J) = ((map (fun x => (sw (nfl l) (fst x), target (mp (snd x)))) l, (J * csign l)%C), oddn l).
Proof.
  unfold symm_term. cbn [fst snd]. assert (H := symm_loop_eq l [] 0 J false []). cbn [length app rev] in H. unfold sw in H at 1. cbn [Nat.odd] in H. change (Nat.odd 0) with false in H. cbn iota in H.
  rewrite map_id in H. rewrite H. cbn [orb Nat.add]. f_equal. f_equal. generalize (nfl l). clear. intros k. f_equal. induction l as [|x l IH]; [reflexivity|]. cbn [map combine]. rewrite IH. reflexivity.
Qed.
Lemma fine_h l : fine l -> map (fun x => (sw (nfl l) (fst x), target (mp (snd x)))) l = map h l.
Proof.
  intros H. apply map_ext_in. intros x Hx. unfold h, sw. f_equal. specialize (H x Hx). destruct (is_pm (fst x)) eqn:E; [rewrite H by reflexivity; reflexivity|].
  assert (S : swap_pm (fst x) = fst x) by (unfold is_pm in E; unfold swap_pm; destruct ((fst x =? "+")%char), ((fst x =? "-")%char); try discriminate; reflexivity).
  rewrite S. destruct (Nat.odd _), (fl x); reflexivity.
Qed.
Lemma csign_pm l : csign l = C1 \/ csign l = RtoC (-1).
Proof. induction l as [|x l IH]; [left; reflexivity|]. unfold csign in *. cbn [fold_right]. match goal with |- context [if ?b then _ else _] => destruct b end; [|exact IH]. destruct IH as [-> | ->]; [right|left]; apply C_eq; cbn; ring. Qed.
Lemma swap_inj a b : swap_pm a = swap_pm b -> a = b.
Proof. intros H. rewrite <- (swap_pm_invol a), <- (swap_pm_invol b), H. reflexivity. Qed.
End Loop.

Section Carried.
Variables (B : N) (n : nat) (m : list Z).
Hypothesis HB : (2 <= B)%N.
Hypothesis Hm : signed_perm n m.
Notation M := (N.to_nat (B ^ N.of_nat n)).
Notation U := (boson_map_bits B n m).
Lemma U_moved s : moved B n m s (U s). Proof. apply boson_map_bits_moved; assumption. Qed.
Lemma U_perm : Permutation (map U (all_states M)) (all_states M).
Proof.
  apply NoDup_Permutation_bis; [|rewrite map_length; lia|].
  - assert (ND := NoDup_all_states M). assert (IN : forall s, In s (all_states M) -> (s < B ^ N.of_nat n)%N) by (intros s Hs; apply In_all_states in Hs; rewrite N2Nat.id in Hs; exact Hs).
    induction (all_states M) as [|x l IH]; [constructor|]. inversion ND as [|? ? N1 N2]; subst. cbn [map]. constructor.
    + intros H. apply in_map_iff in H. destruct H as (y & E & Hy). assert (X : y = x).
      { apply (moved_injective B n m y x (U x) HB Hm); [apply IN; right; exact Hy|apply IN; left; reflexivity|rewrite <- E; apply U_moved|apply U_moved]. }
      subst y. contradiction.
    + apply IH; [exact N2|]. intros s Hs. apply IN. right. exact Hs.
  - intros t Ht. apply in_map_iff in Ht. destruct Ht as (s & <- & _). apply In_all_states. rewrite N2Nat.id. apply (U_moved s).
Qed.
Lemma carried_U A' A : carried B n m A' A <-> (forall r s, (r < B ^ N.of_nat n)%N -> (s < B ^ N.of_nat n)%N -> A' (U r) (U s) = A r s).
Proof.
  split; intros H.
  - intros r s Hr Hs. apply H; [assumption|assumption|apply U_moved|apply U_moved].
  - intros r s r' s' Hr Hs Mr Ms. rewrite (moved_unique B n m r r' (U r) HB Hm Mr (U_moved r)), (moved_unique B n m s s' (U s) HB Hm Ms (U_moved s)). apply H; assumption.
Qed.
Lemma carried_meq A' A D' D : meq M A' D' -> meq M A D -> carried B n m A' A -> carried B n m D' D.
Proof.
  intros E1 E2 H. apply carried_U. intros r s Hr Hs. rewrite <- E1 by (rewrite N2Nat.id; apply U_moved). rewrite <- E2 by (rewrite N2Nat.id; assumption).
  apply (proj1 (carried_U A' A) H); assumption.
Qed.
Lemma carried_mul A' A D' D : carried B n m A' A -> carried B n m D' D -> carried B n m (mmul M A' D') (mmul M A D).
Proof.
  intros H1 H2. apply carried_U. intros r s Hr Hs. unfold mmul. rewrite <- (Csum_perm _ _ _ U_perm), Csum_map. apply Csum_ext. intros k Hk.
  apply In_all_states in Hk. rewrite N2Nat.id in Hk. rewrite (proj1 (carried_U _ _) H1), (proj1 (carried_U _ _) H2) by assumption. reflexivity.
Qed.
Lemma carried_ident : carried B n m mident mident.
Proof.
  apply carried_U. intros r s Hr Hs. unfold mident. destruct (N.eqb_spec r s) as [->|Ne]; [rewrite N.eqb_refl; reflexivity|].
  destruct (N.eqb_spec (U r) (U s)) as [E|]; [|reflexivity]. exfalso. apply Ne. apply (moved_injective B n m r s (U r) HB Hm Hr Hs); [apply U_moved|rewrite E; apply U_moved].
Qed.
Lemma carried_scale c A' A : carried B n m A' A -> carried B n m (mscale c A') (mscale c A).
Proof. intros H r s r' s' Hr Hs Mr Ms. unfold mscale. rewrite (H r s r' s' Hr Hs Mr Ms). reflexivity. Qed.
Lemma carried_add A' A D' D : carried B n m A' A -> carried B n m D' D -> carried B n m (madd A' D') (madd A D).
Proof. intros H1 H2 r s r' s' Hr Hs Mr Ms. unfold madd. rewrite (H1 r s r' s' Hr Hs Mr Ms), (H2 r s r' s' Hr Hs Mr Ms). reflexivity. Qed.
Lemma carried_zero : carried B n m mzero mzero.
Proof. intros r s r' s' _ _ _ _. reflexivity. Qed.
Lemma carried_site (loc loc' : N -> N -> C) i : i < n ->
  (forall a b, (a < B)%N -> (b < B)%N -> loc' (if flips (nth i m 0%Z) then B - 1 - a else a)%N (if flips (nth i m 0%Z) then B - 1 - b else b)%N = loc a b) ->
  carried B n m (site_matrix B n loc' (target (nth i m 0%Z))) (site_matrix B n loc i).
Proof.
  intros Hi HL r s r' s' Hr Hs [Lr Mr] [Ls Ms]. unfold site_matrix.
  assert (E : same_except B n (target (nth i m 0%Z)) r' s' = same_except B n i r s).
  { apply eq_true_iff_eq. rewrite (same_except_spec B HB), (same_except_spec B HB). split; intros H j Hj Nj.
    - specialize (H (target (nth j m 0%Z)) (signed_perm_lt n m j Hm Hj)).
      rewrite (Mr j Hj), (Ms j Hj) in H. assert (X : target (nth j m 0%Z) <> target (nth i m 0%Z)) by (intros E; apply Nj; exact (nth_perm_inj n m j i Hm Hj Hi E)). specialize (H X).
      destruct (flips (nth j m 0%Z)); [|exact H]. assert (L1 := site_val_lt B HB n r j). assert (L2 := site_val_lt B HB n s j). lia.
    - assert (X : exists q, q < n /\ j = target (nth q m 0%Z)).
      { assert (I : In j (map target m)) by (eapply Permutation_in; [apply Permutation_sym; exact Hm|apply in_seq; lia]). apply in_map_iff in I. destruct I as (z & <- & Hz).
        apply (In_nth _ _ 0%Z) in Hz. destruct Hz as (q & Hq & <-). rewrite (signed_perm_length n m Hm) in Hq. exists q. split; [exact Hq|reflexivity]. }
      destruct X as (q & Hq & ->). rewrite (Mr q Hq), (Ms q Hq). rewrite (H q Hq) by congruence. reflexivity. }
  rewrite E. destruct (same_except B n i r s); [|reflexivity]. rewrite (Mr i Hi), (Ms i Hi).
  assert (X := HL (site_val B n r i) (site_val B n s i) (site_val_lt B HB n r i) (site_val_lt B HB n s i)).
  destruct (flips (nth i m 0%Z)); exact X.
Qed.

Variables (op : opl -> N -> C -> option (N * C)) (mat : ascii -> nat -> cmat) (ok : ascii * nat -> Prop).
Notation mp := (fun i => nth i m 0%Z).
Hypothesis G : good_ops M op mat nograde ok.
Hypothesis Hok : forall x, ok x -> snd x < n.
Hypothesis Hokh : forall x, ok x -> ok (h mp x).
Definition xsign (x : ascii * nat) : C := if (fl mp x && zy (fst x))%bool then RtoC (-1) else C1.
Definition allowed (x : ascii * nat) : Prop := ok x /\ (fl mp x = true -> fst x <> "n"%char).
Hypothesis Hletter : forall x, allowed x -> carried B n m (mscale (xsign x) (mat (fst (h mp x)) (snd (h mp x)))) (mat (fst x) (snd x)).

Lemma string_carried l : Forall allowed l -> carried B n m (mscale (csign mp l) (string_matrix M mat (map (h mp) l))) (string_matrix M mat l).
Proof.
  induction 1 as [|x l Hx HF IH].
  - eapply carried_meq; [symmetry; apply mscale_1|reflexivity|apply carried_ident].
  - cbn [map]. destruct (h mp x) as [o' i'] eqn:E. destruct x as [o i]. rewrite !SM_cons. assert (X := Hletter (o, i) Hx). rewrite E in X. cbn [fst snd] in X.
    eapply carried_meq; [|reflexivity|exact (carried_mul _ _ _ _ X IH)]. rewrite mscale_mul_l, mscale_mul_r, mscale_scale. apply mscale_proper; [|reflexivity].
    unfold xsign, csign. cbn [fold_right]. fold (csign mp l). match goal with |- context [if ?b then _ else _] => destruct b end; ring.
Qed.
Lemma allowed_ok l : Forall allowed l -> Forall ok l. Proof. apply Forall_impl. intros x [H _]. exact H. Qed.
Definition step (t : term) : term := sort_opstr (fst (symm_term mp t)).
Lemma term_carried t : Forall ok (fst t) -> fine mp (fst t) -> snd (symm_term mp t) = false -> carried B n m (term_matrix op (step t)) (term_matrix op t).
Proof.
  destruct t as [l J]. cbn [fst]. intros HF Hfine Hodd. unfold step. rewrite symm_term_eq in *. cbn [fst snd] in *. rewrite (fine_h mp l Hfine).
  assert (HA : Forall allowed l).
  { apply Forall_forall. intros x Hx. rewrite Forall_forall in HF. split; [apply HF; exact Hx|]. intros F E. assert (X : oddn mp l = true); [|congruence].
    apply existsb_exists. exists x. split; [exact Hx|]. rewrite F, E. reflexivity. }
  assert (Hh : Forall ok (map (h mp) l)) by (rewrite Forall_map; eapply Forall_impl; [|exact HF]; intros x Hx; apply Hokh; exact Hx).
  assert (S1 : meq M (op_matrix (op (stable_sort (map (h mp) l)))) (string_matrix M mat (map (h mp) l))).
  { rewrite <- (go_matrix _ _ _ _ _ G _ Hh). exact (plain_sort _ _ _ _ G _ Hh). }
  unfold term_matrix, sort_opstr. cbn [fst snd].
  eapply carried_meq; [|apply mscale_proper; [reflexivity|symmetry; exact (go_matrix _ _ _ _ _ G _ HF)]|exact (carried_scale J _ _ (string_carried l HA))].
  rewrite S1, mscale_scale. reflexivity.
Qed.
Lemma h_inj x y : snd x < n -> snd y < n -> h mp x = h mp y -> x = y.
Proof.
  destruct x as [o i], y as [o' j]. unfold h. cbn [fst snd]. intros Hi Hj E. injection E as E1 E2. apply (nth_perm_inj n m i j Hm Hi Hj) in E2. subst j.
  unfold fl in E1. cbn [snd] in E1. destruct (flips (nth i m 0%Z)); [apply swap_inj in E1|]; subst; reflexivity.
Qed.
Lemma at_site_h i l : i < n -> Forall (fun x => snd x < n) l -> at_site (target (nth i m 0%Z)) (map (h mp) l) = map (h mp) (at_site i l).
Proof.
  intros Hi. induction 1 as [|[o j] l Hj HF IH]; [reflexivity|]. cbn [map at_site filter]. fold (at_site i l). fold (at_site (target (nth i m 0%Z)) (map (h mp) l)). rewrite IH.
  unfold h at 1. cbn [snd]. destruct (Nat.eqb_spec j i) as [->|Nj].
  - rewrite Nat.eqb_refl. reflexivity.
  - destruct (Nat.eqb_spec (target (nth j m 0%Z)) (target (nth i m 0%Z))) as [E|]; [|reflexivity]. exfalso. apply Nj. exact (nth_perm_inj n m j i Hm Hj Hi E).
Qed.
Lemma map_h_inj l l' : Forall (fun x => snd x < n) l -> Forall (fun x => snd x < n) l' -> map (h mp) l = map (h mp) l' -> l = l'.
Proof.
  intros H. revert l'. induction H as [|x l Hx HF IH]; intros [|y l'] H' E; try discriminate; [reflexivity|]. inversion H' as [|? ? Hy HF']; subst. cbn [map] in E. injection E as E1 E2 E3.
  f_equal; [apply h_inj; [assumption|assumption|unfold h; congruence]|apply IH; assumption].
Qed.
Lemma step_inj t u : Forall ok (fst t) -> Forall ok (fst u) -> fine mp (fst t) -> fine mp (fst u) -> step (sort_opstr t) = step (sort_opstr u) ->
  fine mp (fst (sort_opstr t)) -> fine mp (fst (sort_opstr u)) -> sort_opstr t = sort_opstr u.
Proof.
  destruct t as [l J], u as [k K]. unfold sort_opstr. cbn [fst snd]. intros Hl Hk _ _ E F1 F2. set (l0 := stable_sort l) in *. set (k0 := stable_sort k) in *.
  assert (S1 : StronglySorted site_le l0) by apply stable_sort_sorted. assert (S2 : StronglySorted site_le k0) by apply stable_sort_sorted.
  assert (L1 : Forall (fun x => snd x < n) l0) by (eapply Permutation_Forall; [exact (reord_perm _ _ _ _ (stable_sort_reord l))|eapply Forall_impl; [|exact Hl]; exact Hok]).
  assert (L2 : Forall (fun x => snd x < n) k0) by (eapply Permutation_Forall; [exact (reord_perm _ _ _ _ (stable_sort_reord k))|eapply Forall_impl; [|exact Hk]; exact Hok]).
  unfold step in E. rewrite !symm_term_eq in E. cbn [fst] in E. rewrite (fine_h mp l0 F1), (fine_h mp k0 F2) in E. unfold sort_opstr in E. cbn [fst snd] in E.
  assert (E1 := f_equal fst E). assert (E2 := f_equal snd E). cbn [fst snd] in E1, E2.
  assert (EQ : l0 = k0).
  { apply sorted_unique; [exact S1|exact S2|]. intros i. destruct (Nat.lt_ge_cases i n) as [Hi|Hi].
    - assert (X : at_site (target (nth i m 0%Z)) (map (h mp) l0) = at_site (target (nth i m 0%Z)) (map (h mp) k0)).
      { rewrite (reord_at_site _ _ _ _ _ (stable_sort_reord (map (h mp) l0))), (reord_at_site _ _ _ _ _ (stable_sort_reord (map (h mp) k0))), E1. reflexivity. }
      rewrite !at_site_h in X by assumption. apply map_h_inj in X; [exact X| |]; apply Forall_forall; intros x Hx; apply filter_In in Hx.
      + rewrite Forall_forall in L1. apply L1. tauto.
      + rewrite Forall_forall in L2. apply L2. tauto.
    - rewrite !at_site_none; [reflexivity| |]; intros x Hx.
      + rewrite Forall_forall in L2. specialize (L2 x Hx). lia.
      + rewrite Forall_forall in L1. specialize (L1 x Hx). lia. }
  rewrite <- EQ in *. f_equal. destruct (csign_pm mp l0) as [S|S]; rewrite S in E2.
  - transitivity (J * C1)%C; [ring|]. rewrite E2. ring.
  - transitivity (J * RtoC (-1) * RtoC (-1))%C; [apply C_eq; cbn; ring|]. rewrite E2. apply C_eq; cbn; ring.
Qed.
Lemma fine_perm l l' : Permutation l l' -> fine mp l -> fine mp l'.
Proof.
  intros P H x Hx Hp. rewrite (H x (Permutation_in _ (Permutation_sym P) Hx) Hp). f_equal. unfold nfl. apply Permutation_length. clear - P.
  induction P; cbn [filter]; [constructor|destruct (fl _ x); [constructor|]; assumption|destruct (fl _ x), (fl _ y); try constructor; apply Permutation_refl|etransitivity; eassumption].
Qed.
Lemma symm_sound l : Forall (fun t => Forall ok (fst t)) l -> Forall (fun t => fine mp (fst t)) l -> NoDup (map sort_opstr l) ->
  check_symm_map sort_opstr mp l = true -> carried B n m (terms_matrix op l) (terms_matrix op l).
Proof.
  intros HF HFi ND HC. rewrite Forall_forall in HF, HFi. unfold check_symm_map in HC. cbv zeta in HC. set (sl := map sort_opstr l) in *. rewrite forallb_forall in HC.
  assert (HP : forall t, Permutation (fst t) (fst (sort_opstr t))) by (intros [x J]; exact (reord_perm _ _ _ _ (stable_sort_reord x))).
  assert (Hsl : forall t, In t sl -> exists u, In u l /\ t = sort_opstr u /\ Forall ok (fst t) /\ fine mp (fst t)).
  { intros t Ht. apply in_map_iff in Ht. destruct Ht as (u & <- & Hu). exists u. split; [exact Hu|]. split; [reflexivity|].
    split; [eapply Permutation_Forall; [apply HP|apply HF; exact Hu]|exact (fine_perm _ _ (HP u) (HFi u Hu))]. }
  assert (HC' : forall t, In t sl -> snd (symm_term mp t) = false /\ In (step t) sl).
  { intros t Ht. specialize (HC t Ht). unfold step. destruct (symm_term mp t) as [t' odd]. apply andb_prop in HC. destruct HC as [C1' C2]. cbn [fst snd].
    split; [destruct odd; [discriminate|reflexivity]|apply term_in_iff; exact C2]. }
  assert (P : Permutation (map step sl) sl).
  { apply NoDup_Permutation_bis; [|rewrite map_length; lia|intros t Ht; apply in_map_iff in Ht; destruct Ht as (u & <- & Hu); apply HC'; exact Hu].
    assert (INJ : forall t u, In t sl -> In u sl -> step t = step u -> t = u).
    { intros t u Ht Hu E. destruct (Hsl t Ht) as (t0 & T1 & -> & T3 & T4). destruct (Hsl u Hu) as (u0 & U1 & -> & U3 & U4).
      apply step_inj; [apply HF; exact T1|apply HF; exact U1|apply HFi; exact T1|apply HFi; exact U1|exact E|exact T4|exact U4]. }
    clear - ND INJ. induction sl as [|x k IH]; [constructor|]. inversion ND as [|? ? N1 N2]; subst. cbn [map]. constructor.
    - intros H. apply in_map_iff in H. destruct H as (y & E & Hy). apply (INJ y x (or_intror Hy) (or_introl eq_refl)) in E. subst y. contradiction.
    - apply IH; [exact N2|]. intros t u Ht Hu. apply INJ; right; assumption. }
  assert (K : carried B n m (terms_matrix op (map step sl)) (terms_matrix op sl)).
  { assert (Hall : forall t, In t sl -> carried B n m (term_matrix op (step t)) (term_matrix op t)).
    { intros t Ht. destruct (Hsl t Ht) as (u & _ & _ & T3 & T4). apply term_carried; [exact T3|exact T4|apply HC'; exact Ht]. }
    clear - Hall. induction sl as [|t k IH]; [exact carried_zero|]. cbn [map]. rewrite !TM_cons. apply carried_add; [apply Hall; left; reflexivity|]. apply IH. intros u Hu. apply Hall. right. exact Hu. }
  assert (E : meq M (terms_matrix op sl) (terms_matrix op l)).
  { apply TM_map. intros [x J] Hx. unfold term_matrix, sort_opstr. cbn [fst snd]. apply mscale_proper; [reflexivity|]. apply (plain_sort _ _ _ _ G x). exact (HF _ Hx). }
  eapply carried_meq; [|exact E|exact K]. rewrite (TM_perm M op _ _ P). exact E.
Qed.
End Carried.

(* instances *)
Lemma spin_letter p n m x : signed_perm n m -> let mp := fun i => nth i m 0%Z in
  (spin_known (fst x) /\ snd x < n) /\ (fl mp x = true -> fst x <> "n"%char) ->
  carried 2 n m (mscale (xsign m x) (site_matrix 2 n (pauli_site p (fst (h mp x))) (snd (h mp x)))) (site_matrix 2 n (pauli_site p (fst x)) (snd x)).
Proof.
  intros Hm mp [[K Hi] Hn]. destruct x as [o i]. cbn [fst snd] in *. unfold h. cbn [fst snd]. unfold mp at 2. cbv beta.
  apply (carried_meq 2 n m ltac:(lia) Hm (site_matrix 2 n (fun a b => xsign m (o, i) * pauli_site p (if fl mp (o, i) then swap_pm o else o) a b)%C (target (nth i m 0%Z))) (site_matrix 2 n (pauli_site p o) i));
    [|reflexivity|].
  - intros r s Hr Hs. unfold mscale, site_matrix. destruct (same_except _ _ _ _ _); [reflexivity|ring].
  - apply carried_site; [lia|exact Hm|exact Hi|]. intros a b Ha Hb. unfold xsign. unfold fl in *. cbn [fst snd] in *. subst mp. cbv beta in *.
    apply eqb01 in Ha. apply eqb01 in Hb. destruct (flips (nth i m 0%Z)); cbn [andb].
    + specialize (Hn eq_refl). unfold pauli_site. assert (D : doubled p (swap_pm o) = doubled p o).
      { unfold spin_known in K. cbn [In] in K. unfold doubled. destruct (p =? 1)%Z, (p =? -1)%Z; destruct K as [<-|[<-|[<-|[<-|[<-|[<-|[<-|[]]]]]]]]; reflexivity. }
      rewrite D. assert (E : ((if zy o then RtoC (-1) else C1) * spin_half_site (swap_pm o) (2 - 1 - a)%N (2 - 1 - b)%N = spin_half_site o a b)%C).
      { unfold spin_known in K. cbn [In] in K. destruct K as [<-|[<-|[<-|[<-|[<-|[<-|[<-|[]]]]]]]]; try contradiction; destruct Ha as [-> | ->], Hb as [-> | ->]; apply C_eq; cbn; lra. }
      destruct (doubled p o); [rewrite <- E; ring|exact E].
    + ring.
Qed.
Lemma site_letter B n m x (site : ascii -> N -> N -> C) : (2 <= B)%N -> signed_perm n m -> let mp := fun i => nth i m 0%Z in snd x < n ->
  (forall a b, (a < B)%N -> (b < B)%N -> fl mp x = true ->
     ((if zy (fst x) then RtoC (-1) else C1) * site (swap_pm (fst x)) (B - 1 - a)%N (B - 1 - b)%N)%C = site (fst x) a b) ->
  carried B n m (mscale (xsign m x) (site_matrix B n (site (fst (h mp x))) (snd (h mp x)))) (site_matrix B n (site (fst x)) (snd x)).
Proof.
  intros HB Hm mp Hi HL. destruct x as [o i]. cbn [fst snd] in *. unfold h. cbn [fst snd]. unfold mp at 2. cbv beta.
  apply (carried_meq B n m HB Hm (site_matrix B n (fun a b => xsign m (o, i) * site (if fl mp (o, i) then swap_pm o else o) a b)%C (target (nth i m 0%Z))) (site_matrix B n (site o) i));
    [|reflexivity|].
  - intros r s Hr Hs. unfold mscale, site_matrix. destruct (same_except _ _ _ _ _); [reflexivity|ring].
  - apply carried_site; [exact HB|exact Hm|exact Hi|]. intros a b Ha Hb. specialize (HL a b Ha Hb). unfold xsign. unfold fl in *. cbn [fst snd] in *. subst mp. cbv beta in *.
    destruct (flips (nth i m 0%Z)); cbn [andb]; [exact (HL eq_refl)|ring].
Qed.
Lemma spinS_letter B n m x : (2 <= B)%N -> signed_perm n m -> let mp := fun i => nth i m 0%Z in spinS_known (fst x) /\ snd x < n ->
  carried B n m (mscale (xsign m x) (site_matrix B n (spinS_site B (fst (h mp x))) (snd (h mp x)))) (site_matrix B n (spinS_site B (fst x)) (snd x)).
Proof.
  intros HB Hm mp [K Hi]. apply site_letter; [exact HB|exact Hm|exact Hi|]. intros a b Ha Hb _. destruct x as [o i]. cbn [fst snd] in *.
  assert (Q : (a =? b)%N = (B - 1 - a =? B - 1 - b)%N) by (destruct (N.eqb_spec a b), (N.eqb_spec (B - 1 - a) (B - 1 - b)); lia).
  assert (Q1 : (a =? b + 1)%N = (B - 1 - a + 1 =? B - 1 - b)%N) by (destruct (N.eqb_spec a (b + 1)), (N.eqb_spec (B - 1 - a + 1) (B - 1 - b)); lia).
  assert (Q2 : (a + 1 =? b)%N = (B - 1 - a =? B - 1 - b + 1)%N) by (destruct (N.eqb_spec (a + 1) b), (N.eqb_spec (B - 1 - a) (B - 1 - b + 1)); lia).
  assert (E : Nr (B - 1 - b) = (Nr B - 1 - Nr b)%R) by (rewrite !Nr_sub by lia; rewrite Nr_1; reflexivity).
  unfold spinS_known in K. cbn [In] in K. destruct K as [<-|[<-|[<-|[<-|[]]]]]; unfold spinS_site.
  - change (zy "I") with false. change (swap_pm "I") with "I"%char. cbn iota. rewrite <- Q. destruct (a =? b)%N; ring.
  - change (zy "z") with true. change (swap_pm "z") with "z"%char. cbn iota. rewrite <- Q, E. destruct (a =? b)%N; [|ring]. apply C_eq; cbn; field.
  - change (zy "+") with false. change (swap_pm "+") with "-"%char. cbn iota. rewrite <- Q1, E. destruct (a =? b + 1)%N; [|ring]. apply C_eq; cbn; [|ring]. ring_simplify. f_equal. field.
  - change (zy "-") with false. change (swap_pm "-") with "+"%char. cbn iota. rewrite <- Q2, E. destruct (a + 1 =? b)%N; [|ring]. apply C_eq; cbn; [|ring]. ring_simplify. f_equal. field.
Qed.
