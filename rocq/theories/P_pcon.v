(* The particle number check of lists of terms. *)
From Verif Require Import AuxN SpecC SpecBits SpecDigits SpecMaps SpecOps SpecInv M_maps M_ops M_opstr P_maps P_period P_ops P_fermion P_mat P_opstr P_opinst P_hc P_lists P_lists2.
From Coq Require Import Setoid Morphisms Permutation Sorted.
Local Open Scope nat_scope.

(* strings of the merged list come from the list *)
Definition from (l : list term) (d : dict2) : Prop :=
  forall o inner i J, In (o, inner) d -> In (i, J) inner -> exists u, In u l /\ map fst (fst u) = o /\ map snd (fst u) = i.
Lemma dict_upd_in {K V} (eqb : K -> K -> bool) k (f : option V -> V) d x v : (forall a b, eqb a b = true -> a = b) -> In (x, v) (dict_upd eqb k f d) ->
  In (x, v) d \/ (x = k /\ (v = f None \/ exists v0, In (k, v0) d /\ v = f (Some v0))).
Proof.
  intros He. induction d as [|[k' v'] d IH]; cbn [dict_upd]; intros H.
  - destruct H as [H|[]]. injection H as <- <-. right. split; [reflexivity|left; reflexivity].
  - destruct (eqb k k') eqn:E.
    + apply He in E. subst k'. destruct H as [H|H]; [injection H as <- <-|left; right; exact H]. right. split; [reflexivity|]. right. exists v'. split; [left; reflexivity|reflexivity].
    + destruct H as [H|H]; [left; left; exact H|]. destruct (IH H) as [H1|[H1 [H2|(v0 & H2 & H3)]]]; [left; right; exact H1|right; split; [exact H1|left; exact H2]|].
      right. split; [exact H1|]. right. exists v0. split; [right; exact H2|exact H3].
Qed.
Lemma from_add l d t : In t l -> from l d -> from l (add_term d t).
Proof.
  intros Ht H o inner i J Ho Hi. unfold add_term in Ho. apply dict_upd_in in Ho; [|intros a b X; apply opstr_eqb_eq; exact X].
  destruct Ho as [Ho|[-> Ho]]; [exact (H o inner i J Ho Hi)|].
  assert (G : forall v0, (forall i J, In (i, J) v0 -> exists u, In u l /\ map fst (fst u) = map fst (fst t) /\ map snd (fst u) = i) ->
    In (i, J) (dict_upd indx_eqb (map snd (fst t)) (fun j => match j with None => snd t | Some J => (J + snd t)%C end) v0) ->
    exists u, In u l /\ map fst (fst u) = map fst (fst t) /\ map snd (fst u) = i).
  { intros v0 Hv Hin. apply dict_upd_in in Hin; [|intros a b X; apply indx_eqb_eq; exact X]. destruct Hin as [Hin|[-> _]]; [exact (Hv _ _ Hin)|]. exists t. split; [exact Ht|split; reflexivity]. }
  destruct Ho as [->|(v0 & Hv0 & ->)]; [apply (G []); [intros ? ? []|exact Hi]|]. apply (G v0); [|exact Hi]. intros i' J' Hin. exact (H _ _ _ _ Hv0 Hin).
Qed.
Lemma consolidate_from eps l t : In t (consolidate eps l) -> exists u, In u l /\ fst u = fst t.
Proof.
  assert (G : forall l' d, incl l' l -> from l d -> from l (fold_left add_term l' d)).
  { induction l' as [|x l' IH]; intros d Hi Hd; [exact Hd|]. cbn [fold_left]. apply IH; [intros y Hy; apply Hi; right; exact Hy|]. apply from_add; [apply Hi; left; reflexivity|exact Hd]. }
  intros H. unfold consolidate, dict_terms in H. apply in_flat_map in H. destruct H as ([o inner] & Ho & H). apply in_flat_map in H. destruct H as ([i J] & Hi & H).
  cbn [fst snd] in H. destruct (Cabs_gt J eps); [|destruct H]. destruct H as [<-|[]]. cbn [fst snd] in *.
  destruct (G l [] (fun x Hx => Hx) ltac:(intros ? ? ? ? []) o inner i J Ho Hi) as (u & Hu & <- & <-). exists u. split; [exact Hu|]. rewrite combine_split. reflexivity.
Qed.


Section Pcon.
Variables (B : N) (n : nat) (op : opl -> N -> C -> option (N * C)) (mat : ascii -> nat -> cmat) (ok : ascii * nat -> Prop)
  (sort : term -> term) (expand : term -> list term).
Hypothesis HB : (2 <= B)%N.
Notation M := (N.to_nat (B ^ N.of_nat n)).
Notation okd := (okd ok).
Hypothesis Hmat : forall l, Forall ok l -> meq M (op_matrix (op l)) (string_matrix M mat l).
Hypothesis Hok : forall x, ok x -> snd x < n.
Hypothesis Hmv : forall x, ok x -> fst x <> "x"%char -> fst x <> "y"%char -> moves B n (mat (fst x) (snd x)) (snd x) (charge (fst x)).
Hypothesis Hsort : forall t, Forall ok (fst t) -> meq M (term_matrix op (sort t)) (term_matrix op t) /\ Permutation (fst t) (fst (sort t)).
Hypothesis Hexp : forall t, Forall ok (fst t) -> meq M (terms_matrix op (expand t)) (term_matrix op t) /\
  Forall (fun u => Forall okd (fst u) /\ map snd (fst u) = map snd (fst t)) (expand t).

Lemma okd_ok l : Forall okd l -> Forall ok l.
Proof. apply Forall_impl. intros x [H _]. exact H. Qed.
Lemma dropped_zero m l : N.of_nat (S m) = B -> Forall okd l -> (forall x, count_occ Nat.eq_dec (map snd l) x <= S m) -> non_zero m l = false ->
  meq M (op_matrix (op l)) mzero.
Proof.
  intros Hm HF HC HN. rewrite (Hmat l (okd_ok l HF)). unfold non_zero in HN. destruct (existsb _ _); [|discriminate]. cbv zeta in HN.
  assert (G : forall c : ascii, (c = "+" \/ c = "-")%char -> forallb (fun x => length (filter (fun oi => ((fst oi =? c)%char && (snd oi =? x))%bool) l) <=? m)
                   (map snd (filter (fun oi => (fst oi =? c)%char) l)) = false -> meq M (string_matrix M mat l) mzero).
  { intros c Hc E. assert (X : exists x, In x (map snd (filter (fun oi => (fst oi =? c)%char) l)) /\ m < length (filter (fun oi => ((fst oi =? c)%char && (snd oi =? x))%bool) l)).
    { clear - E. induction (map snd (filter (fun oi => (fst oi =? c)%char) l)) as [|x k IH]; [discriminate|]. cbn [forallb] in E. destruct (Nat.leb_spec (length (filter (fun oi => ((fst oi =? c)%char && (snd oi =? x))%bool) l)) m).
      - destruct (IH E) as (y & Hy & L). exists y. split; [right; exact Hy|exact L].
      - exists x. split; [left; reflexivity|assumption]. }
    destruct X as (x & Hx & L). apply in_map_iff in Hx. destruct Hx as ([o x'] & E' & Hx). cbn [snd] in E'. subst x'. apply filter_In in Hx. destruct Hx as [Hx _].
    assert (Hxn : x < n) by (rewrite Forall_forall in HF; apply (Hok (o, x)); apply HF; exact Hx).
    apply (string_vanishes B n HB mat ok Hmv l x c Hc HF Hxn); [|lia].
    intros [o' i] Hin Ei. cbn [fst snd] in *. subst i. specialize (HC x).
    destruct (Ascii.eqb_spec o' c) as [->|Ne]; [reflexivity|exfalso].
    assert (W : length (filter (fun oi => ((fst oi =? c)%char && (snd oi =? x))%bool) l) < count_occ Nat.eq_dec (map snd l) x).
    { clear - Hin Ne. induction l as [|[p q] l IH]; [destruct Hin|]. cbn [filter map count_occ fst snd length].
      assert (W0 : length (filter (fun oi => ((fst oi =? c)%char && (snd oi =? x))%bool) l) <= count_occ Nat.eq_dec (map snd l) x).
      { clear. induction l as [|[p q] l IH]; [cbn; lia|]. cbn [filter map count_occ fst snd]. destruct (Nat.eq_dec q x) as [->|Nq].
        - rewrite Nat.eqb_refl, andb_true_r. destruct (p =? c)%char; cbn [length]; lia.
        - rewrite (proj2 (Nat.eqb_neq q x) Nq), andb_false_r. exact IH. }
      destruct Hin as [Hin|Hin].
      - injection Hin as -> ->. destruct (Nat.eq_dec x x); [|contradiction]. destruct (Ascii.eqb_spec o' c); [contradiction|]. cbn [andb]. lia.
      - specialize (IH Hin). destruct (Nat.eq_dec q x) as [->|Nq].
        + rewrite Nat.eqb_refl, andb_true_r. destruct (p =? c)%char; cbn [length]; lia.
        + rewrite (proj2 (Nat.eqb_neq q x) Nq), andb_false_r. exact IH. }
    lia. }
  apply andb_false_iff in HN. destruct HN as [HN|HN]; [apply (G "+"%char); [left; reflexivity|exact HN]|apply (G "-"%char); [right; reflexivity|exact HN]].
Qed.

Lemma expanded_form_split m eps l : N.of_nat (S m) = B -> Forall (fun t => Forall ok (fst t)) l ->
  (forall t x, In t l -> count_occ Nat.eq_dec (map snd (fst t)) x <= S m) ->
  (exists D, Forall (fun t => small eps (snd t)) D /\ meq M (terms_matrix op l) (madd (terms_matrix op (expanded_form sort expand m eps l)) (terms_matrix op D))) /\
  Forall (fun t => Forall okd (fst t)) (expanded_form sort expand m eps l).
Proof.
  intros Hm HF HC. rewrite Forall_forall in HF.
  assert (HS : forall t, In t (map sort l) -> Forall ok (fst t) /\ (forall x, count_occ Nat.eq_dec (map snd (fst t)) x <= S m)).
  { intros t Ht. apply in_map_iff in Ht. destruct Ht as (u & <- & Hu). destruct (Hsort u (HF u Hu)) as [_ P]. split; [eapply Permutation_Forall; [exact P|apply HF; exact Hu]|].
    intros x. rewrite <- (proj1 (Permutation_count_occ Nat.eq_dec _ _) (Permutation_map snd P) x). apply HC. exact Hu. }
  assert (HE : forall t, In t (flat_map expand (map sort l)) -> Forall okd (fst t) /\ (forall x, count_occ Nat.eq_dec (map snd (fst t)) x <= S m)).
  { intros t Ht. apply in_flat_map in Ht. destruct Ht as (u & Hu & Ht). destruct (HS u Hu) as [S1 S2]. destruct (Hexp u S1) as [_ X]. rewrite Forall_forall in X.
    destruct (X t Ht) as [X1 X2]. split; [exact X1|]. intros x. etransitivity; [|exact (S2 x)]. apply Nat.eq_le_incl. f_equal. exact X2. }
  set (F := filter (fun t => non_zero m (fst t)) (flat_map expand (map sort l))).
  assert (HFi : forall t, In t F -> Forall okd (fst t)) by (intros t Ht; apply filter_In in Ht; apply HE; tauto).
  assert (E : meq M (terms_matrix op (map sort F)) (terms_matrix op l)).
  { rewrite (TM_map M op sort F); [|intros t Ht; apply Hsort; apply okd_ok; apply HFi; exact Ht]. unfold F.
    rewrite (TM_filter M op); [|intros t Ht Hz; destruct (HE t Ht) as [E1 E2]; exact (dropped_zero m (fst t) Hm E1 E2 Hz)].
    rewrite (TM_flat_map M op); [|intros t Ht; apply Hexp; apply HS; exact Ht]. apply TM_map. intros t Ht. apply Hsort. apply HF. exact Ht. }
  unfold expanded_form, expand_local_list. fold F. split.
  - exists (dropped eps (fold_left add_term (map sort F) [])). split; [apply Forall_forall; intros t Ht; exact (dropped_small _ _ _ Ht)|].
    rewrite <- E. apply consolidate_ok.
  - apply Forall_forall. intros t Ht. apply consolidate_from in Ht. destruct Ht as (u & Hu & <-). apply in_map_iff in Hu. destruct Hu as (w & <- & Hw).
    eapply Permutation_Forall; [apply Hsort; apply okd_ok; apply HFi; exact Hw|]. apply HFi. exact Hw.
Qed.

Lemma TM_conserves l : Forall (fun t => Forall okd (fst t)) l -> forallb (fun t => count_letter "+"%char (fst t) =? count_letter "-"%char (fst t)) l = true ->
  conserves B n (terms_matrix op l).
Proof.
  intros HF HC r s Hr Hs. induction l as [|t l IH]; intros HN; [exfalso; apply HN; reflexivity|]. cbn [forallb] in HC. apply andb_prop in HC. destruct HC as [C1' C2].
  inversion HF as [|? ? F1 F2]; subst. rewrite TM_cons in HN. unfold madd in HN. destruct (C_dec (terms_matrix op l r s) C0) as [E|E]; [|exact (IH F2 C2 E)].
  rewrite E in HN. apply (string_conserves B n HB mat ok Hok Hmv (fst t) F1); [apply Nat.eqb_eq; exact C1'|exact Hr|exact Hs|].
  intros E2. apply HN. unfold term_matrix, mscale. rewrite (Hmat (fst t) (okd_ok _ F1) r s) by (rewrite N2Nat.id; assumption). rewrite E2. ring.
Qed.
Lemma pcon_sound m eps l : N.of_nat (S m) = B -> Forall (fun t => Forall ok (fst t)) l ->
  (forall t x, In t l -> count_occ Nat.eq_dec (map snd (fst t)) x <= S m) -> check_pcon sort expand m eps l = true ->
  exists D A, Forall (fun t => small eps (snd t)) D /\ meq M (terms_matrix op l) (madd A (terms_matrix op D)) /\ conserves B n A.
Proof.
  intros Hm HF HC H. destruct (expanded_form_split m eps l Hm HF HC) as [(D & D1 & D2) X]. exists D, (terms_matrix op (expanded_form sort expand m eps l)).
  split; [exact D1|]. split; [exact D2|]. apply TM_conserves; [exact X|exact H].
Qed.
End Pcon.

(* instances *)
Lemma site_moves B n (loc : N -> N -> C) i q : (2 <= B)%N -> (forall a b, (a < B)%N -> (b < B)%N -> loc a b <> C0 -> (Z.of_N a = Z.of_N b + q)%Z) ->
  moves B n (site_matrix B n loc i) i q.
Proof.
  intros HB H r s Hr Hs HN j Hj. unfold site_matrix in HN. destruct (same_except B n i r s) eqn:E; [|contradiction].
  destruct (Nat.eqb_spec j i) as [->|Nj]; [apply H; [apply site_val_lt; exact HB|apply site_val_lt; exact HB|exact HN]|].
  rewrite (proj1 (same_except_spec B HB n i r s) E j Hj Nj). lia.
Qed.
Lemma spin_moves p n x : spin_known (fst x) /\ snd x < n -> fst x <> "x"%char -> fst x <> "y"%char ->
  moves 2 n (site_matrix 2 n (pauli_site p (fst x)) (snd x)) (snd x) (charge (fst x)).
Proof.
  destruct x as [o i]. cbn [fst snd]. intros [K Hi] Nx Ny. apply site_moves; [lia|]. intros a b Ha Hb HN. unfold pauli_site in HN.
  assert (HN' : spin_half_site o a b <> C0) by (intros E; apply HN; rewrite E; destruct (doubled p o); [ring|reflexivity]). clear HN.
  apply eqb01 in Ha. apply eqb01 in Hb. unfold spin_known in K. cbn [In] in K.
  destruct K as [<-|[<-|[<-|[<-|[<-|[<-|[<-|[]]]]]]]]; try contradiction; destruct Ha as [-> | ->], Hb as [-> | ->]; cbn in HN'; try (exfalso; apply HN'; reflexivity); reflexivity.
Qed.
Lemma boson_moves B n x : (2 <= B)%N -> boson_known (fst x) /\ snd x < n -> fst x <> "x"%char -> fst x <> "y"%char ->
  moves B n (site_matrix B n (boson_code_site B (fst x)) (snd x)) (snd x) (charge (fst x)).
Proof.
  destruct x as [o i]. cbn [fst snd]. intros HB [K Hi] Nx Ny. apply site_moves; [exact HB|]. intros a b Ha Hb HN. unfold boson_known in K. cbn [In] in K. unfold boson_code_site in HN.
  destruct K as [<-|[<-|[<-|[<-|[<-|[]]]]]]; cbn in HN;
    try (destruct (N.eqb_spec a b) as [->|]; [cbn; lia|exfalso; apply HN; reflexivity]).
  - destruct (N.eqb_spec a (b + 1)) as [->|]; [cbn; lia|exfalso; apply HN; reflexivity].
  - destruct (N.eqb_spec (a + 1) b) as [<-|]; [cbn; lia|exfalso; apply HN; reflexivity].
Qed.
Lemma spinS_moves B n x : (2 <= B)%N -> spinS_known (fst x) /\ snd x < n -> fst x <> "x"%char -> fst x <> "y"%char ->
  moves B n (site_matrix B n (spinS_site B (fst x)) (snd x)) (snd x) (charge (fst x)).
Proof.
  destruct x as [o i]. cbn [fst snd]. intros HB [K Hi] Nx Ny. apply site_moves; [exact HB|]. intros a b Ha Hb HN. unfold spinS_known in K. cbn [In] in K. unfold spinS_site in HN.
  destruct K as [<-|[<-|[<-|[<-|[]]]]]; cbn in HN;
    try (destruct (N.eqb_spec a b) as [->|]; [cbn; lia|exfalso; apply HN; reflexivity]).
  - destruct (N.eqb_spec a (b + 1)) as [->|]; [cbn; lia|exfalso; apply HN; reflexivity].
  - destruct (N.eqb_spec (a + 1) b) as [<-|]; [cbn; lia|exfalso; apply HN; reflexivity].
Qed.

Lemma fermion_moves bytes n x : (N.of_nat n <= 8 * bytes)%N -> n <= 256 -> fermion_known (fst x) /\ snd x < n -> fst x <> "x"%char -> fst x <> "y"%char ->
  moves 2 n (cop bytes n (fst x) (snd x)) (snd x) (charge (fst x)).
Proof.
  destruct x as [o i]. cbn [fst snd]. intros Hw Hn [K Hi] _ _ r s Hr Hs HN j Hj. destruct (cop_mono bytes n Hw Hn o i s K Hi Hs) as [_ E].
  rewrite E in HN by (rewrite N2Nat.id; exact Hr). destruct (N.eqb_spec r (fstate o (n - i - 1) s)) as [->|]; [|contradiction].
  assert (V : forall t q, q < n -> site_val 2 n t q = N.b2n (occupied t (n - q - 1))) by (intros t q Hq; apply site_val2; exact Hq). rewrite !V by exact Hj.
  assert (J : (j =? i) = (n - j - 1 =? n - i - 1)) by (destruct (Nat.eqb_spec j i), (Nat.eqb_spec (n - j - 1) (n - i - 1)); lia).
  unfold fermion_known in K. cbn [In] in K. unfold fstate. destruct K as [<-|[<-|[<-|[<-|[<-|[]]]]]]; cbn [Ascii.eqb Bool.eqb orb];
    change (charge "I") with 0%Z; change (charge "n") with 0%Z; change (charge "z") with 0%Z; change (charge "+") with 1%Z; change (charge "-") with (-1)%Z; try (destruct (j =? i); lia).
  - rewrite flipp_occ, J. unfold famp in HN. destruct (Nat.eqb_spec (n - j - 1) (n - i - 1)) as [->|]; [|lia]. destruct (occupied s (n - i - 1)); [contradiction|reflexivity].
  - rewrite flipp_occ, J. unfold famp in HN. destruct (Nat.eqb_spec (n - j - 1) (n - i - 1)) as [->|]; [|lia]. destruct (occupied s (n - i - 1)); [reflexivity|contradiction].
Qed.
