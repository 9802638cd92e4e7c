(* Semi-momentum blocks: the matrix elements. *)
From Verif Require Import AuxN SpecC SpecOps SpecMaps SpecFermi SpecChain M_bits1d SpecChain1d SpecCheck1d SpecBlock1d M_check1d
  P_maps P_square P_bits1d P_bits1d4 P_bits1d5 P_check1d P_check1d2 P_check1d3 P_check1d4 P_check1d5 P_block1d P_block1d2 P_block1d3 P_block1d4
  M_ops M_symop P_symop P_photon M_op1d P_op1d P_op1d2 P_op1d3 P_op1d4 P_op1d5 P_op1d6 P_op1d7 P_semi1d P_semi1d2 P_semi1d3 C39_checks C39_reference C39_translations.
From Coq Require Import Permutation.
Local Open Scope nat_scope.

Lemma nodup_app2 {X} (l1 l2 : list X) : NoDup l1 -> NoDup l2 -> (forall x, In x l1 -> ~ In x l2) -> NoDup (l1 ++ l2).
Proof. intros N1 N2 D. induction N1 as [|x l1 Hx N1 IH]; [exact N2|]. cbn. constructor; [|apply IH; intros y Hy; apply D; right; exact Hy]. intros H. apply in_app_or in H. destruct H as [H|H]; [contradiction|]. exact (D x (or_introl eq_refl) H). Qed.
Definition key (e : entry) : N * Z := (e_s e, sgn (e_N e)).
Lemma collect_key w k L T kb b states es : (forall s l, In s states -> keep w k L T kb b s = Some l -> NoDup (map (fun e => sgn (e_N e)) l) /\ forall e, In e l -> e_s e = s) -> NoDup states ->
  collect w k L T kb b states = Some es -> NoDup (map key es).
Proof.
  intros H1 Nd. unfold collect. revert es. induction Nd as [|s states Hn Nd IH]; intros es; [cbn; intros E; injection E as <-; constructor|].
  cbn [map all_some]. destruct (keep w k L T kb b s) as [l|] eqn:Ek; [|discriminate]. destruct (all_some (map _ states)) as [ls|] eqn:E; [|discriminate]. cbn [option_map]. intros Ee. injection Ee as <-. cbn [concat].
  specialize (IH (fun s' l' Hs' => H1 s' l' (or_intror Hs')) (concat ls)). cbn [option_map] in IH. specialize (IH eq_refl). destruct (H1 s l (or_introl eq_refl) Ek) as [Nl El].
  rewrite map_app. apply nodup_app2; [|exact IH|].
  - clear - Nl. induction l as [|e l IHl]; [constructor|]. cbn [map] in *. inversion_clear Nl as [|? ? Ha Hb]. constructor; [|exact (IHl Hb)]. intros H. apply Ha. apply in_map_iff in H. destruct H as (e' & E & He). apply in_map_iff. exists e'. split; [|exact He]. exact (f_equal snd E).
  - intros x Hx Hx'. apply in_map_iff in Hx. destruct Hx as (e & <- & He). apply in_map_iff in Hx'. destruct Hx' as (e' & Ek' & He'). assert (Ec : collect w k L T kb b states = Some (concat ls)) by (unfold collect; rewrite E; reflexivity).
    destruct (collect_in w k L T kb b _ _ Ec e' He') as (s' & l' & Hs' & Ek'' & Hl'). destruct (H1 s' l' (or_intror Hs') Ek'') as [_ El']. apply Hn. rewrite <- (El e He), <- (f_equal fst Ek' : e_s e' = e_s e), (El' e' Hl'). exact Hs'.
Qed.

Section S.
Variables (w : btype) (k : kind) (L T kb : nat) (b : block).
Hypothesis OK : block_ok w k L T b.
Hypothesis Sm : semi b = true.
Variables (states : list N) (es basis : list entry).
Hypothesis Hst : forall s, In s states -> is_state k L s.
Hypothesis Hnd : NoDup states.
Hypothesis Hcol : collect w k L T kb b states = Some es.
Hypothesis Harr : arranged es basis.
Notation M := (Mst k L).
Notation two := (two_of b).
Notation tf := (translates b).
Notation n := (n_of L T b).
Notation Hs := (heads b).
Notation To := (T_of T b).
Notation X := (X w k L To two n).
Notation G := (G w k L To two n).
Notation eps := (eps two tf).
Notation th := (th_of L T kb b).
Notation V := (V n Hs (chi b) X G).
Notation cf := (cf L T kb b).
Notation dot := (dotv M).
Notation kap0 := (kap0 L T kb b).
Notation Wl := (Wl w k L T kb b).
Notation flat := (flat L T kb).
Notation nrms := (nrms L T kb b).
Notation mixb := (mixb L T kb b).
Notation Ns := (length basis).
Notation en i := (nth i basis entry0).
Notation st i := (e_s (en i)).
Notation W := (Wb w k L T kb b basis).
Definition nns (i : nat) : R := sqrt (kap0 * nrms (en i)).
Lemma cf_sgn x : cf x = cf (sgn x). Proof. unfold P_op1d2.cf, sgn. destruct (0 <? x)%Z; reflexivity. Qed.
Lemma ent i : i < Ns -> exists s l, In s states /\ keep w k L T kb b s = Some l /\ In (en i) l /\ st i = s /\ is_state k L s /\ kept_semi w k L T kb b s l.
Proof.
  intros Hi. assert (He : In (en i) es) by (apply (Permutation_in _ (Permutation_sym (proj1 Harr))), nth_In, Hi). destruct (collect_in w k L T kb b states es Hcol _ He) as (s & l & Hs' & Ek & Hl). exists s, l. split; [exact Hs'|]. split; [exact Ek|]. split; [exact Hl|].
  destruct (keep_semi_ok w k L T kb b OK Sm s (Hst s Hs')) as (l' & Ek' & Ks). assert (l' = l) by congruence. subst l'. split; [apply (proj1 (proj2 Ks) _ Hl)|]. split; [exact (Hst s Hs')|exact Ks].
Qed.
Lemma st_ok i : i < Ns -> is_state k L (st i). Proof. intros Hi. destruct (ent i Hi) as (s & l & _ & _ & _ & -> & H & _). exact H. Qed.
Lemma ent_semi i : i < Ns -> entry_ok w k L T kb b (st i) (en i).
Proof. intros Hi. destruct (ent i Hi) as (s & l & _ & _ & Hl & E & _ & Ks). rewrite E. exact (proj1 (proj2 Ks) _ Hl). Qed.
Lemma keys_nd : NoDup (map key basis).
Proof.
  apply (Permutation_NoDup (Permutation_map key (proj1 Harr))). apply (collect_key w k L T kb b states); [|exact Hnd|exact Hcol]. intros s l Hs' Ek. destruct (keep_semi_ok w k L T kb b OK Sm s (Hst s Hs')) as (l' & Ek' & Ks). assert (l' = l) by congruence. subst l'.
  split; [exact (proj1 Ks)|]. intros e He. apply (proj1 (proj2 Ks) e He).
Qed.
Lemma key_inj i j : i < Ns -> j < Ns -> st i = st j -> sgn (e_N (en i)) = sgn (e_N (en j)) -> i = j.
Proof.
  intros Hi Hj E1 E2. apply (proj1 (NoDup_nth (map key basis) (key entry0)) keys_nd); [rewrite map_length; exact Hi|rewrite map_length; exact Hj|]. rewrite !map_nth. unfold key. congruence.
Qed.
Lemma no_triple i j l : i < Ns -> j < Ns -> l < Ns -> st i = st j -> st j = st l -> i <> j -> j <> l -> i <> l -> False.
Proof.
  intros Hi Hj Hl E1 E2 N1 N2 N3. destruct (sgn_pm (e_N (en i))) as [A|A], (sgn_pm (e_N (en j))) as [B|B], (sgn_pm (e_N (en l))) as [C|C];
    first [apply N1, key_inj; congruence|apply N2, key_inj; congruence|apply N3, key_inj; congruence].
Qed.
Lemma mono i j : i <= j < Ns -> (st j <= st i)%N.
Proof. intros H. pose proof (desc_le (map e_s basis) (proj2 Harr) i j ltac:(rewrite map_length; exact H)) as D. change 0%N with (e_s entry0) in D. rewrite !map_nth in D. exact D. Qed.
Lemma pair i j : i < j < Ns -> st i = st j -> j = i + 1.
Proof.
  intros H E. destruct (Nat.eq_dec j (i + 1)) as [|Hne]; [assumption|exfalso]. assert (E1 : st (i + 1) = st i) by (pose proof (mono i (i + 1) ltac:(lia)); pose proof (mono (i + 1) j ltac:(lia)); lia).
  apply (no_triple i (i + 1) j); try lia; congruence.
Qed.
Lemma cross i j : i < Ns -> j < Ns -> i <> j -> st i = st j -> dot (W j (st j)) (W i (st j)) = C0.
Proof.
  intros Hi Hj Hne E. destruct (ent i Hi) as (s & l & _ & Ek & Hl & Es & _ & Ks). destruct (ent j Hj) as (s' & l' & _ & Ek' & Hl' & Es' & _ & _). assert (E2 : s' = s) by congruence. rewrite E2 in Ek', Es'. assert (E3 : l' = l) by congruence. rewrite E3 in Hl'.
  unfold Wb. rewrite Es', (cf_sgn (e_N (en i))), (cf_sgn (e_N (en j))). apply (proj2 (proj2 Ks) _ _ Hl' Hl). intros Q. apply Hne. apply key_inj; auto.
Qed.
Lemma run_of ss : ss < Ns -> let '(x, p) := if ((0 <? ss) && (st ss =? st (ss - 1))%N)%bool then (ss - 1, 2) else if ((ss <? Ns - 1) && (st ss =? st (ss + 1))%N)%bool then (ss, 2) else (ss, 1) in
  (p = 1 \/ p = 2) /\ x + p <= Ns /\ forall j, j < Ns -> (st j = st ss <-> x <= j < x + p).
Proof.
  intros Hss. destruct (Nat.ltb_spec 0 ss) as [Hp|Hp], (N.eqb_spec (st ss) (st (ss - 1))) as [E1|E1]; cbn [andb]; [split; [auto|]; split; [lia|]; intros j Hj; split|..].
  - intros E. destruct (Nat.lt_ge_cases j (ss - 1)) as [Hlt|Hge]; [exfalso; apply (no_triple j (ss - 1) ss); try lia; congruence|]. destruct (Nat.lt_ge_cases j (ss + 1)); [lia|]. exfalso. apply (no_triple (ss - 1) ss j); try lia; congruence.
  - intros H. assert (D : j = ss - 1 \/ j = ss) by lia. destruct D as [-> | ->]; congruence.
  - destruct (Nat.ltb_spec ss (Ns - 1)) as [Hn|Hn], (N.eqb_spec (st ss) (st (ss + 1))) as [E2|E2]; cbn [andb]; (split; [auto|]; split; [lia|]; intros j Hj; split; intros H).
    all: try (assert (D : j = ss \/ j = ss + 1) by lia; destruct D as [-> | ->]; congruence).
    all: try (assert (D : j = ss) by lia; subst j; reflexivity).
    all: destruct (Nat.lt_trichotomy j ss) as [D|[D|D]]; [pose proof (pair j ss ltac:(lia) ltac:(congruence)); assert (Q : j = ss - 1) by lia; subst j; congruence|lia|pose proof (pair ss j ltac:(lia) ltac:(congruence)) as Q]; try lia; subst j; congruence.
  - destruct (Nat.ltb_spec ss (Ns - 1)) as [Hn|Hn], (N.eqb_spec (st ss) (st (ss + 1))) as [E2|E2]; cbn [andb]; (split; [auto|]; split; [lia|]; intros j Hj; split; intros H).
    all: try (assert (D : j = ss \/ j = ss + 1) by lia; destruct D as [-> | ->]; congruence).
    all: try (assert (D : j = ss) by lia; subst j; reflexivity).
    all: destruct (Nat.lt_trichotomy j ss) as [D|[D|D]]; [lia|lia|pose proof (pair ss j ltac:(lia) ltac:(congruence)) as Q]; try lia; subst j; congruence.
  - destruct (Nat.ltb_spec ss (Ns - 1)) as [Hn|Hn], (N.eqb_spec (st ss) (st (ss + 1))) as [E2|E2]; cbn [andb]; (split; [auto|]; split; [lia|]; intros j Hj; split; intros H).
    all: try (assert (D : j = ss \/ j = ss + 1) by lia; destruct D as [-> | ->]; congruence).
    all: try (assert (D : j = ss) by lia; subst j; reflexivity).
    all: destruct (Nat.lt_trichotomy j ss) as [D|[D|D]]; [lia|lia|pose proof (pair ss j ltac:(lia) ltac:(congruence)) as Q]; try lia; subst j; congruence.
Qed.

(* the factors of the matrix elements *)
Lemma me_semi_eq Rc c r : length (counts b Rc) = length (words_of b) -> Forall (fun c => c <= 1) (counts b Rc) ->
  me_semi L T kb b Rc c r = (sqrt (nrms r / nrms c) * (chi b (hd_of b (counts b Rc)) * (if (eps (hd_of b (counts b Rc)) && negb (0 <? sgn (e_N c))%Z)%bool then -1 else 1)) * mixb r (sgn (e_N r)) (sgn (e_N c)) (Z.of_nat (shifts b Rc)))%R.
Proof.
  intros Hl Hf. destruct b; try discriminate Sm; cbn [counts shifts translates words_of length two_of] in *; destruct Rc as [|l0 [|c1 [|c2 [|]]]]; try discriminate Hl; cbn [tl] in *;
    repeat match goal with F : Forall _ (_ :: _) |- _ => inversion_clear F end; unfold me_semi, me_TP, me_TPZ, P_semi1d2.nrms, P_semi1d2.mixb; cbn [nth];
    unfold chi, chiZ, hd_of, P_block1d4.eps; cbn [nth q12 fst snd andb negb]; rewrite !pw_q by assumption;
    repeat match goal with F : ?c <= 1 |- _ => destruct c as [|[|?]]; [clear F|clear F|lia] end; cbn [Nat.eqb andb]; destruct (sgn_pm (e_N c)) as [-> | ->]; cbn [Z.ltb Z.compare negb]; rewrite ?mult_IZR, ?opp_IZR; try (destruct (cTPZ L r) as [|q|q]); ring.
Qed.
Lemma Ee_semi i j s' r sign Rc : i < Ns -> j < Ns -> is_state k L s' -> ref_of w k L T b s' = Some (r, sign, Rc) ->
  Ee M basis W nns i j s' = if (st j =? r)%N then (RtoC (IZR sign) * RtoC (me_semi L T kb b Rc (en i) (en j)))%C else C0.
Proof.
  intros Hi Hj Hs' Er. assert (Pz : pz_ok k b) by (destruct b; try discriminate Sm; exact I).
  destruct (ref_block w k L T b OK s' Hs' Pz) as (r' & sign' & Rc' & Er' & Hf & Hl & (Hb & Hg) & _ & Mx). rewrite Er in Er'. injection Er' as <- <- <-.
  pose proof (block_grp w k L T b OK) as GR. destruct (ent_semi i Hi) as (_ & _ & Pi & Fi & _ & _). destruct (ent_semi j Hj) as (_ & Xj & Pj & Fj & _ & Bj). pose proof (kap0_pos w k L T kb b OK Sm) as KP. pose proof (st_ok i Hi) as Si. pose proof (st_ok j Hj) as Sj.
  unfold Ee, Wb. rewrite (cf_sgn (e_N (en i))), (cf_sgn (e_N (en j))). destruct (N.eqb_spec (st j) r) as [Ej|Ej].
  - rewrite (me_semi_eq Rc (en i) (en j) Hl Hf). set (h := hd_of b (counts b Rc)) in *. set (l := Z.of_nat (shifts b Rc)) in *.
    assert (EV : dot (V (cf (sgn (e_N (en j)))) (st j)) (V (cf (sgn (e_N (en i)))) s') = (RtoC (IZR sign) * ch (chi b) h * RtoC (if (eps h && negb (0 <? sgn (e_N (en i)))%Z)%bool then -1 else 1) * RtoC (kap0 * nrms (en j) * mixb (en j) (sgn (e_N (en j))) (sgn (e_N (en i))) l))%C).
    { rewrite <- (Bj (sgn (e_N (en i))) l (sgn_pm _)) by (destruct Fi as [Fi|Fi]; [destruct Fj as [Fj|Fj]; [right; split; assumption|left; exact Fj]|left; exact Fi]). rewrite <- dot_scal2. apply dot_ext2. intros t. rewrite (V_back_s w k L T kb b OK Sm (sgn (e_N (en i))) l h s' r t Hb), Hg, Ej. reflexivity. }
    rewrite EV. unfold ch. rewrite <- !RtoC_mul. f_equal. unfold nns.
    assert (P1 : (0 < kap0 * nrms (en i))%R) by (apply Rmult_lt_0_compat; assumption). assert (P2 : (0 < kap0 * nrms (en j))%R) by (apply Rmult_lt_0_compat; assumption).
    replace (nrms (en j) / nrms (en i))%R with ((kap0 * nrms (en j)) / (kap0 * nrms (en i)))%R by (field; split; lra). rewrite sqrt_div_alt by exact P1.
    pose proof (sqrt_lt_R0 _ P1) as Q1. pose proof (sqrt_lt_R0 _ P2) as Q2. rewrite <- (sqrt_sqrt (kap0 * nrms (en j))) at 1 by lra. field. split; lra.
  - assert (Pc : forall x, periodic n (cf x)) by (intros x; apply (cf_per w k L T kb b OK)).
    rewrite (dot_orbits _ _ _ _ _ _ _ GR _ _ (st j) s' (Pc _) (proj2 (M_st k L _) Sj) (proj2 (M_st k L _) Hs')); [ring|].
    intros x g Hg' Ex. apply Ej. pose proof (Mx x g Hg') as L1. rewrite Ex in L1. destruct Hb as (Ds & Dr & Hh & Er').
    pose proof (inv_l _ _ _ _ _ _ _ GR x g s' Hg' Ds) as Ei. rewrite Ex in Ei. rewrite <- Ei in Er'. rewrite (g_Xm _ _ _ _ _ _ _ GR) in Er' by (assumption || apply M_st; assumption).
    pose proof (Xj (- sg (eps g) x + sg (eps g) (sg (eps (hd_of b (counts b Rc))) (Z.of_nat (shifts b Rc))))%Z (hx g (hd_of b (counts b Rc))) (heads_cl w k L T b OK _ _ Hg' Hh)) as L2. rewrite <- Er' in L2. lia.
Qed.

Lemma flat_inj i j : flat = true -> i < Ns -> j < Ns -> st i = st j -> i = j.
Proof.
  intros Hf Hi Hj E. apply key_inj; try assumption. destruct (ent_semi i Hi) as (_ & _ & _ & [Fi|Fi] & _); [|congruence]. destruct (ent_semi j Hj) as (_ & _ & _ & [Fj|Fj] & _); [|congruence]. congruence.
Qed.
Lemma cols_flat real : flat = true -> cols_ok w k L T kb M b basis W nns real.
Proof.
  intros Hfl rm Hlen HD _. unfold column. rewrite Sm, Hfl.
  set (row i := fst (nth i rm (0%N, C0))). set (me i := snd (nth i rm (0%N, C0))).
  assert (Hrow : forall i, i < Ns -> is_state k L (row i)) by (intros i Hi; apply M_st, HD, Hi).
  assert (Pz : pz_ok k b) by (destruct b; try discriminate Sm; exact I).
  assert (Gx : exists g : nat -> list (C * nat * nat), forall i, i < Ns -> col_semi_flat w k L T kb b basis rm i = Some (g i) /\ forall j i', j < Ns -> i' < Ns -> coo_matrix (g i) j i' = if i =? i' then (me i * Ee M basis W nns i j (row i))%C else C0).
  { exists (fun i => match col_semi_flat w k L T kb b basis rm i with Some l => l | None => [] end). intros i Hi. destruct (ref_block w k L T b OK (row i) (Hrow i Hi) Pz) as (r & sign & Rc & Er & _).
    pose proof (locate_ok basis i r (proj2 Harr) Hi) as Hloc. unfold col_semi_flat. fold (row i) (me i). rewrite Er. split; [reflexivity|]. intros j i' Hj Hi'.
    rewrite (Ee_semi i j (row i) r sign Rc Hi Hj (Hrow i Hi) Er). destruct (locate basis i r) as [j0|].
    - destruct Hloc as [Hj0 E0]. unfold coo_matrix. rewrite Csum_cons, Csum_nil. cbn [fst snd]. destruct (Nat.eqb_spec i i') as [<-|Hne]; [|rewrite Bool.andb_false_r; ring]. rewrite Bool.andb_true_r.
      destruct (Nat.eqb_spec j0 j) as [<-|Hne]; [rewrite E0, N.eqb_refl; ring|]. destruct (N.eqb_spec (st j) r) as [E'|]; [destruct (Hne (flat_inj j0 j Hfl Hj0 Hj (eq_trans E0 (eq_sym E'))))|ring].
    - unfold coo_matrix. rewrite Csum_nil. destruct (N.eqb_spec (st j) r) as [E'|]; [destruct (Hloc j Hj E')|]. destruct (i =? i'); [ring|reflexivity]. }
  destruct Gx as [g Hg]. apply (all_cols BFull eq_refl basis _ g); [intros i Hi; apply Hg, Hi|]. intros i i' j Hi Hj Hi'. rewrite (proj2 (Hg i Hi) j i' Hj Hi'). reflexivity.
Qed.

(* the first entry of a state *)
Definition first (i : nat) : bool := negb ((0 <? i) && (st i =? st (i - 1))%N).
Lemma first_ex i : i < Ns -> exists x, x < Ns /\ first x = true /\ st x = st i.
Proof.
  intros Hi. destruct (first i) eqn:E; [exists i; auto|]. unfold first in E. apply Bool.negb_false_iff, Bool.andb_true_iff in E. destruct E as [E1 E2]. apply Nat.ltb_lt in E1. apply N.eqb_eq in E2. exists (i - 1). split; [lia|]. split; [|auto].
  unfold first. destruct (Nat.ltb_spec 0 (i - 1)) as [Hp|]; [|reflexivity]. destruct (N.eqb_spec (st (i - 1)) (st (i - 1 - 1))) as [E3|]; [|reflexivity]. exfalso. apply (no_triple (i - 1 - 1) (i - 1) i); try lia; congruence.
Qed.
Lemma first_inj x y : x < Ns -> y < Ns -> first x = true -> first y = true -> st x = st y -> x = y.
Proof.
  assert (A : forall x y, x < y -> y < Ns -> first y = true -> st x = st y -> False).
  { intros x0 y0 Hlt Hy F E. pose proof (pair x0 y0 ltac:(lia) E) as ->. unfold first in F. destruct (Nat.ltb_spec 0 (x0 + 1)); [|lia]. replace (x0 + 1 - 1) with x0 in F by lia. rewrite E, N.eqb_refl in F. discriminate. }
  intros Hx Hy Fx Fy E. destruct (Nat.lt_trichotomy x y) as [D|[D|D]]; [destruct (A x y D Hy Fy E)|exact D|destruct (A y x D Hx Fx (eq_sym E))].
Qed.
Lemma coo_seq (f : nat -> C) x o j i : coo_matrix (map (fun y => (f y, y, y)) (seq x o)) j i = if ((j =? i) && (x <=? i) && (i <? x + o))%bool then f i else C0.
Proof.
  unfold coo_matrix. rewrite Csum_map. cbn [fst snd]. destruct ((x <=? i) && (i <? x + o))%bool eqn:E.
  - rewrite <- Bool.andb_assoc, E, Bool.andb_true_r. apply Bool.andb_true_iff in E. destruct E as [E1 E2]. apply Nat.leb_le in E1. apply Nat.ltb_lt in E2. rewrite (Csum_single _ _ i (seq_NoDup o x)); [|apply in_seq; lia|].
    + rewrite Nat.eqb_refl, Bool.andb_true_r, Nat.eqb_sym. reflexivity.
    + intros y _ Hy. destruct (Nat.eqb_spec y i); [contradiction|]. rewrite Bool.andb_false_r. reflexivity.
  - rewrite <- Bool.andb_assoc, E, Bool.andb_false_r. apply Csum_zero. intros y Hy. apply in_seq in Hy. destruct (Nat.eqb_spec y i) as [->|]; [|rewrite Bool.andb_false_r; reflexivity].
    apply Bool.andb_false_iff in E. destruct E as [E|E]; [apply Nat.leb_gt in E; lia|apply Nat.ltb_ge in E; lia].
Qed.
Lemma coo_block (f : nat -> nat -> C) x o y p j i : coo_matrix (flat_map (fun c => map (fun d => (f (x + c) (y + d), y + d, x + c)) (seq 0 p)) (seq 0 o)) j i =
  if ((x <=? i) && (i <? x + o) && (y <=? j) && (j <? y + p))%bool then f i j else C0.
Proof.
  rewrite flat_map_concat_map, coo_concat, Csum_map. unfold coo_matrix. rewrite (Csum_ext _ _ (fun c => if (x + c =? i) then (if ((y <=? j) && (j <? y + p))%bool then f i j else C0) else C0)).
  - destruct ((x <=? i) && (i <? x + o))%bool eqn:E.
    + apply Bool.andb_true_iff in E. destruct E as [E1 E2]. apply Nat.leb_le in E1. apply Nat.ltb_lt in E2. rewrite (Csum_single _ _ (i - x) (seq_NoDup o 0)); [|apply in_seq; lia|].
      * replace (x + (i - x)) with i by lia. rewrite Nat.eqb_refl. cbn [andb]. reflexivity.
      * intros c _ Hc. destruct (Nat.eqb_spec (x + c) i); [lia|reflexivity].
    + cbn [andb]. apply Csum_zero. intros c Hc. apply in_seq in Hc. destruct (Nat.eqb_spec (x + c) i); [|reflexivity]. apply Bool.andb_false_iff in E. destruct E as [E|E]; [apply Nat.leb_gt in E; lia|apply Nat.ltb_ge in E; lia].
  - intros c _. rewrite Csum_map. cbn [fst snd]. destruct (Nat.eqb_spec (x + c) i) as [<-|Hne]; [|apply Csum_zero; intros d _; rewrite Bool.andb_false_r; reflexivity].
    destruct ((y <=? j) && (j <? y + p))%bool eqn:E.
    + apply Bool.andb_true_iff in E. destruct E as [E1 E2]. apply Nat.leb_le in E1. apply Nat.ltb_lt in E2. rewrite (Csum_single _ _ (j - y) (seq_NoDup p 0)); [|apply in_seq; lia|].
      * replace (y + (j - y)) with j by lia. rewrite Nat.eqb_refl. reflexivity.
      * intros d _ Hd. destruct (Nat.eqb_spec (y + d) j); [lia|reflexivity].
    + apply Csum_zero. intros d Hd. apply in_seq in Hd. destruct (Nat.eqb_spec (y + d) j); [|reflexivity]. apply Bool.andb_false_iff in E. destruct E as [E|E]; [apply Nat.leb_gt in E; lia|apply Nat.ltb_ge in E; lia].
Qed.
Lemma in_run x o i P : (P <-> x <= i < x + o) -> ((x <=? i) && (i <? x + o))%bool = true <-> P.
Proof. intros H. rewrite H, Bool.andb_true_iff, Nat.leb_le, Nat.ltb_lt. reflexivity. Qed.
Lemma cols_gen real : flat = false -> cols_ok w k L T kb M b basis W nns real.
Proof.
  intros Hfl rm Hlen HD Heq. unfold column. rewrite Sm, Hfl.
  set (row i := fst (nth i rm (0%N, C0))). set (me i := snd (nth i rm (0%N, C0))).
  assert (Hrow : forall i, i < Ns -> is_state k L (row i)) by (intros i Hi; apply M_st, HD, Hi).
  assert (Pz : pz_ok k b) by (destruct b; try discriminate Sm; exact I).
  assert (Gx : exists g : nat -> list (C * nat * nat), forall x, x < Ns -> col_semi w k L T kb b basis rm x = Some (g x) /\
    forall j i, j < Ns -> i < Ns -> coo_matrix (g x) j i = if (first x && (st x =? st i)%N)%bool then (me i * Ee M basis W nns i j (row i))%C else C0).
  { exists (fun i => match col_semi w k L T kb b basis rm i with Some l => l | None => [] end). intros x Hx. unfold col_semi. destruct (first x) eqn:Fx; unfold first in Fx.
    2:{ apply Bool.negb_false_iff in Fx. rewrite Fx. split; [reflexivity|]. intros j i _ _. reflexivity. }
    apply Bool.negb_true_iff in Fx. rewrite Fx. fold (row x).
    destruct (ref_block w k L T b OK (row x) (Hrow x Hx) Pz) as (r & sign & Rc & Er & Hf & Hl & (Hb & Hg) & _ & _). rewrite Er. split; [reflexivity|]. intros j i Hj Hi. cbn [andb].
    pose proof (run_of x Hx) as Rx. rewrite Fx in Rx. set (o := if ((x <? Ns - 1) && (st x =? st (x + 1))%N)%bool then 2 else 1).
    assert (Rx' : (o = 1 \/ o = 2) /\ x + o <= Ns /\ forall j, j < Ns -> (st j = st x <-> x <= j < x + o)) by (unfold o; destruct ((x <? Ns - 1) && (st x =? st (x + 1))%N)%bool; exact Rx). clear Rx. destruct Rx' as (_ & _ & Rx).
    assert (Eqx : st x = st i -> row i = row x /\ me i = me x) by (intros E; unfold row, me; rewrite (Heq i x Hi Hx (eq_sym E)); auto).
    pose proof (locate_ok basis x r (proj2 Harr) Hx) as Hloc. destruct (locate basis x r) as [ss|].
    2:{ unfold coo_matrix. rewrite Csum_nil. destruct (N.eqb_spec (st x) (st i)) as [E|]; [|reflexivity]. destruct (Eqx E) as [-> _]. rewrite (Ee_semi i j (row x) r sign Rc Hi Hj (Hrow x Hx) Er). destruct (N.eqb_spec (st j) r) as [E'|]; [destruct (Hloc j Hj E')|ring]. }
    destruct Hloc as [Hss Ess]. destruct ((ss =? x) && forallb (fun x => x =? 0) Rc)%bool eqn:Dg.
    - apply Bool.andb_true_iff in Dg. destruct Dg as [D1 D2]. apply Nat.eqb_eq in D1. subst ss. rewrite coo_seq.
      assert (Er0 : r = row x).
      { assert (Z0 : hd_of b (counts b Rc) = h0 /\ Z.of_nat (shifts b Rc) = 0%Z).
        { rewrite forallb_forall in D2. assert (Nz : forall m, nth m Rc 0 = 0) by (intros m; destruct (nth_in_or_default m Rc 0) as [Hin|E]; [apply Nat.eqb_eq, D2, Hin|exact E]).
          unfold counts, shifts. rewrite (Et w k L T b OK Sm). rewrite Nz. split; [|reflexivity]. clear - Nz Sm. unfold hd_of, h0. destruct b; try discriminate Sm; rewrite ?nth_tl, ?Nz; reflexivity. }
        destruct Z0 as [Z1 Z2]. rewrite Z1, Z2 in Hb. destruct Hb as (Ds & _ & _ & Eb). pose proof (block_grp w k L T b OK) as GR. rewrite (e0' _ _ _ _ _ _ _ GR) in Eb. cbn [sg] in Eb. rewrite (g_X0 _ _ _ _ _ _ _ GR _ Ds) in Eb. exact Eb. }
      destruct (N.eqb_spec (st x) (st i)) as [E|Ne].
      + rewrite <- Bool.andb_assoc. rewrite (proj2 (in_run x o i _ (Rx i Hi)) (eq_sym E)), Bool.andb_true_r. destruct (Eqx E) as [Er' Em]. rewrite Er'. destruct (Nat.eqb_spec j i) as [->|Hne].
        * rewrite (Ee_semi i i (row x) r sign Rc Hi Hi (Hrow x Hx) Er). rewrite <- E, Ess, N.eqb_refl. reflexivity.
        * destruct (N.eq_dec (st j) (st i)) as [Eji|Nji].
          -- assert (Z0 : Ee M basis W nns i j (row x) = C0); [|rewrite Z0; ring]. unfold Ee. assert (Ej : row x = st j) by congruence. rewrite Ej, (cross i j Hi Hj (not_eq_sym Hne) (eq_sym Eji)). ring.
          -- rewrite (Ee_semi i j (row x) r sign Rc Hi Hj (Hrow x Hx) Er). destruct (N.eqb_spec (st j) r) as [E'|]; [|ring]. destruct Nji. congruence.
      + rewrite <- Bool.andb_assoc. destruct ((x <=? i) && (i <? x + o))%bool eqn:Q; [|rewrite Bool.andb_false_r; reflexivity]. apply (in_run x o i _ (Rx i Hi)) in Q. destruct (Ne (eq_sym Q)).
    - pose proof (run_of ss Hss) as Ry. destruct (if ((0 <? ss) && (st ss =? st (ss - 1))%N)%bool then (ss - 1, 2) else if ((ss <? Ns - 1) && (st ss =? st (ss + 1))%N)%bool then (ss, 2) else (ss, 1)) as [y p]. destruct Ry as (_ & _ & Ry).
      rewrite (coo_block (fun c d => (RtoC (IZR sign) * snd (nth c rm (0%N, C0)) * RtoC (me_semi L T kb b Rc (en c) (en d)))%C)). rewrite <- Bool.andb_assoc.
      destruct (N.eqb_spec (st x) (st i)) as [E|Ne].
      + rewrite (proj2 (in_run x o i _ (Rx i Hi)) (eq_sym E)). cbn [andb]. destruct (Eqx E) as [Er' Em]. rewrite Er', (Ee_semi i j (row x) r sign Rc Hi Hj (Hrow x Hx) Er). destruct (N.eqb_spec (st j) r) as [E'|N'].
        * rewrite (proj2 (in_run y p j _ (Ry j Hj))) by congruence. fold (me i). ring.
        * destruct ((y <=? j) && (j <? y + p))%bool eqn:Q; [|ring]. apply (in_run y p j _ (Ry j Hj)) in Q. destruct N'. congruence.
      + destruct ((x <=? i) && (i <? x + o))%bool eqn:Q; [|reflexivity]. apply (in_run x o i _ (Rx i Hi)) in Q. destruct (Ne (eq_sym Q)). }
  destruct Gx as [g Hg]. exists (map g (seq 0 Ns)). split; [apply all_some_map; intros i Hi; apply Hg; apply in_seq in Hi; lia|]. intros i j Hi Hj. rewrite coo_concat, Csum_map. destruct (first_ex i Hi) as (x & Hx & Fx & Ex).
  rewrite (Csum_single _ _ x (seq_NoDup Ns 0)); [rewrite (proj2 (Hg x Hx) j i Hj Hi), Fx, Ex, N.eqb_refl; reflexivity|apply in_seq; lia|]. intros y Hy Hne. apply in_seq in Hy. rewrite (proj2 (Hg y ltac:(lia)) j i Hj Hi).
  destruct (first y) eqn:Fy; [|reflexivity]. destruct (N.eqb_spec (st y) (st i)) as [E|]; [|reflexivity]. destruct Hne. apply first_inj; try assumption; [lia|congruence].
Qed.
Lemma cols_semi real : cols_ok w k L T kb M b basis W nns real.
Proof. destruct flat eqn:E; [apply cols_flat, E|apply cols_gen, E]. Qed.
Lemma semi_nn i : i < Ns -> (0 < nns i)%R /\ dot (W i (st i)) (W i (st i)) = RtoC (nns i * nns i).
Proof.
  intros Hi. destruct (ent_semi i Hi) as (_ & _ & Pi & _ & Ni & _). pose proof (kap0_pos w k L T kb b OK Sm) as KP. assert (P : (0 < kap0 * nrms (en i))%R) by (apply Rmult_lt_0_compat; assumption). split; [apply sqrt_lt_R0, P|].
  unfold Wb. rewrite (cf_sgn (e_N (en i))), Ni. unfold nns. rewrite sqrt_sqrt by lra. reflexivity.
Qed.
Lemma semi_orth i j : i < Ns -> j < Ns -> i <> j -> dot (W j (st j)) (W i (st i)) = C0.
Proof.
  intros Hi Hj Hne. destruct (N.eq_dec (st i) (st j)) as [E|E]; [rewrite E at 1; apply cross; assumption|].
  pose proof (block_grp w k L T b OK) as GR. unfold Wb. apply (dot_orbits _ _ _ _ _ _ _ GR); [apply (cf_per w k L T kb b OK)|apply M_st, st_ok, Hj|apply M_st, st_ok, Hi|].
  intros x g Hg Ex. destruct (ent_semi i Hi) as (_ & Xi & _). destruct (ent_semi j Hj) as (_ & Xj & _). pose proof (Xi x g Hg) as L1. rewrite Ex in L1.
  pose proof (inv_l _ _ _ _ _ _ _ GR x g (st i) Hg (proj2 (M_st k L _) (st_ok i Hi))) as Ei. rewrite Ex in Ei. pose proof (Xj (- sg (eps g) x)%Z g Hg) as L2. rewrite Ei in L2. apply E. lia.
Qed.
End S.
