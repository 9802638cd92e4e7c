(* Blocks without semi-momentum: the matrix elements. *)
From Verif Require Import AuxN SpecC SpecOps SpecMaps SpecFermi SpecChain M_bits1d SpecChain1d SpecCheck1d SpecBlock1d M_check1d
  P_maps P_square P_bits1d P_bits1d4 P_bits1d5 P_check1d P_check1d2 P_check1d3 P_check1d4 P_check1d5 P_block1d P_block1d2 P_block1d3 P_block1d4
  M_ops M_symop P_symop P_photon M_op1d P_op1d P_op1d2 P_op1d3 P_op1d4 P_op1d5 P_op1d6 C39_checks C39_reference C39_translations.
From Coq Require Import Permutation.
Local Open Scope nat_scope.

(* a strictly descending arrangement of all states *)
Lemma full_desc : forall m l, Permutation (all_states m) l -> descends l -> forall j, j < m -> nth j l 0%N = N.of_nat (m - j - 1).
Proof.
  induction m as [|m IH]; intros l Hp Hd j Hj; [lia|].
  assert (Hl : length l = S m) by (rewrite <- (Permutation_length Hp); unfold all_states; rewrite map_length, seq_length; reflexivity).
  destruct l as [|x l]; [discriminate|]. 
  assert (Hx : (x < N.of_nat (S m))%N) by (apply al_in, (Permutation_in _ (Permutation_sym Hp)); left; reflexivity).
  assert (Hm : In (N.of_nat m) (x :: l)) by (apply (Permutation_in _ Hp), al_in; lia).
  assert (Ex : x = N.of_nat m).
  { apply (In_nth _ _ 0%N) in Hm. destruct Hm as (i & Hi & Ei). pose proof (desc_le (x :: l) Hd 0 i ltac:(lia)) as Hle. rewrite Ei in Hle. cbn [nth] in Hle. lia. }
  subst x. destruct j as [|j]; [cbn [nth]; f_equal; lia|]. cbn [nth]. rewrite (IH l); [f_equal; lia| |destruct l; [exact I|apply Hd]|lia].
  assert (Es : all_states (S m) = all_states m ++ [N.of_nat m]) by (unfold all_states; rewrite seq_S, map_app; reflexivity). rewrite Es in Hp.
  apply (Permutation_cons_inv (a := N.of_nat m)). rewrite <- Hp. apply Permutation_cons_append.
Qed.

Section S.
Variables (w : btype) (k : kind) (L T kb : nat) (b : block).
Hypothesis OK : block_ok w k L T b.
Hypothesis Pz : pz_ok k b.
Hypothesis Sm : semi b = false.
Variables (states : list N) (es basis : list entry).
Hypothesis Hst : forall s, In s states -> is_state k L s.
Hypothesis Hnd : NoDup states.
Hypothesis Hfull : b = BFull -> Permutation (all_states (Mst k L)) states.
Hypothesis Hcol : collect w k L T kb b states = Some es.
Hypothesis Harr : arranged es basis.
Notation M := (Mst k L).
Notation two := (two_of b).
Notation tf := (translates b).
Notation n := (n_of L T b).
Notation Hs := (heads b).
Notation To := (T_of T b).
Notation X := (X w k L To two n).
Notation G := (G w k L To two n).
Notation eps := (eps two tf).
Notation th := (th_of L T kb b).
Notation V := (V n Hs (chi b) X G).
Notation cab := (cab th).
Notation nrm := (nrm L T kb b).
Notation kap := (kap L T b).
Notation Ns := (length basis).
Notation en i := (nth i basis entry0).
Notation st i := (e_s (en i)).
Definition Wb (i : nat) (s : N) : N -> C := V (cf L T kb b (e_N (en i))) s.
Definition nnb (i : nat) : R := sqrt (kap * nrm (en i)).
Lemma cf_ab sigma : cf L T kb b sigma = cab. Proof. unfold cf. rewrite Sm. reflexivity. Qed.
Lemma ent_ok i : i < Ns -> is_state k L (st i) /\ (forall x g, In g Hs -> (X x g (st i) <= st i)%N) /\ dotv M (V cab (st i)) (V cab (st i)) = RtoC (kap * nrm (en i)) /\ (0 < nrm (en i))%R.
Proof.
  intros Hi. assert (He : In (en i) es) by (apply (Permutation_in _ (Permutation_sym (proj1 Harr))), nth_In, Hi).
  destruct (collect_in w k L T kb b states es Hcol _ He) as (s & l & Hs & Ek & Hl). pose proof (Hst s Hs) as Hss.
  destruct (keep_ab w k L T kb b OK Sm s Hss) as (l' & Ek' & Ko). assert (l' = l) by congruence. subst l'. destruct (Ko _ Hl) as (_ & Es & K1 & K2 & K3). rewrite Es. auto.
Qed.
Lemma st_inj i j : i < Ns -> j < Ns -> st i = st j -> i = j.
Proof.
  assert (Nd : NoDup (map e_s basis)).
  { apply (Permutation_NoDup (Permutation_map e_s (proj1 Harr))). apply (collect_nodup w k L T kb b states es); [|exact Hnd|exact Hcol]. intros s l Hs Ek.
    destruct (keep_ab w k L T kb b OK Sm s (Hst s Hs)) as (l' & Ek' & Ko). assert (l' = l) by congruence. subst l'. destruct l as [|e l]; [left; reflexivity|right]. destruct (Ko e (or_introl eq_refl)) as (E & Es & _). exists e. auto. }
  intros Hi Hj E. apply (proj1 (NoDup_nth (map e_s basis) 0%N) Nd); [rewrite map_length; exact Hi|rewrite map_length; exact Hj|]. change 0%N with (e_s entry0). rewrite !map_nth. exact E.
Qed.
Lemma Ee_val i j s' r sign Rc : i < Ns -> j < Ns -> is_state k L s' -> ref_of w k L T b s' = Some (r, sign, Rc) ->
  Ee M basis Wb nnb i j s' = if (st j =? r)%N then (RtoC (IZR sign) * ch (chi b) (hd_of b (counts b Rc)) * cab (Z.of_nat (shifts b Rc)) * RtoC (sqrt (nrm (en j) / nrm (en i))))%C else C0.
Proof.
  intros Hi Hj Hs' Er. destruct (ref_block w k L T b OK s' Hs' Pz) as (r' & sign' & Rc' & Er' & _ & _ & (Hb & Hg) & _ & Mx). rewrite Er in Er'. injection Er' as <- <- <-.
  pose proof (block_grp w k L T b OK) as GR. destruct (ent_ok i Hi) as (Si & Xi & Ni & Pi). destruct (ent_ok j Hj) as (Sj & Xj & Nj & Pj). pose proof (kap_pos w k L T b OK) as KP.
  unfold Ee, Wb. rewrite !cf_ab. destruct (N.eqb_spec (st j) r) as [Ej|Ej].
  - assert (EV : dotv M (V cab (st j)) (V cab s') = (RtoC (IZR sign) * ch (chi b) (hd_of b (counts b Rc)) * cab (Z.of_nat (shifts b Rc)) * RtoC (kap * nrm (en j)))%C).
    { rewrite <- Nj. unfold dotv. rewrite <- Csum_mul_l. apply Csum_ext. intros t _.
      assert (Eh : eps (hd_of b (counts b Rc)) = false) by (apply (eps_ab w k L T b OK); [exact Sm|apply Hb]).
      rewrite (V_back_ab n M th (Hth w k L T kb b OK) Hs eps (chi b) X G GR (Z.of_nat (shifts b Rc)) (hd_of b (counts b Rc)) s' r t Eh Hb), Hg, Ej. ring. }
    rewrite EV, <- !Cmul_assoc. do 3 f_equal. rewrite <- RtoC_mul. f_equal. unfold nnb.
    assert (P1 : (0 < kap * nrm (en i))%R) by (apply Rmult_lt_0_compat; assumption). assert (P2 : (0 < kap * nrm (en j))%R) by (apply Rmult_lt_0_compat; assumption).
    replace (nrm (en j) / nrm (en i))%R with ((kap * nrm (en j)) / (kap * nrm (en i)))%R by (field; split; lra). rewrite sqrt_div_alt by exact P1.
    pose proof (sqrt_lt_R0 _ P1) as Q1. pose proof (sqrt_lt_R0 _ P2) as Q2. rewrite <- (sqrt_sqrt (kap * nrm (en j))) at 1 by lra. field. split; lra.
  - rewrite (dot_orbits _ _ _ _ _ _ _ GR cab cab (st j) s' (cab_per n th (Hth w k L T kb b OK)) (proj2 (M_st k L _) Sj) (proj2 (M_st k L _) Hs')); [ring|].
    intros x g Hg' Ex. apply Ej. pose proof (Mx x g Hg') as L1. rewrite Ex in L1. destruct Hb as (Ds & Dr & Hh & Er').
    (* s' = X(..) g (st j), hence r is in the orbit of st j *)
    pose proof (inv_l _ _ _ _ _ _ _ GR x g s' Hg' Ds) as Ei. rewrite Ex in Ei. rewrite <- Ei in Er'. rewrite (g_Xm _ _ _ _ _ _ _ GR) in Er' by (assumption || apply M_st; assumption).
    pose proof (Xj (- sg (eps g) x + sg (eps g) (sg (eps (hd_of b (counts b Rc))) (Z.of_nat (shifts b Rc))))%Z (hx g (hd_of b (counts b Rc))) (heads_cl w k L T b OK _ _ Hg' Hh)) as L2. rewrite <- Er' in L2. lia.
Qed.
Lemma all_cols (f : nat -> option (list (C * nat * nat))) g : (forall i, i < Ns -> f i = Some (g i)) -> forall val : nat -> nat -> C, (forall i i' j, i < Ns -> j < Ns -> i' < Ns -> coo_matrix (g i) j i' = if i =? i' then val i j else C0) ->
  exists cs, all_some (map f (seq 0 Ns)) = Some cs /\ forall i j, i < Ns -> j < Ns -> coo_matrix (concat cs) j i = val i j.
Proof.
  intros Hf val Hv. exists (map g (seq 0 Ns)). split; [apply all_some_map; intros i Hi; apply Hf; apply in_seq in Hi; lia|]. intros i j Hi Hj. rewrite coo_concat, Csum_map.
  rewrite (Csum_single _ _ i (seq_NoDup Ns 0)); [rewrite Hv, Nat.eqb_refl by assumption; reflexivity|apply in_seq; lia|]. intros x Hx Hne. apply in_seq in Hx. rewrite Hv by lia. destruct (Nat.eqb_spec x i); [contradiction|reflexivity].
Qed.
Lemma cols_ab real : (real && needs_complex L T kb b)%bool = false -> cols_ok w k L T kb M b basis Wb nnb real.
Proof.
  intros Hr rm Hlen HD _. unfold column. rewrite Sm.
  set (row i := fst (nth i rm (0%N, C0))). set (me i := snd (nth i rm (0%N, C0))).
  assert (Hrow : forall i, i < Ns -> is_state k L (row i)) by (intros i Hi; apply M_st, HD, Hi).
  assert (Ref : forall i, i < Ns -> exists r sign Rc loc, ref_of w k L T b (row i) = Some (r, sign, Rc) /\
     match loc with Some j => j < Ns /\ st j = r | None => forall j, j < Ns -> st j <> r end /\
     col_plain w k L T kb real b basis rm i = Some (match loc with Some j => [((me i * (RtoC (IZR sign) * ch (chi b) (hd_of b (counts b Rc)) * cab (Z.of_nat (shifts b Rc)) * RtoC (sqrt (nrm (en j) / nrm (en i)))))%C, j, i)] | None => [] end)).
  { intros i Hi. destruct (ref_block w k L T b OK (row i) (Hrow i Hi) Pz) as (r & sign & Rc & Er & Hf & Hl & _). exists r, sign, Rc.
    pose proof (locate_ok basis i r (proj2 Harr) Hi) as Hloc.
    assert (FO : match b with BFull | BNo => sign = 1%Z | _ => True end -> forall j, factor L T kb real b sign Rc (en i) (en j) = (RtoC (IZR sign) * ch (chi b) (hd_of b (counts b Rc)) * cab (Z.of_nat (shifts b Rc)) * RtoC (sqrt (nrm (en j) / nrm (en i))))%C).
    { intros H1 j. apply (factor_ok w k L T kb b OK Pz Sm real sign Rc (en i) (en j) Hr Hl Hf H1). }
    assert (D : b = BFull \/ b = BNo \/ (match b with BFull | BNo => False | _ => True end)) by (destruct b; auto).
    destruct D as [Eb|[Eb|Eb]].
    - exists (Some (Ns - N.to_nat (row i) - 1)).
      assert (E' : r = row i /\ sign = 1%Z) by (rewrite Eb in Er; cbn [ref_of] in Er; injection Er; auto). destruct E' as [-> ->]. split; [exact Er|].
      assert (Nst : Ns = M).
      { rewrite <- (Permutation_length (proj1 Harr)). assert (Ele : forall l es', collect w k L T kb BFull l = Some es' -> length es' = length l).
        { intros l es' Hc. unfold collect in Hc. rewrite (all_some_map _ (fun s => [mk s 1 0])) in Hc by reflexivity. injection Hc as <-. clear. induction l; [reflexivity|cbn [map concat app length]; congruence]. }
        rewrite Eb in Hcol. rewrite (Ele _ _ Hcol), <- (Permutation_length (Hfull Eb)). unfold all_states. rewrite map_length, seq_length. reflexivity. }
      assert (Pst : Permutation (all_states M) (map e_s basis)).
      { rewrite (Hfull Eb). rewrite <- (Permutation_map e_s (proj1 Harr)). rewrite Eb in Hcol. assert (Ele : forall l es', collect w k L T kb BFull l = Some es' -> map e_s es' = l).
        { intros l es' Hc. unfold collect in Hc. rewrite (all_some_map _ (fun s => [mk s 1 0])) in Hc by reflexivity. injection Hc as <-. clear. induction l; [reflexivity|cbn [map concat app e_s]; congruence]. }
        rewrite (Ele _ _ Hcol). reflexivity. }
      pose proof (HD i Hi) as HDi. fold (row i) in HDi. split.
      + split; [lia|]. pose proof (full_desc M (map e_s basis) Pst (proj2 Harr) (Ns - N.to_nat (row i) - 1) ltac:(lia)) as F. change 0%N with (e_s entry0) in F. rewrite map_nth in F. rewrite F. lia.
      + pose proof (fun j => FO ltac:(rewrite Eb; reflexivity) j) as FO'. rewrite <- FO'. unfold col_plain, factor. rewrite Eb. fold (row i) (me i). do 4 f_equal. ring.
    - exists (locate basis i r). assert (E' : r = row i /\ sign = 1%Z) by (rewrite Eb in Er; cbn [ref_of] in Er; injection Er; auto). destruct E' as [-> ->]. split; [exact Er|]. split; [exact Hloc|].
      pose proof (fun j => FO ltac:(rewrite Eb; reflexivity) j) as FO'. destruct (locate basis i (row i)) as [j|] eqn:El; [rewrite <- (FO' j)|]; unfold col_plain, factor; rewrite Eb; fold (row i) (me i); rewrite El; [do 4 f_equal; ring|reflexivity].
    - exists (locate basis i r). split; [exact Er|]. split; [exact Hloc|]. pose proof (fun j => FO ltac:(destruct b; [contradiction|contradiction|..]; exact I) j) as FO'.
      transitivity (match ref_of w k L T b (row i) with None => None | Some (s, sign, Rc) => Some (match locate basis i s with Some j => [((me i * factor L T kb real b sign Rc (en i) (en j))%C, j, i)] | None => [] end) end).
      + unfold col_plain. fold (row i) (me i). destruct b; try contradiction; reflexivity.
      + rewrite Er. f_equal. destruct (locate basis i r) as [j|]; [rewrite FO'; reflexivity|reflexivity]. }
  assert (Gx : exists g : nat -> list (C * nat * nat), forall i, i < Ns -> col_plain w k L T kb real b basis rm i = Some (g i) /\ forall j i', j < Ns -> i' < Ns -> coo_matrix (g i) j i' = if i =? i' then (me i * Ee M basis Wb nnb i j (row i))%C else C0).
  { exists (fun i => match col_plain w k L T kb real b basis rm i with Some l => l | None => [] end). intros i Hi. destruct (Ref i Hi) as (r & sign & Rc & loc & Er & Hloc & Ec). rewrite Ec. split; [reflexivity|]. intros j i' Hj Hi'.
    rewrite (Ee_val i j (row i) r sign Rc Hi Hj (Hrow i Hi) Er). destruct loc as [j0|].
    - destruct Hloc as [Hj0 E0]. unfold coo_matrix. rewrite Csum_cons, Csum_nil. cbn [fst snd]. destruct (Nat.eqb_spec i i') as [<-|Hne]; [|rewrite Bool.andb_false_r; ring]. rewrite Bool.andb_true_r.
      destruct (Nat.eqb_spec j0 j) as [<-|Hne]; [rewrite E0, N.eqb_refl; ring|]. destruct (N.eqb_spec (st j) r) as [E'|]; [destruct (Hne (st_inj j0 j Hj0 Hj (eq_trans E0 (eq_sym E'))))|ring].
    - unfold coo_matrix. rewrite Csum_nil. destruct (N.eqb_spec (st j) r) as [E'|]; [destruct (Hloc j Hj E')|]. destruct (i =? i'); [ring|reflexivity]. }
  destruct Gx as [g Hg]. apply (all_cols _ g); [intros i Hi; apply Hg, Hi|]. intros i i' j Hi Hj Hi'. rewrite (proj2 (Hg i Hi) j i' Hj Hi'). reflexivity.
Qed.
End S.
