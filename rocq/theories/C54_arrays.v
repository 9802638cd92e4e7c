(* C54: the arrays that the constructors of the one-dimensional bases allocate are long enough. *)
From Verif Require Import AuxN SpecDigits SpecC SpecOps SpecChain M_bits1d SpecChain1d SpecCheck1d SpecBlock1d M_check1d
  P_boson P_bits1d P_bits1d5 P_check1d P_check1d3 P_block1d4 M_ops M_symop M_op1d P_op1d P_op1d2 P_op1d4 P_op1d5 P_op1d6 P_semi1d2 P_semi1d3 P_period P_hdim
  M_hdim M_alloc1d P_alloc1d P_alloc1d2 P_alloc1d3 P_alloc1d4 P_alloc1d5 C39_checks C52_sectors SpecAlloc1d.
From Flocq Require Import Core.
From Coq Require Import Reals Lra.
Local Open Scope nat_scope.

Lemma float_nonneg x : (0 <= x)%R -> (0 <= float64 x)%R.
Proof. intros H. rewrite <- float_0. unfold float64. apply round_le; [apply FLT_exp_valid; reflexivity|apply valid_rnd_N|exact H]. Qed.
Lemma estimate_nonneg Ns n : (0 <= Ns)%Z -> 1 <= n -> (0 <= estimate Ns n)%Z.
Proof.
  intros HN Hn. assert (N1 : (1 <= INR n)%R) by (apply (le_INR 1), Hn). assert (N0 : (0 <= / INR n)%R) by (apply Rlt_le, Rinv_0_lt_compat; lra). unfold estimate.
  assert (P : (0 <= float64 (float64 (float64 (float64 (1 + float64 (1 / INR n)) * float64 (IZR Ns)) / INR n) + INR n))%R).
  { apply float_nonneg. apply Rplus_le_le_0_compat; [|lra]. apply float_nonneg. apply Rmult_le_pos; [|exact N0]. apply float_nonneg. apply Rmult_le_pos; apply float_nonneg; [|apply IZR_le, HN]. apply Rplus_le_le_0_compat; [lra|]. apply float_nonneg. unfold Rdiv. rewrite Rmult_1_l. exact N0. }
  rewrite Ztrunc_floor by exact P. apply Zfloor_lub. exact P.
Qed.
Lemma fold_plus {A} (f : A -> Z) l a : fold_left (fun x y => (x + f y)%Z) l a = (a + fold_left (fun x y => (x + f y)%Z) l 0)%Z.
Proof. revert a. induction l as [|x l IH]; intros a; cbn [fold_left]; [lia|]. rewrite IH, (IH (0 + f x)%Z). lia. Qed.
Lemma levels_2 w k L : states_fit w k L -> (2 <= levels k)%N. Proof. exact (HB2 w k L). Qed.

(* the states of the chain, or those of each particle number of the list in turn; a number given twice is visited twice *)
Definition visited (k : kind) (L : nat) (np : option (list (nat * nat))) (states : list N) : Prop :=
  match np with
  | None => NoDup states /\ forall s, In s states <-> is_state k L s
  | Some l => exists parts, Forall2 (fun m part => NoDup part /\ forall s, In s part <-> in_number k L m s) l parts /\ states = concat parts
  end.
Lemma visited_st k L np states : visited k L np states -> forall s, In s states -> is_state k L s.
Proof.
  unfold visited. destruct np as [l|]; [|intros [_ H] s; apply H]. intros (parts & F & ->) s Hs. apply in_concat in Hs. destruct Hs as (p & Hp & Hs). clear - F Hp Hs. induction F as [|m q l ps [_ Hq] F IH]; [destruct Hp|]. destruct Hp as [<-|Hp]; [apply Hq in Hs; apply Hs|apply IH, Hp].
Qed.
Lemma visited_count k L np states : 1 <= L -> (2 <= levels k)%N -> visited k L np states -> (Z.of_nat (length states) <= number_of_states k L np)%Z.
Proof.
  intros HL HB. unfold visited, number_of_states. destruct np as [l|].
  - intros (parts & F & ->). induction F as [|m q l ps [Nq Hq] F IH]; [cbn; lia|]. cbn [concat fold_left]. rewrite app_length, fold_plus. pose proof (sector_count k L m q HL HB Nq (fun s H => proj1 (Hq s) H)). lia.
  - intros [ND H]. assert (Le : length states <= N.to_nat (levels k ^ N.of_nat (sites k L))).
    { rewrite <- (seq_length (N.to_nat (levels k ^ N.of_nat (sites k L))) 0), <- (map_length N.of_nat). apply NoDup_incl_length; [exact ND|]. intros s Hs. apply H in Hs. apply in_map_iff. exists (N.to_nat s). split; [apply N2Nat.id|]. apply in_seq. lia. }
    lia.
Qed.

(* without momentum: every list of particle numbers, repeated ones included *)
Theorem C54_arrays_fit : forall w k L T kb b np states es,
  block_ok w k L T b -> translates b = false -> visited k L np states -> collect w k L T kb b states = Some es ->
  (Z.of_nat (length es) <= get_Ns k L T np false)%Z.
Proof.
  intros w k L T kb b np states es OK Tr Vi Hcol. pose proof (visited_st k L np states Vi) as Hst. pose proof (visited_count k L np states (L_pos w k L T b OK) (levels_2 w k L (SFb w k L T b OK)) Vi) as Hc. cbn [get_Ns]. eapply Z.le_trans; [|exact Hc]. apply inj_le.
  assert (Sm : semi b = false) by (destruct b; try reflexivity; discriminate Tr). clear Vi Hc. revert es Hcol. unfold collect. induction states as [|s states IH]; intros es.
  - cbn. intros E. apply (f_equal (fun o => match o with Some x => length x | None => 0 end)) in E. cbn in E. rewrite <- E. lia.
  - cbn [map all_some]. destruct (keep_ab w k L T kb b OK Sm s (Hst s (or_introl eq_refl))) as (l & -> & K). destruct (all_some (map (keep w k L T kb b) states)) as [ls|]; [|discriminate]. cbn [option_map concat]. intros E. apply (f_equal (fun o => match o with Some x => length x | None => 0 end)) in E. cbv beta iota in E. rewrite <- E, app_length.
    specialize (IH (fun t Ht => Hst t (or_intror Ht)) (concat ls) eq_refl). assert (length l <= 1) by (destruct l as [|e l]; [cbn; lia|destruct (K e (or_introl eq_refl)) as [-> _]; cbn; lia]). cbn [length]. lia.
Qed.
Print Assumptions C54_arrays_fit.

(* With momentum: no particle number, or one.  For the product of reflection and inversion the number has to be half filling,
   which the constructors check.  The sizes are below 2^46 so that the double precision formula keeps its fraction.
   Missing: lists of several particle numbers; for them the claim is false when numbers are repeated
   (C54_repeated_numbers_refuted) and when the product of reflection and inversion is used (C54_two_numbers_refuted) *)
Theorem C54_momentum_arrays_fit_partial : forall w k L T kb b (np : option (nat * nat)) states es,
  block_ok w k L T b -> translates b = true ->
  visited k L (option_map (fun m => [m]) np) states ->
  (forall q m, b = BT_PZ q -> np = Some m -> half_filled k L m) ->
  (number_of_states k L (option_map (fun m => [m]) np) <= 2 ^ 46)%Z -> (Z.of_nat L <= 2 ^ 46)%Z ->
  collect w k L T kb b states = Some es ->
  (Z.of_nat (length es) <= get_Ns k L T (option_map (fun m => [m]) np) true)%Z.
Proof.
  intros w k L T kb b np states es OK Tr Vi Hpz BN BL Hcol. pose proof (L_pos w k L T b OK) as HL. pose proof (visited_count k L _ states HL (levels_2 w k L (SFb w k L T b OK)) Vi) as Hc.
  destruct (cells_n w k L T b OK Tr) as (EL & E1 & E2 & _). assert (En : n_of L T b = L / T) by (unfold n_of; rewrite Tr; reflexivity). rewrite En in EL, E1. cbn [get_Ns].
  assert (Vs : NoDup states /\ forall s, In s states <-> in_space k L np s).
  { destruct np as [m|]; cbn [option_map visited in_space] in *; [|exact Vi]. destruct Vi as (parts & F & ->). inversion F as [|? q ? ps [Nq Hq] F' E E']. subst. inversion F'. subst. cbn [concat]. rewrite app_nil_r. split; assumption. }
  destruct Vs as [ND Hst]. pose proof (fit_real w k L T kb b OK Tr np states es ND Hst Hpz Hcol) as FR. rewrite En in FR. set (n := L / T) in *. set (Ns := number_of_states k L _) in *. clearbody Ns.
  assert (N1 : (1 <= INR n)%R) by (apply (le_INR 1), E1). assert (N0 : (0 < / INR n)%R) by (apply Rinv_0_lt_compat; lra).
  destruct states as [|s0 states'] eqn:Es.
  - assert (E : es = []) by (apply (f_equal (fun o => match o with Some x => x | None => [] end)) in Hcol; cbn in Hcol; congruence). rewrite E. cbn [length]. apply (estimate_nonneg Ns n); [cbn [length] in Hc; lia|exact E1].
  - rewrite <- Es in *. assert (D1 : 1 <= length states) by (rewrite Es; cbn; lia). apply estimate_ge; [exact E1| |lia| |].
    + rewrite INR_IZR_INZ. apply IZR_le. assert (n <= L) by nia. change 70368744177664%Z with (2 ^ 46)%Z. lia.
    + apply IZR_le. change 70368744177664%Z with (2 ^ 46)%Z. exact BN.
    + eapply Rle_trans; [exact FR|]. unfold exact. apply Rplus_le_compat_r. unfold Rdiv. apply Rmult_le_compat_r; [lra|]. apply Rmult_le_compat_l; [lra|]. rewrite INR_IZR_INZ. apply IZR_le. exact Hc.
Qed.
Print Assumptions C54_momentum_arrays_fit_partial.

(* ---- counts ---- *)
Lemma part_hcp L m : NoDup (bsector 2 L (N.of_nat m)) /\ forall s, In s (bsector 2 L (N.of_nat m)) <-> in_number (Hcp false) L (m, 0) s.
Proof.
  split; [apply sorted_NoDup, (proj1 (bsector_ok 2 (N.le_refl 2) L (N.of_nat m)))|]. intros s. rewrite in_bsector by lia. unfold in_number. cbn [fst]. rewrite number_digits. reflexivity.
Qed.
Definition entries_TP (v : option (list Z)) : nat := match v with Some [r; mp; _] => if (0 <? r)%Z then if (mp =? -1)%Z then 2 else 1 else 0 | _ => 0 end.
Lemma keep_TP_count L T kb check p s : flat L T kb = false -> (exists r mp sg, check kb T s = Some [r; mp; sg]) ->
  exists l, keep_TP L T kb check p s = Some l /\ length l = entries_TP (check kb T s).
Proof.
  intros Fl (r & mp & sg & E). unfold keep_TP. rewrite E. cbn [entries_TP]. eexists. split; [reflexivity|]. destruct (0 <? r)%Z; [|reflexivity]. destruct (mp =? -1)%Z; cbn [negb]; rewrite map_length; unfold sigmas; rewrite Fl; [reflexivity|].
  cbn [filter]. set (x := (IZR sg * IZR p * cosm L T kb mp)%R). unfold kept_sigma. cbn [Z.eqb Pos.eqb andb negb]. unfold Rzero. repeat destruct (Req_EM_T _ _); cbn; try reflexivity; exfalso; lra.
Qed.
Definition three (v : option (list Z)) : bool := match v with Some [_; _; _] => true | _ => false end.
Lemma collect_TP w k L T kb q states : flat L T kb = false -> forallb (fun s => three (check_T_PZ w k L kb T s)) states = true ->
  exists es, collect w k L T kb (BT_PZ q) states = Some es /\ length es = list_sum (map (fun s => entries_TP (check_T_PZ w k L kb T s)) states).
Proof.
  intros Fl. unfold collect. induction states as [|s states IH]; [exists []; split; reflexivity|]. cbn [forallb]. intros H. apply andb_prop in H. destruct H as [H1 H2]. destruct (IH H2) as (es & E & Le). cbn [map all_some].
  destruct (keep_TP_count L T kb (check_T_PZ w k L) q s Fl) as (l & El & Ll). { unfold three in H1. destruct (check_T_PZ w k L kb T s) as [[|r [|mp [|sg [|]]]]|]; try discriminate H1. exists r, mp, sg. reflexivity. }
  change (keep w k L T kb (BT_PZ q) s) with (keep_TP L T kb (check_T_PZ w k L) q s). rewrite El. destruct (all_some (map (keep w k L T kb (BT_PZ q)) states)) as [ls|]; [|discriminate E]. cbn [option_map] in *. exists (l ++ concat ls). split; [reflexivity|].
  apply (f_equal (fun o => match o with Some x => length x | None => 0 end)) in E. cbv beta iota in E. cbn [list_sum fold_right]. rewrite app_length, Ll, E, Le. reflexivity.
Qed.

(* The claim fails for the product of reflection and inversion with two particle numbers of which the first is half filling:
   spin_basis_1d(L=8, Nup=[4,5], a=2, kblock=1, pzblock=1).  The line of spin.py that should reject the second number builds the
   ValueError without raising it, 43 entries are allocated and 44 are written *)
Theorem C54_two_numbers_refuted : exists states es,
  block_ok U32 (Hcp false) 8 2 (BT_PZ 1) /\ visited (Hcp false) 8 (Some [(4, 0); (5, 0)]) states /\ half_filled (Hcp false) 8 (4, 0) /\
  collect U32 (Hcp false) 8 2 1 (BT_PZ 1) states = Some es /\ length es = 44 /\ (get_Ns (Hcp false) 8 2 (Some [(4, 0); (5, 0)]%nat) true < 44)%Z.
Proof.
  set (states := bsector 2 8 4 ++ bsector 2 8 5).
  destruct (collect_TP U32 (Hcp false) 8 2 1 1 states eq_refl) as (es & E & Le); [vm_compute; reflexivity|].
  exists states, es. split; [|split; [|split; [reflexivity|split; [exact E|split; [rewrite Le; vm_compute; reflexivity|]]]]].
  - split; [split; [lia|cbn; lia]|]. split; [intros _|split; [exact I|left; reflexivity]]. split; [split; [split; [lia|cbn; lia]|left; cbn; lia]|]. split; [lia|exists 4; reflexivity].
  - exists [bsector 2 8 4; bsector 2 8 5]. split; [|unfold states; cbn [concat]; rewrite app_nil_r; reflexivity]. constructor; [exact (part_hcp 8 4)|]. constructor; [exact (part_hcp 8 5)|]. constructor.
  - cbn [get_Ns]. change (number_of_states (Hcp false) 8 (Some [(4, 0); (5, 0)])) with 126%Z. change (8 / 2) with 4. apply estimate_lt; [lia|cbn [INR]; lra|lia|]. pose proof ulp_pos. unfold exact. cbn [INR]. lra.
Qed.
Print Assumptions C54_two_numbers_refuted.

(* The same labels with one number off half filling, when the check is switched off:
   spin_basis_1d(L=6, Nup=4, a=2, kblock=1, pzblock=1, check_z_symm=False) *)
Theorem C54_unchecked_number_refuted : exists states es,
  block_ok U32 (Hcp false) 6 2 (BT_PZ 1) /\ visited (Hcp false) 6 (Some [(4, 0)]) states /\
  collect U32 (Hcp false) 6 2 1 (BT_PZ 1) states = Some es /\ length es = 10 /\ (get_Ns (Hcp false) 6 2 (Some [(4, 0)]%nat) true < 10)%Z.
Proof.
  destruct (collect_TP U32 (Hcp false) 6 2 1 1 (bsector 2 6 4) eq_refl) as (es & E & Le); [vm_compute; reflexivity|].
  exists (bsector 2 6 4), es. split; [|split; [|split; [exact E|split; [rewrite Le; vm_compute; reflexivity|]]]].
  - split; [split; [lia|cbn; lia]|]. split; [intros _|split; [exact I|left; reflexivity]]. split; [split; [split; [lia|cbn; lia]|left; cbn; lia]|]. split; [lia|exists 3; reflexivity].
  - exists [bsector 2 6 4]. split; [|cbn [concat]; rewrite app_nil_r; reflexivity]. constructor; [exact (part_hcp 6 4)|]. constructor.
  - cbn [get_Ns]. change (number_of_states (Hcp false) 6 (Some [(4, 0)])) with 15%Z. change (6 / 2) with 3. apply estimate_lt; [lia|cbn [INR]; lra|lia|]. pose proof ulp_pos. unfold exact. cbn [INR]. lra.
Qed.
Print Assumptions C54_unchecked_number_refuted.

(* A particle number given several times: spin_basis_1d(L=3, Nup=[0,0,0,0,0,0], kblock=0) *)
Theorem C54_repeated_numbers_refuted : exists states es,
  block_ok U32 (Hcp false) 3 1 BT /\ visited (Hcp false) 3 (Some (repeat (0, 0) 6)) states /\
  collect U32 (Hcp false) 3 1 0 BT states = Some es /\ length es = 6 /\ (get_Ns (Hcp false) 3 1 (Some (repeat (0, 0)%nat 6)) true < 6)%Z.
Proof.
  exists (repeat 0%N 6), (repeat (mk 0 1 0) 6). split; [|split; [|split; [vm_compute; reflexivity|split; [reflexivity|]]]].
  - split; [split; [lia|cbn; lia]|]. split; [intros _|exact I]. split; [split; [split; [lia|cbn; lia]|left; cbn; lia]|]. split; [lia|exists 3; reflexivity].
  - exists (repeat [0%N] 6). split; [|reflexivity]. cbn [repeat]. repeat (constructor; [exact (part_hcp 3 0)|]). constructor.
  - cbn [get_Ns]. change (number_of_states (Hcp false) 3 (Some (repeat (0, 0) 6))) with 6%Z. change (3 / 1) with 3. apply estimate_lt; [lia|cbn [INR]; lra|lia|]. pose proof ulp_pos. unfold exact. cbn [INR]. lra.
Qed.
Print Assumptions C54_repeated_numbers_refuted.

(* the hypotheses are met by spin_basis_1d(L=6, Nup=3, kblock=1, pzblock=1, a=2): 20 states, 8 entries in an array of 11 *)
Example C54_case : exists states es,
  block_ok U32 (Hcp false) 6 2 (BT_PZ 1) /\ visited (Hcp false) 6 (Some [(3, 0)]) states /\ half_filled (Hcp false) 6 (3, 0) /\ length states = 20 /\
  (number_of_states (Hcp false) 6 (Some [(3, 0)%nat]) <= 2 ^ 46)%Z /\
  collect U32 (Hcp false) 6 2 1 (BT_PZ 1) states = Some es /\ (0 < length es)%nat /\ (Z.of_nat (length es) <= get_Ns (Hcp false) 6 2 (Some [(3, 0)]%nat) true)%Z.
Proof.
  destruct (collect_TP U32 (Hcp false) 6 2 1 1 (bsector 2 6 3) eq_refl) as (es & E & Le); [vm_compute; reflexivity|].
  assert (OK : block_ok U32 (Hcp false) 6 2 (BT_PZ 1)) . { split; [split; [lia|cbn; lia]|]. split; [intros _|split; [exact I|left; reflexivity]]. split; [split; [split; [lia|cbn; lia]|left; cbn; lia]|]. split; [lia|exists 3; reflexivity]. }
  assert (Vi : visited (Hcp false) 6 (Some [(3, 0)]) (bsector 2 6 3)).
  { exists [bsector 2 6 3]. split; [|cbn [concat]; rewrite app_nil_r; reflexivity]. constructor; [exact (part_hcp 6 3)|]. constructor. }
  exists (bsector 2 6 3), es. split; [exact OK|]. split; [exact Vi|]. split; [reflexivity|]. split; [reflexivity|]. split; [vm_compute; discriminate|]. split; [exact E|]. split; [rewrite Le; vm_compute; lia|].
  apply (C54_momentum_arrays_fit_partial U32 (Hcp false) 6 2 1 (BT_PZ 1) (Some (3, 0)) (bsector 2 6 3) es OK eq_refl Vi); [|vm_compute; discriminate|vm_compute; discriminate|exact E].
  intros q m Eb Em. injection Em as <-. reflexivity.
Qed.
