(* The stored states span the block. *)
From Verif Require Import AuxN SpecC SpecOps SpecMaps SpecFermi SpecChain M_bits1d SpecChain1d SpecCheck1d SpecBlock1d SpecSpan1d M_check1d
  P_maps P_square P_bits1d P_bits1d4 P_bits1d5 P_check1d P_check1d2 P_check1d3 P_check1d4 P_check1d5 P_block1d P_block1d2 P_block1d3 P_block1d4
  M_ops M_symop P_symop P_photon M_op1d P_op1d P_op1d2 P_op1d3 P_op1d4 P_op1d5 P_op1d6 P_op1d7 P_op1d8 P_semi1d P_semi1d2 P_semi1d3 P_span1d P_span1d2 P_span1d3 P_span1d4 C39_checks C39_reference C39_translations C52_matrix.
From Coq Require Import Permutation.
Local Open Scope nat_scope.

Lemma max_at {A} (f : A -> N) (l : list A) : l <> [] -> exists x, In x l /\ forall y, In y l -> (f y <= f x)%N.
Proof.
  induction l as [|a l IH]; [congruence|]. intros _. destruct l as [|c l]; [exists a; split; [left; reflexivity|]; intros y [<-|[]]; lia|].
  destruct IH as (x & Hx & H); [discriminate|]. destruct (N.le_gt_cases (f x) (f a)).
  - exists a. split; [left; reflexivity|]. intros y [<-|Hy]; [lia|]. pose proof (H y Hy). lia.
  - exists x. split; [right; exact Hx|]. intros y [<-|Hy]; [lia|apply H, Hy].
Qed.
Section S.
Variables (w : btype) (k : kind) (L T kb : nat) (b : block).
Hypothesis OK : block_ok w k L T b.
Notation M := (Mst k L).
Notation two := (two_of b).
Notation tf := (translates b).
Notation n := (n_of L T b).
Notation Hs := (heads b).
Notation To := (T_of T b).
Notation X := (X w k L To two n).
Notation G := (G w k L To two n).
Notation eps := (eps two tf).
Notation th := (th_of L T kb b).
Notation V := (V n Hs (chi b) X G).
Notation cab := (cab th).
Notation cp := (cp th).
Notation cm := (cm th).
Notation cf := (cf L T kb b).
Notation Av := (Av M X G).
Notation D := (fun s : N => (s < N.of_nat M)%N).
Let GR := block_grp w k L T b OK.
Let HT := Hth w k L T kb b OK.
Let Hn : 1 <= n := g_Hn _ _ _ _ _ _ _ GR.

(* words as group elements *)
Lemma app_word word r h v t : (forall s u, is_state k L s -> amp w k L T word s u = U X G r h s u) -> applied k L (word_matrix w k L T word) v t = Av r h v t.
Proof. intros E. unfold applied, P_span1d4.Av. apply Csum_ext. intros u Hu. apply al_in in Hu. unfold word_matrix. rewrite E; [reflexivity|]. apply M_st, Hu. Qed.
Lemma app_head h v t : In h Hs -> applied k L (word_matrix w k L T (hw two h)) v t = Av 0 h v t.
Proof. intros Hh. apply app_word. intros s u Hst. exact (amp_T w k L T b OK h s u 0 ltac:(lia) Hh Hst). Qed.
Lemma app_T v t : tf = true -> applied k L (word_matrix w k L T [LT]) v t = Av 1 h0 v t.
Proof.
  intros Et. apply app_word. intros s u Hst. destruct (head_word w k L T b OK h0 1 s (heads_0 w k L T b OK) Hst (or_introl Et)) as [E1 E2]. rewrite (hw0 b) in E1, E2. cbn [repeat app] in E1, E2. rewrite (e0' _ _ _ _ _ _ _ GR) in E1, E2. cbn [sg] in E1, E2.
  change (Z.of_nat 1) with 1%Z in *. unfold U, Gc. rewrite <- E1, <- E2. unfold amp, sto, sgo. rewrite (To_t T b Et).
  pose proof (tf_ok w k L T b OK) as TO. rewrite Et in TO. destruct TO as (_ & _ & TO).
  assert (Lk : Forall (lok w k L To) [LT]) by (constructor; [apply TO|constructor]). pose proof (run_sto w k L To (SFb w k L T b OK) [LT] s 1 Lk Hst) as RS. rewrite (To_t T b Et) in RS. rewrite RS. reflexivity.
Qed.
Lemma th_mom : tf = true -> th = momentum L T kb. Proof. intros E. unfold th_of. rewrite E. reflexivity. Qed.

(* a vector of the block is a combination of block vectors *)
Definition kapp : R := (INR n * (if semi b then nu th else 1) * INR (length Hs))%R.
Lemma kapp_nz : kapp <> 0%R.
Proof.
  unfold kapp. assert (0 < INR n)%R by (apply lt_0_INR; lia). assert (0 < INR (length Hs))%R by (apply (LH_pos n M Hs eps (chi b) X G GR)).
  assert (0 < (if semi b then nu th else 1))%R by (destruct (semi b); [apply nu_pos|lra]). apply Rgt_not_eq. apply Rmult_lt_0_compat; [apply Rmult_lt_0_compat; assumption|assumption].
Qed.
Lemma block_sum v : in_block w k L T b kb v -> forall t, is_state k L t -> (RtoC kapp * v t)%C = Csum (all_states M) (fun s => v s * V (cf 1) s t)%C.
Proof.
  intros [H1 H2] t Ht. apply M_st in Ht.
  assert (Hsym : forall h, In h Hs -> forall u, D u -> Av 0 h v u = (ch (chi b) h * v u)%C).
  { intros h Hh u Du. rewrite <- (app_head h v u Hh). apply M_st in Du. apply (H1 (chiZ b h, hw two h)); [|exact Du]. rewrite symm_heads. apply in_map_iff. exists h. auto. }
  unfold kapp. destruct (semi b) eqn:Sm.
  - pose proof (semi_tf w k L T b OK Sm) as Et. rewrite (cf_pos L T kb b Sm) by lia. rewrite (proj_p n M Hs eps (chi b) X G GR th HT v Hsym); [reflexivity| |exact Ht].
    intros u Du. apply M_st in Du. specialize (H2 Et u Du). cbn zeta in H2. rewrite (th_mom Et). rewrite <- (app_T v u Et), <- H2. rewrite (app_T _ u Et). f_equal.
    apply Av_ext. intros s _. symmetry. apply (app_T v s Et).
  - rewrite (cf_ab L T kb b Sm). rewrite Rmult_1_r. rewrite (proj_ab n M Hs eps (chi b) X G GR th v Hsym); [reflexivity| |exact Ht].
    intros u Du. destruct (Bool.bool_dec tf true) as [Et|Ef]; [|apply Bool.not_true_is_false in Ef].
    + apply M_st in Du. specialize (H2 Et u Du). cbn zeta in H2. unfold th_of. rewrite Et. rewrite <- H2. symmetry. apply app_T. exact Et.
    + unfold th_of. rewrite Ef, cis_0. assert (E1 : n = 1) by (unfold n_of; rewrite Ef; reflexivity).
      replace 1%Z with (0 + Z.of_nat n)%Z by lia. rewrite (Av_n n M Hs eps (chi b) X G GR 0 h0 v u (heads_0 w k L T b OK)). rewrite (Av_0 n M Hs eps (chi b) X G GR v u Du). ring.
Qed.
(* block vectors are in the block *)
Lemma V_block sigma s : is_state k L s -> in_block w k L T b kb (V (cf sigma) s).
Proof.
  intros Hst. apply M_st in Hst. split.
  - intros x Hx t _. rewrite symm_heads in Hx. apply in_map_iff in Hx. destruct Hx as (h & <- & Hh). cbn [fst snd]. rewrite (app_head h _ t Hh). apply (V_sym n M Hs eps (chi b) X G GR); assumption.
  - intros Et t _. cbn zeta. rewrite <- (th_mom Et). rewrite !(app_T _ _ Et). destruct (semi b) eqn:Sm.
    + rewrite (Av_ext M X G 1 h0 _ (Av 1 h0 (V (cf sigma) s)) t) by (intros u _; apply (app_T _ u Et)).
      apply (V_T_semi n M Hs eps (chi b) X G GR th (cf sigma) s t (cf_per w k L T kb b OK sigma)); [|exact Hst].
      unfold P_op1d2.cf. rewrite Sm. destruct (0 <? sigma)%Z; [apply cp_rec|apply cm_rec].
    + rewrite (cf_ab L T kb b Sm). apply (V_T_ab n M Hs eps (chi b) X G GR th HT); [|exact Hst]. intros h Hh. exact (eps_ab w k L T b OK h Sm Hh).
Qed.
Lemma in_block_ext u v : (forall t, is_state k L t -> u t = v t) -> in_block w k L T b kb u -> in_block w k L T b kb v.
Proof.
  intros E [H1 H2]. assert (A : forall A u v t, (forall t, is_state k L t -> u t = v t) -> applied k L A u t = applied k L A v t).
  { intros A u' v' t E'. unfold applied. apply Csum_ext. intros s Hs'. apply al_in in Hs'. apply M_st in Hs'. rewrite (E' s Hs'). reflexivity. }
  split.
  - intros x Hx t Ht. rewrite <- (A _ u v t E), <- (E t Ht). apply H1; assumption.
  - intros Et t Ht. specialize (H2 Et t Ht). cbn zeta in *. destruct (semi b); rewrite <- (A _ u v t E), <- (E t Ht); [|exact H2]. rewrite <- (A _ (applied k L (word_matrix w k L T [LT]) u) (applied k L (word_matrix w k L T [LT]) v) t); [exact H2|]. intros t' _. apply A, E.
Qed.
Lemma in_block_scal (a : C) v : in_block w k L T b kb v -> in_block w k L T b kb (fun t => v t * a)%C.
Proof.
  intros [H1 H2]. assert (A : forall A v t, applied k L A (fun t => v t * a)%C t = (applied k L A v t * a)%C).
  { intros A v' t. unfold applied. rewrite <- Csum_mul_r. apply Csum_ext. intros s _. ring. }
  assert (Ex : forall A u v t, (forall t, u t = v t) -> applied k L A u t = applied k L A v t) by (intros A' u' v' t E; unfold applied; apply Csum_ext; intros s _; rewrite E; reflexivity).
  split.
  - intros x Hx t Ht. rewrite A, (H1 x Hx t Ht). ring.
  - intros Et t Ht. specialize (H2 Et t Ht). cbn zeta in *. destruct (semi b); [|rewrite A, H2; ring].
    rewrite (Ex _ _ (fun t => applied k L (word_matrix w k L T [LT]) v t * a)%C t (fun t => A _ v t)), !A. transitivity ((applied k L (word_matrix w k L T [LT]) (applied k L (word_matrix w k L T [LT]) v) t + v t) * a)%C; [ring|]. rewrite H2. ring.
Qed.

(* spanning *)
Variables (states : list N) (es basis : list entry).
Hypothesis Ev : match b with BT_A_B _ _ => N.even (levels k) = true | _ => True end.
Hypothesis Hst : forall s, In s states -> is_state k L s.
Hypothesis Hcl : closed w k L T b states.
Hypothesis Hcol : collect w k L T kb b states = Some es.
Hypothesis Harr : arranged es basis.
Notation Ns := (length basis).
Notation psi := (sym_state w k L T kb b basis).
Definition spanned (v : N -> C) : Prop := exists c : nat -> C, forall t, is_state k L t -> v t = Csum (seq 0 Ns) (fun i => c i * psi i t)%C.
Lemma sp_zero v : (forall t, is_state k L t -> v t = C0) -> spanned v.
Proof. intros H. exists (fun _ => C0). intros t Ht. rewrite (H t Ht). symmetry. apply Csum_zero. intros i _. ring. Qed.
Lemma sp_scal a v : spanned v -> spanned (fun t => a * v t)%C.
Proof. intros [c H]. exists (fun i => a * c i)%C. intros t Ht. rewrite (H t Ht), <- Csum_mul_l. apply Csum_ext. intros i _. ring. Qed.
Lemma sp_add u v : spanned u -> spanned v -> spanned (fun t => u t + v t)%C.
Proof. intros [c H] [d H']. exists (fun i => c i + d i)%C. intros t Ht. rewrite (H t Ht), (H' t Ht), <- Csum_add. apply Csum_ext. intros i _. ring. Qed.
Lemma sp_ext u v : (forall t, is_state k L t -> u t = v t) -> spanned u -> spanned v.
Proof. intros E [c H]. exists c. intros t Ht. rewrite <- (E t Ht). apply H, Ht. Qed.
Lemma sp_sum {Y} (l : list Y) (f : Y -> N -> C) : (forall y, In y l -> spanned (f y)) -> spanned (fun t => Csum l (fun y => f y t)).
Proof.
  induction l as [|y l IH]; intros H; [apply sp_zero; intros; reflexivity|]. apply (sp_ext (fun t => f y t + Csum l (fun y => f y t))%C); [intros t _; rewrite Csum_cons; reflexivity|].
  apply sp_add; [apply H; left; reflexivity|apply IH; intros z Hz; apply H; right; exact Hz].
Qed.
Lemma cf_sgn x : cf (sgn x) = cf x.
Proof. unfold P_op1d2.cf, sgn. destruct (semi b); [|reflexivity]. destruct (Z.ltb_spec 0 x); [destruct (Z.ltb_spec 0 1); [reflexivity|lia]|destruct (Z.ltb_spec 0 (-1)); [lia|reflexivity]]. Qed.
Lemma sp_basis i : i < Ns -> spanned (V (cf (e_N (nth i basis entry0))) (e_s (nth i basis entry0))).
Proof.
  intros Hi. pose proof (all_st w k L T kb b states es basis OK Hst Hcol Harr) as HS. pose proof (all_nn w k L T kb b states es basis OK Hst Hcol Harr) as HN. destruct (HN i Hi) as [Pn _].
  exists (fun j => if j =? i then RtoC (nn_of L T kb b basis i) else C0). intros t Ht. rewrite (Csum_single (seq 0 Ns) _ i (seq_NoDup _ _)).
  - rewrite Nat.eqb_refl. unfold sym_state. rewrite (norm_psi w k L T kb b OK basis HS (nn_of L T kb b basis) HN i t Hi). unfold Wb. set (x := V _ _ t). transitivity (x * (RtoC (nn_of L T kb b basis i) * RtoC (/ nn_of L T kb b basis i)))%C; [|ring]. rewrite <- RtoC_mul, Rinv_r by lra. change (RtoC 1) with C1. ring.
  - apply in_seq. lia.
  - intros j _ Ne. destruct (Nat.eqb_spec j i); [contradiction|ring].
Qed.
Lemma kept_basis r l e : In r states -> keep w k L T kb b r = Some l -> In e l -> exists i, i < Ns /\ nth i basis entry0 = e.
Proof.
  intros Hr Ek He. unfold collect in Hcol. destruct (all_some (map (keep w k L T kb b) states)) as [ls|] eqn:Ea; [|discriminate]. cbn [option_map] in Hcol. injection Hcol as Ees. pose proof (all_some_spec _ _ Ea) as Em.
  assert (Il : In l ls).
  { assert (Q : In (Some l) (map Some ls)) by (rewrite <- Em; apply in_map_iff; exists r; auto). apply in_map_iff in Q. destruct Q as (l' & E & Hl'). injection E as ->. exact Hl'. }
  assert (Ie : In e basis) by (apply (Permutation_in _ (proj1 Harr)); rewrite <- Ees; apply in_concat; exists l; auto). destruct (In_nth basis e entry0 Ie) as (i & Hi & E). exists i. auto.
Qed.
Lemma sp_rep r sg : In r states -> (forall x h, In h Hs -> (X x h r <= r)%N) -> plus_minus sg -> spanned (V (cf sg) r).
Proof.
  intros Hr Hx Hsg. assert (Ek : exists l, keep w k L T kb b r = Some l).
  { unfold collect in Hcol. destruct (all_some (map (keep w k L T kb b) states)) as [ls|] eqn:Ea; [|discriminate]. pose proof (all_some_spec _ _ Ea) as Em.
    assert (Q : In (keep w k L T kb b r) (map Some ls)) by (rewrite <- Em; apply in_map; exact Hr). apply in_map_iff in Q. destruct Q as (l & E & _). exists l. symmetry. exact E. }
  destruct Ek as [l El]. destruct (span_keep w k L T kb b OK Ev r l (Hst r Hr) Hx El sg Hsg) as [Z|(e & a & He & Es & Ea)].
  - apply sp_zero. intros t _. apply Z.
  - destruct (kept_basis r l e Hr El He) as (i & Hi & Ei). apply (sp_ext (fun t => a * V (cf (e_N e)) r t)%C); [intros t _; rewrite (Ea t), cf_sgn; reflexivity|]. apply sp_scal. rewrite <- Es, <- Ei. apply sp_basis, Hi.
Qed.
Lemma gen_To g s t sign : In g (generators b) -> reaches w k L To g s t sign -> reaches w k L T g s t sign.
Proof.
  intros Hg. unfold reaches. destruct (Bool.bool_dec tf true) as [Et|Et]; [rewrite (To_t T b Et); tauto|]. assert (E : map (act w k L To) g = map (act w k L T) g); [|rewrite E; tauto].
  destruct (gen_cases w k L T b OK g Hg) as [[_ Q]|(h & Hh & ->)]; [congruence|]. clear. unfold hw. generalize two. intros b0. destruct b0, h as [[|] [|]]; reflexivity.
Qed.
Lemma closed_word gs : Forall (fun g => In g (generators b)) gs -> forall s, In s states -> In (sto w k L To (concat gs) s) states.
Proof.
  pose proof (SFb w k L T b OK) as SF. induction 1 as [|g gs Hg F IH]; intros s Hs'; [exact Hs'|]. cbn [concat].
  assert (Lg : Forall (lok w k L To) g) by (apply (gen_lok w k L T b OK g Hg)).
  assert (Lk : Forall (lok w k L To) (concat gs)) by (apply Forall_concat; eapply Forall_impl; [|exact F]; intros g' Hg'; apply (gen_lok w k L T b OK g' Hg')).
  rewrite (proj1 (sto_app w k L To SF g (concat gs) s Lg Lk (Hst s Hs'))). apply IH. apply (Hcl s _ g (sgo w k L To g s) Hs' Hg). apply (gen_To _ _ _ _ Hg). apply (reaches_iff w k L To SF _ _ _ _ Lg (Hst s Hs')). auto.
Qed.
Lemma closed_X x h s : In h Hs -> In s states -> In (X x h s) states.
Proof.
  intros Hh Hs'. destruct (prod_X w k L T b OK x h Hh) as (gs & F & E). pose proof (reach_X w k L T b OK x h s Hh (Hst s Hs')) as RX. apply (reaches_iff w k L To (SFb w k L T b OK) _ _ _ _ (X_lok w k L T b OK x h Hh) (Hst s Hs')) in RX. destruct RX as [-> _]. rewrite E. apply closed_word; assumption.
Qed.
Lemma rep_of s : In s states -> exists r x h, In r states /\ In h Hs /\ back M Hs eps X x h s r /\ forall y g, In g Hs -> (X y g r <= r)%N.
Proof.
  intros Hs'. destruct (max_at (fun p => X (fst p) (snd p) s) (list_prod (zs n) Hs)) as ((x & h) & Hp & Hm).
  { intros E. assert (Q : In (0%Z, h0) (list_prod (zs n) Hs)) by (apply in_prod; [apply (zs_in n Hn); lia|apply (heads_0 w k L T b OK)]). rewrite E in Q. destruct Q. }
  apply in_prod_iff in Hp. destruct Hp as [Hx Hh]. cbn [fst snd] in Hm. pose proof (proj2 (M_st k L s) (Hst s Hs')) as Ds. pose proof (g_XD _ _ _ _ _ _ _ GR x h s Hh Ds) as Dr.
  exists (X x h s), (sg (eps h) x), h. split; [apply closed_X; assumption|]. split; [exact Hh|]. split.
  - unfold back. split; [exact Ds|]. split; [exact Dr|]. split; [exact Hh|]. destruct (eps h); cbn [sg]; rewrite ?Z.opp_involutive; reflexivity.
  - intros y g Hg. rewrite (g_Xm _ _ _ _ _ _ _ GR x h y g s Hh Hg Ds). set (z := (x + sg (eps h) y)%Z). pose proof (g_Hcl _ _ _ _ _ _ _ GR h g Hh Hg) as Hhg.
    assert (E : X z (hx h g) s = X (z mod Z.of_nat n)%Z (hx h g) s) by (unfold P_block1d4.X, cnt; rewrite Z.mod_mod by lia; reflexivity).
    rewrite E. apply (Hm ((z mod Z.of_nat n)%Z, hx h g)). apply in_prod; [apply (zs_in n Hn); apply Z.mod_pos_bound; lia|exact Hhg].
Qed.
Lemma sp_state s sg : In s states -> plus_minus sg -> spanned (V (cf sg) s).
Proof.
  intros Hs' Hsg. destruct (rep_of s Hs') as (r & x & h & Hr & Hh & Hb & Hx). pose proof (sp_rep r 1 Hr Hx ltac:(left; reflexivity)) as S1. pose proof (sp_rep r (-1) Hr Hx ltac:(right; reflexivity)) as S2. destruct (semi b) eqn:Sm.
  - apply (sp_ext (fun t => Gc G (P_block1d.sg (eps h) x) h s * ch (chi b) h * RtoC (if (eps h && negb (0 <? sg)%Z)%bool then -1 else 1) * Wl w k L T kb b sg x r t)%C); [intros t _; symmetry; apply (V_back_s w k L T kb b OK Sm sg x h s r t Hb)|].
    apply sp_scal. rewrite (cf_pos L T kb b Sm) in S1 by lia. rewrite (cf_neg L T kb b Sm) in S2 by lia. unfold Wl. destruct (0 <? sg)%Z; apply sp_add; apply sp_scal; assumption.
  - rewrite (cf_ab L T kb b Sm) in *. apply (sp_ext (fun t => Gc G (P_block1d.sg (eps h) x) h s * ch (chi b) h * cab x * V cab r t)%C); [|apply sp_scal, S1].
    intros t _. symmetry. apply (V_back_ab n M th HT Hs eps (chi b) X G GR x h s r t (eps_ab w k L T b OK h Sm Hh) Hb).
Qed.
Lemma sp_block v : in_block w k L T b kb v -> (forall s, is_state k L s -> ~ In s states -> v s = C0) -> spanned v.
Proof.
  intros HB Hout. apply (sp_ext (fun t => RtoC (/ kapp) * Csum (all_states M) (fun s => v s * V (cf 1) s t))%C).
  - intros t Ht. rewrite <- (block_sum v HB t Ht). transitivity (RtoC (/ kapp) * RtoC kapp * v t)%C; [ring|]. rewrite <- RtoC_mul, Rinv_l by apply kapp_nz. change (RtoC 1) with C1. ring.
  - apply sp_scal. apply sp_sum. intros s Hs'. apply al_in in Hs'. apply M_st in Hs'. destruct (in_dec N.eq_dec s states) as [I|NI].
    + apply sp_scal. apply sp_state; [exact I|left; reflexivity].
    + apply sp_zero. intros t _. rewrite (Hout s Hs' NI). ring.
Qed.
End S.
