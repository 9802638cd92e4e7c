(* Lookup in the descending arrays, and the assembly of matrix elements from columns. *)
From Verif Require Import AuxN SpecC SpecOps SpecChain M_ops M_symop M_bits1d SpecChain1d SpecCheck1d M_check1d SpecBlock1d M_op1d P_ops P_symop P_block1d.
Local Open Scope nat_scope.

(* ---- findzstate ---- *)
Lemma desc_le A : descends A -> forall i j, i <= j < length A -> (nth j A 0 <= nth i A 0)%N.
Proof.
  induction A as [|s A IH]; intros H i j Hij; [cbn in Hij; lia|]. destruct j as [|j]; [replace i with 0 by lia; lia|].
  assert (H' : descends A) by (destruct A; [exact I|apply H]).
  destruct i as [|i]; [|cbn [nth]; apply IH; [exact H'|cbn in Hij; lia]].
  destruct A as [|t A]; [cbn in Hij; lia|]. destruct H as [H _]. assert (Hj : 0 <= j < length (t :: A)) by (cbn [length] in *; lia). pose proof (IH H' 0 j Hj) as E. change (nth 0 (t :: A) 0%N) with t in E. change (nth (S j) (s :: t :: A) 0%N) with (nth j (t :: A) 0%N). change (nth 0 (s :: t :: A) 0%N) with s. lia.
Qed.
Lemma findz_ok A s : descends A -> forall fuel lo hi, (0 <= lo)%Z -> (hi < Z.of_nat (length A))%Z -> (hi - lo + 1 < Z.of_nat fuel)%Z ->
  match findz fuel A lo hi s with
  | Some j => j < length A /\ nth j A 0%N = s
  | None => forall j, (lo <= Z.of_nat j <= hi)%Z -> nth j A 0%N <> s
  end.
Proof.
  intros D. induction fuel as [|fuel IH]; intros lo hi H0 H1 Hf; [cbn [findz]; intros j Hj; lia|]. cbn [findz].
  destruct (Z.leb_spec lo hi) as [Hle|Hgt]; [|intros j Hj; lia]. cbv zeta. set (b := ((lo + hi) / 2)%Z).
  assert (Hb : (lo <= b <= hi)%Z) by (unfold b; split; [apply Z.div_le_lower_bound|apply Z.div_le_upper_bound]; lia).
  destruct (N.eqb_spec s (nth (Z.to_nat b) A 0%N)) as [E|E]; [split; [lia|congruence]|].
  destruct (N.ltb_spec s (nth (Z.to_nat b) A 0%N)) as [Hl|Hg].
  - specialize (IH (b + 1)%Z hi ltac:(lia) H1 ltac:(lia)). destruct (findz fuel A (b + 1) hi s) as [j|]; [exact IH|].
    intros j Hj. destruct (Z.le_gt_cases (Z.of_nat j) b) as [Hc|Hc]; [|apply IH; lia]. pose proof (desc_le A D j (Z.to_nat b) ltac:(lia)). lia.
  - specialize (IH lo (b - 1)%Z H0 ltac:(lia) ltac:(lia)). destruct (findz fuel A lo (b - 1) s) as [j|]; [exact IH|].
    intros j Hj. destruct (Z.le_gt_cases b (Z.of_nat j)) as [Hc|Hc]; [|apply IH; lia]. pose proof (desc_le A D (Z.to_nat b) j ltac:(lia)). lia.
Qed.
Lemma findzstate_ok A s : descends A -> match findzstate A s with Some j => j < length A /\ nth j A 0%N = s | None => ~ In s A end.
Proof.
  intros D. unfold findzstate. pose proof (findz_ok A s D (S (length A)) 0 (Z.of_nat (length A) - 1) ltac:(lia) ltac:(lia) ltac:(lia)) as H.
  destruct (findz _ _ _ _ _) as [j|]; [exact H|]. intros Hi. apply (In_nth _ _ 0%N) in Hi. destruct Hi as (j & Hj & E). apply (H j ltac:(lia) E).
Qed.
Lemma locate_ok basis i s : descends (map e_s basis) -> i < length basis ->
  match locate basis i s with Some j => j < length basis /\ e_s (nth j basis entry0) = s | None => forall j, j < length basis -> e_s (nth j basis entry0) <> s end.
Proof.
  intros D Hi. unfold locate. destruct (N.eqb_spec s (e_s (nth i basis entry0))) as [E|E]; cbn [negb]; [split; [exact Hi|congruence]|].
  pose proof (findzstate_ok (map e_s basis) s D) as H. rewrite map_length in H.
  assert (Nth : forall j, nth j (map e_s basis) 0%N = e_s (nth j basis entry0)) by (intros j; rewrite <- (map_nth e_s); reflexivity).
  destruct (findzstate _ _) as [j|]; [rewrite Nth in H; exact H|]. intros j Hj E'. apply H. rewrite <- E', <- Nth. apply nth_In. rewrite map_length. exact Hj.
Qed.

Lemma al_in M s : In s (all_states M) <-> (s < N.of_nat M)%N.
Proof. unfold all_states. rewrite in_map_iff. split; [intros (x & <- & H); apply in_seq in H; lia|]. intros H. exists (N.to_nat s). split; [lia|]. apply in_seq. lia. Qed.
Lemma al_nodup M : NoDup (all_states M).
Proof. unfold all_states. apply map_nodup; [|apply seq_NoDup]. intros x y _ _ E. lia. Qed.
(* ---- from columns to the matrix ---- *)
Lemma coo_concat ess r c : coo_matrix (concat ess) r c = Csum ess (fun es => coo_matrix es r c).
Proof. unfold coo_matrix. induction ess as [|es ess IH]; [reflexivity|]. cbn [concat]. rewrite Csum_app, Csum_cons, IH. reflexivity. Qed.
Section A.
Variables (w : btype) (k : kind) (L T kb : nat) (M : nat).
Variables (blk : block) (basis : list entry).
Notation Ns := (length basis).
Notation en i := (nth i basis entry0).
Notation st i := (e_s (en i)).
Notation D := (fun s : N => (s < N.of_nat M)%N).
Hypothesis Dst : forall i, i < Ns -> D (st i).
(* the vector belonging to column i, started from any state, and the overlaps *)
Variable W : nat -> N -> N -> C.
Variable nn : nat -> R.
Notation dotv := (dotv M).
Definition Ee (i j : nat) (s' : N) : C := (dotv (W j (st j)) (W i s') * RtoC (/ nn j * / nn i))%C.
(* all columns together, for rows and elements as returned by op_func *)
Definition cols_ok (real : bool) : Prop :=
  forall rm, length rm = Ns -> (forall i, i < Ns -> D (fst (nth i rm (0%N, C0)))) ->
    (forall i j, i < Ns -> j < Ns -> st i = st j -> nth i rm (0%N, C0) = nth j rm (0%N, C0)) ->
    exists cs, all_some (map (column w k L T kb real blk basis rm) (seq 0 Ns)) = Some cs /\
      forall i j, i < Ns -> j < Ns -> coo_matrix (concat cs) j i = (snd (nth i rm (0%N, C0)) * Ee i j (fst (nth i rm (0%N, C0))))%C.

Lemma rm_ok real op Am J rm : acts_as M op Am -> all_some (map (fun e => op_func real op J (e_s e)) basis) = Some rm ->
  length rm = Ns /\ forall i, i < Ns -> exists r a, op (st i) C1 = Some (r, a) /\ D r /\ nth i rm (0%N, C0) = (r, (a * J)%C) /\ (forall t, D t -> Am t (st i) = if (t =? r)%N then a else C0).
Proof.
  intros Ha H. apply all_some_spec in H.
  assert (Len : length rm = Ns) by (rewrite <- (map_length Some rm), <- H, map_length; reflexivity). split; [exact Len|]. intros i Hi.
  destruct (Ha (st i) C1 (Dst i Hi)) as (r & a & Eo & Hr & Ht). exists r, a. split; [exact Eo|]. split; [exact Hr|]. split.
  - assert (E : nth_error (map Some rm) i = Some (op_func real op J (st i))).
    { rewrite <- H, nth_error_map, (nth_error_nth' basis entry0 Hi). reflexivity. }
    rewrite nth_error_map in E. unfold op_func in E. rewrite Eo in E. destruct (real && _)%bool.
    + destruct (nth_error rm i); discriminate.
    + destruct (nth_error rm i) as [x|] eqn:Ex; [|discriminate]. cbn [option_map] in E. injection E as ->. apply nth_error_nth, Ex.
  - intros t Dt. pose proof (Ht t Dt) as E. rewrite <- E. ring.
Qed.
Lemma template_ok real op Am J : acts_as M op Am -> ((real && needs_complex L T kb blk)%bool = false -> cols_ok real) ->
  (real = false -> exists es, template w k L T kb real blk basis op J = Some es) /\
  forall es, template w k L T kb real blk basis op J = Some es ->
    forall i j, i < Ns -> j < Ns -> coo_matrix es j i = (J * Csum (all_states M) (fun s' => Am s' (st i) * Ee i j s'))%C.
Proof.
  intros Ha HC. unfold template.
  assert (Same : forall rm, all_some (map (fun e => op_func real op J (e_s e)) basis) = Some rm ->
     length rm = Ns /\ (forall i, i < Ns -> D (fst (nth i rm (0%N, C0)))) /\ (forall i j, i < Ns -> j < Ns -> st i = st j -> nth i rm (0%N, C0) = nth j rm (0%N, C0))).
  { intros rm E. destruct (rm_ok real op Am J rm Ha E) as [E1 E2]. split; [exact E1|]. split.
    - intros i Hi. destruct (E2 i Hi) as (r & a & _ & Dr & -> & _). exact Dr.
    - intros i j Hi Hj Es. destruct (E2 i Hi) as (r & a & Eo & _ & -> & _). destruct (E2 j Hj) as (r' & a' & Eo' & _ & -> & _). rewrite Es in Eo. congruence. }
  split.
  - intros ->. destruct (all_some_ok (map (fun e => op_func false op J (e_s e)) basis)) as [rm E].
    { intros x Hx. apply in_map_iff in Hx. destruct Hx as (e & <- & He). apply (In_nth _ _ entry0) in He. destruct He as (i & Hi & <-).
      destruct (Ha (st i) C1 (Dst i Hi)) as (r & a & Eo & _). unfold op_func. rewrite Eo. discriminate. }
    rewrite E. cbn [andb]. destruct (Same rm E) as (L1 & D1 & S1). destruct (HC eq_refl rm L1 D1 S1) as (cs & -> & _). eexists. reflexivity.
  - intros es. destruct (all_some _) as [rm|] eqn:E; [|discriminate]. destruct (real && needs_complex L T kb blk)%bool eqn:Er; [discriminate|]. destruct (Same rm eq_refl) as (L1 & D1 & S1).
    destruct (HC eq_refl rm L1 D1 S1) as (cs & -> & H). intros Ees. injection Ees as <-. intros i j Hi Hj. rewrite (H i j Hi Hj).
    destruct (rm_ok real op Am J rm Ha E) as [_ E2]. destruct (E2 i Hi) as (r & a & _ & Dr & -> & Ht). cbn [fst snd].
    rewrite (Csum_single _ _ r (al_nodup M)); [|apply al_in; exact Dr|].
    + rewrite (Ht r Dr), N.eqb_refl. ring.
    + intros t Dt Hn. apply al_in in Dt. rewrite (Ht t Dt). destruct (N.eqb_spec t r); [contradiction|ring].
Qed.

(* ---- terms ---- *)
Variables (n_sites : nat) (allowed : list ascii) (scale : list ascii -> R) (op : list (ascii * nat) -> N -> C -> option (N * C)).
Variable mat : list (ascii * nat) -> cmat.
Notation okl := (okl n_sites allowed).
Hypothesis Hop : forall l, okl l -> acts_as M (op l) (mat l).
Hypothesis HC : forall real, (real && needs_complex L T kb blk)%bool = false -> cols_ok real.
Notation OpF := (fun real => Op1d w k L T kb real blk basis n_sites allowed scale op).
Lemma Op1d_ok l J : okl l ->
  (exists es, OpF false l J = Some es) /\
  forall real es, OpF real l J = Some es -> forall i j, i < Ns -> j < Ns ->
    coo_matrix es j i = (J * RtoC (scale (map fst l)) * Csum (all_states M) (fun s' => mat l s' (st i) * Ee i j s'))%C.
Proof.
  intros Hl. pose proof (proj1 (okl_checks M n_sites allowed scale op mat Hop l) Hl) as [C1' C2']. unfold Op1d. rewrite C1', C2'. split.
  - destruct (template_ok false (op l) (mat l) J (Hop l Hl) (HC false)) as [H _]. destruct (H eq_refl) as [es He].
    destruct basis; [eexists; reflexivity|]. rewrite He. eexists. reflexivity.
  - intros real es He i j Hi Hj. destruct (template_ok real (op l) (mat l) J (Hop l Hl) (HC real)) as [_ H].
    assert (exists es0, template w k L T kb real blk basis (op l) J = Some es0 /\
      es = map (fun e => ((fst (fst e) * RtoC (scale (map fst l)))%C, snd (fst e), snd e)) (filter (fun e => negb (Czero (fst (fst e)))) es0)) as (es0 & E0 & ->).
    { destruct basis as [|p L']; [cbn in Hi; lia|]. destruct (template _ _ _ _ _ _ _ _ _ _) as [es0|]; [|discriminate].
      exists es0. split; [reflexivity|congruence]. }
    rewrite coo_filter, (H es0 E0 i j Hi Hj). ring.
Qed.
Notation Ht := (H_total scale mat).
Lemma make_matrix_1d ts : Forall (fun x => okl (fst x)) ts ->
  (forall i t, i < Ns -> D t -> Csum (all_states M) (fun u => Ht ts t u * W i (st i) u)%C = Csum (all_states M) (fun s' => Ht ts s' (st i) * W i s' t)%C) ->
  (exists Mx, make_matrix (OpF false) ts = Some Mx) /\
  forall real Mx, make_matrix (OpF real) ts = Some Mx -> forall i j, i < Ns -> j < Ns ->
    Mx j i = (dotv (W j (st j)) (fun t => Csum (all_states M) (fun u => Ht ts t u * W i (st i) u)) * RtoC (/ nn j * / nn i))%C.
Proof.
  intros Hts HA. rewrite Forall_forall in Hts. split.
  - apply make_matrix_ok. intros x Hx E. destruct (Op1d_ok (fst x) (snd x) (Hts x Hx)) as [[es He] _]. congruence.
  - intros real Mx HM i j Hi Hj. rewrite (make_matrix_sum _ _ _ HM).
    transitivity (Csum ts (fun x => snd x * RtoC (scale (map fst (fst x))) * Csum (all_states M) (fun s' => mat (fst x) s' (st i) * Ee i j s')))%C.
    + apply Csum_ext. intros x Hx. destruct (Op1d_ok (fst x) (snd x) (Hts x Hx)) as [_ H].
      destruct (Op1d _ _ _ _ _ real _ _ _ _ _ _ (fst x) (snd x)) as [es|] eqn:E; [apply (H real es E i j Hi Hj)|].
      exfalso. assert (Some_all : forall ts off dg, In x ts -> make_matrix_loop (OpF real) ts off dg = None).
      { clear - E. induction ts as [|[l J] ts IH]; [intros off dg []|]. intros off dg [Hx|Hx]; cbn [make_matrix_loop].
        - subst x. cbn [fst snd] in E. rewrite E. reflexivity.
        - destruct (Op1d _ _ _ _ _ real _ _ _ _ _ _ l J) as [es|]; [|reflexivity]. destruct (0 <? length es); [destruct (is_diagonal es)|]; apply IH; exact Hx. }
      unfold make_matrix in HM. rewrite Some_all in HM by exact Hx. discriminate.
    + transitivity (Csum (all_states M) (fun s' => Ht ts s' (st i) * Ee i j s'))%C.
      * rewrite (Csum_ext ts _ (fun x => Csum (all_states M) (fun s' => snd x * RtoC (scale (map fst (fst x))) * mat (fst x) s' (st i) * Ee i j s')))%C.
        2:{ intros x _. rewrite <- Csum_mul_l. apply Csum_ext. intros s' _. ring. }
        rewrite Csum_swap. apply Csum_ext. intros s' _. unfold H_total. rewrite <- Csum_mul_r. reflexivity.
      * unfold Ee, P_block1d.dotv.
        rewrite (Csum_ext (all_states M) (fun t => Cconj (W j (st j) t) * Csum (all_states M) (fun u => Ht ts t u * W i (st i) u))%C
          (fun t => Csum (all_states M) (fun s' => Cconj (W j (st j) t) * (Ht ts s' (st i) * W i s' t)))%C).
        2:{ intros t Ht'. apply al_in in Ht'. rewrite (HA i t Hi Ht'), Csum_mul_l. reflexivity. }
        rewrite (Csum_swap (all_states M) (all_states M)). rewrite <- Csum_mul_r. apply Csum_ext. intros s' _.
        rewrite (Csum_ext (all_states M) (fun x => Cconj (W j (st j) x) * (Ht ts s' (st i) * W i s' x))%C (fun x => Ht ts s' (st i) * (Cconj (W j (st j) x) * W i s' x))%C) by (intros; ring).
        rewrite Csum_mul_l. ring.
Qed.
End A.
