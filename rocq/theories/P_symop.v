(* Matrices built in a symmetry reduced basis are the projections of the full matrices. *)
From Verif Require Import AuxN SpecC SpecSymm SpecSector SpecBasis SpecIndex SpecOps SpecProj M_symm M_index M_ops M_opstr M_symop P_symm P_norm P_symminst P_index P_mat P_proj P_ops.
Local Open Scope nat_scope.

Lemma as_type_add real a b : as_type real (a + b)%C = (as_type real a + as_type real b)%C.
Proof. destruct real; [|reflexivity]. apply C_eq; cbn; ring. Qed.
Lemma as_type_0 real : as_type real C0 = C0. Proof. destruct real; reflexivity. Qed.
Lemma as_type_R real z x : as_type real (z * RtoC x)%C = (as_type real z * RtoC x)%C.
Proof. destruct real; [|reflexivity]. apply C_eq; cbn; ring. Qed.
Lemma as_type_sum {X} real (l : list X) f : as_type real (Csum l f) = Csum l (fun x => as_type real (f x)).
Proof. induction l as [|x l IH]; [apply as_type_0|]. rewrite !Csum_cons, as_type_add, IH. reflexivity. Qed.
Lemma check_imag_some real m me : check_imag real m = Some me -> me = as_type real m.
Proof. unfold check_imag, as_type. destruct real; [|congruence]. destruct (Rlt_dec _ _); congruence. Qed.

Lemma all_some_spec {X} (l : list (option X)) r : all_some l = Some r -> l = map Some r.
Proof.
  revert r. induction l as [|[x|] l IH]; intros r H; cbn [all_some] in H; [inversion H; reflexivity| |discriminate].
  destruct (all_some l) as [q|] eqn:E; [|discriminate]. inversion H; subst. cbn [map]. f_equal. apply IH. reflexivity.
Qed.
Lemma all_some_ok {X} (l : list (option X)) : (forall x, In x l -> x <> None) -> exists r, all_some l = Some r.
Proof.
  induction l as [|[x|] l IH]; intros H; [eexists; reflexivity| |exfalso; apply (H None); [left; reflexivity|reflexivity]].
  destruct IH as [r Hr]; [intros y Hy; apply H; right; exact Hy|]. exists (x :: r). cbn [all_some]. rewrite Hr. reflexivity.
Qed.

Lemma filter_all {X} (p : X -> bool) l : (forall x, In x l -> p x = true) -> filter p l = l.
Proof. induction l as [|x l IH]; intros H; [reflexivity|]. cbn [filter]. rewrite (H x) by (left; reflexivity). f_equal. apply IH. intros y Hy. apply H. right; exact Hy. Qed.

(* ---- assembling the matrix from the lists of elements ---- *)
Lemma update_diag_sum es : forall d i, update_diag d es i = (d i + Csum es (fun e => if i =? snd (fst e) then fst (fst e) else C0))%C.
Proof.
  unfold update_diag. induction es as [|e es IH]; intros d i; cbn [fold_left]; [rewrite Csum_nil; ring|].
  rewrite IH, Csum_cons. destruct (i =? snd (fst e)); ring.
Qed.
Lemma diag_coo es r c : is_diagonal es = true ->
  (if r =? c then Csum es (fun e => if r =? snd (fst e) then fst (fst e) else C0) else C0) = coo_matrix es r c.
Proof.
  unfold is_diagonal, coo_matrix. intros H. rewrite forallb_forall in H. destruct (Nat.eqb_spec r c) as [<-|Hn].
  - apply Csum_ext. intros e He. specialize (H e He). apply Nat.eqb_eq in H. rewrite <- H, andb_diag, Nat.eqb_sym. reflexivity.
  - symmetry. apply Csum_zero. intros e He. specialize (H e He). apply Nat.eqb_eq in H. rewrite <- H.
    destruct (Nat.eqb_spec (snd (fst e)) r), (Nat.eqb_spec (snd (fst e)) c); cbn; try reflexivity. lia.
Qed.
Definition oo (o : option (nat -> nat -> C)) (r c : nat) : C := match o with Some f => f r c | None => C0 end.
Definition od (d : option (nat -> C)) (r c : nat) : C := match d with Some f => diag_matrix f r c | None => C0 end.
Lemma make_loop_sum OpF ts : forall off diag off' diag', make_matrix_loop OpF ts off diag = Some (off', diag') ->
  forall r c, (oo off' r c + od diag' r c)%C =
    (oo off r c + od diag r c + Csum ts (fun t => match OpF (fst t) (snd t) with Some es => coo_matrix es r c | None => C0 end))%C.
Proof.
  induction ts as [|[l J] ts IH]; intros off diag off' diag' H r c; cbn [make_matrix_loop] in H.
  - inversion H; subst. rewrite Csum_nil. ring.
  - rewrite Csum_cons. cbn [fst snd]. destruct (OpF l J) as [es|]; [|discriminate].
    destruct es as [|e0 es0]; [cbn [length] in H; rewrite (IH _ _ _ _ H); unfold coo_matrix; rewrite Csum_nil; ring|].
    set (es := e0 :: es0) in *. replace (0 <? length es) with true in H by reflexivity.
    destruct (is_diagonal es) eqn:Ed.
    + rewrite (IH _ _ _ _ H). unfold od at 1, diag_matrix. rewrite update_diag_sum, <- (diag_coo es r c Ed). unfold od, diag_matrix. destruct diag; destruct (r =? c); ring.
    + rewrite (IH _ _ _ _ H). unfold oo. destruct off; ring.
Qed.
Lemma make_matrix_sum OpF ts Mx : make_matrix OpF ts = Some Mx ->
  forall r c, Mx r c = Csum ts (fun t => match OpF (fst t) (snd t) with Some es => coo_matrix es r c | None => C0 end).
Proof.
  unfold make_matrix. destruct (make_matrix_loop OpF ts None None) as [[o d]|] eqn:E; [|discriminate]. intros H r c.
  pose proof (make_loop_sum OpF ts None None o d E r c) as Hs. unfold oo, od in Hs.
  transitivity (C0 + C0 + Csum ts (fun t => match OpF (fst t) (snd t) with Some es => coo_matrix es r c | None => C0 end))%C; [|ring].
  rewrite <- Hs. destruct o, d; inversion H; subst; try ring; reflexivity.
Qed.
Lemma make_matrix_ok OpF ts : (forall t, In t ts -> OpF (fst t) (snd t) <> None) -> exists Mx, make_matrix OpF ts = Some Mx.
Proof.
  intros H. assert (G : forall off diag, exists p, make_matrix_loop OpF ts off diag = Some p).
  { induction ts as [|[l J] ts IH]; intros off diag; [eexists; reflexivity|]. cbn [make_matrix_loop].
    destruct (OpF l J) as [es|] eqn:E; [|exfalso; apply (H (l, J)); [left; reflexivity|exact E]].
    assert (H' : forall t, In t ts -> OpF (fst t) (snd t) <> None) by (intros t Ht; apply H; right; exact Ht).
    destruct (0 <? length es); [destruct (is_diagonal es)|]; apply IH; exact H'. }
  unfold make_matrix. destruct (G None None) as [[o d] E]. rewrite E. destruct o, d; eexists; reflexivity.
Qed.

Section Op.
Variables (M : nat) (nt : nat) (pers : list nat) (ms : smap) (qs : list Z).
Notation D := (fun s : N => (s < N.of_nat M)%N).
Hypothesis HG : good_maps D nt pers ms.
Variables (S : N -> Prop) (sts : list N).
Hypothesis SD : forall s, S s -> D s.
Hypothesis SC : closed_under S nt ms.
Hypothesis Hnd : NoDup sts.
Hypothesis Hin : forall s, In s sts <-> S s.
Variable L : list (N * Z).
Hypothesis HL : lists_decreasing (in_block S nt pers qs ms) L.
Notation act := (gact ms).
Notation valid := (valid nt pers).
Notation V := (symm_state pers qs ms).
Notation nrm := (nrm pers ms).
Notation ph := (ph pers ms qs).
Notation st i := (fst (nth i L (0%N, 0%Z))).
Notation nn i := (snd (nth i L (0%N, 0%Z))).
Notation is_rep := (is_rep nt ms).
Definition wt (i j : nat) (t : N) : C := (RtoC (INR (group_order pers)) * nrm (st i) * Cconj (V (st j) t))%C.

Lemma L_nth i : i < length L -> S (st i) /\ is_rep (st i) /\ compatible pers qs ms (st i) /\ nn i = Z.of_nat (stabilisers pers ms (st i)).
Proof. intros H. apply (L_block nt pers ms qs S L HL). rewrite <- surjective_pairing. apply nth_In. exact H. Qed.
Lemma L_inj i j : i < length L -> j < length L -> st i = st j -> i = j.
Proof.
  intros Hi Hj E. assert (E2 : nth i L (0%N, 0%Z) = nth j L (0%N, 0%Z)).
  { rewrite (surjective_pairing (nth i L _)), (surjective_pairing (nth j L _)). f_equal; [exact E|].
    destruct (L_nth i Hi) as (_ & _ & _ & ->). destruct (L_nth j Hj) as (_ & _ & _ & ->). rewrite E. reflexivity. }
  apply (proj1 (NoDup_nth L (0%N, 0%Z)) (L_nodup nt pers ms qs S L HL)); assumption.
Qed.
Lemma A_dec : decreasing (map fst L).
Proof.
  destruct HL as [H _]. clear - H. unfold decreasing. induction H as [|a l H IH F]; [constructor|]. cbn [map]. constructor; [exact IH|].
  apply Forall_forall. intros x Hx. apply in_map_iff in Hx. destruct Hx as (y & <- & Hy). rewrite Forall_forall in F. apply F. exact Hy.
Qed.

Lemma sqrt_ratio a b c : (0 < a)%R -> (0 < b)%R -> (0 < c)%R -> (c * / sqrt (a * c) * (/ sqrt (b * c) * b) = sqrt (b / a))%R.
Proof.
  intros Ha Hb Hc. unfold Rdiv. rewrite !sqrt_mult, sqrt_inv by (try lra; left; apply Rinv_0_lt_compat; lra).
  assert (Sa : (0 < sqrt a)%R) by (apply sqrt_lt_R0; exact Ha). assert (Sb : (0 < sqrt b)%R) by (apply sqrt_lt_R0; exact Hb).
  assert (Sc : (0 < sqrt c)%R) by (apply sqrt_lt_R0; exact Hc).
  rewrite <- (sqrt_sqrt c) at 1 by lra. rewrite <- (sqrt_sqrt b) at 2 by lra. field. lra.
Qed.
(* weight of a state whose representative is st j *)
Lemma wt_orbit i j r g : i < length L -> j < length L -> S r -> valid g -> fst (act g r) = st j ->
  wt i j r = (ph g r * RtoC (sqrt (IZR (nn j) / IZR (nn i))))%C.
Proof.
  intros Hi Hj Hr Hg E. destruct (L_nth i Hi) as (Si & _ & _ & Ni). destruct (L_nth j Hj) as (Sj & _ & Cj & Nj). unfold wt.
  rewrite (V_orbit D nt pers ms qs HG S SD (st j) r g Sj Hr Hg E Cj). rewrite !Cconj_mul, Cconj_invol, Cconj_RtoC.
  rewrite (nrm_conj pers ms). rewrite Ni, Nj, <- !INR_IZR_INZ.
  transitivity (ph g r * (RtoC (INR (group_order pers)) * nrm (st i) * (nrm (st j) * RtoC (INR (stabilisers pers ms (st j))))))%C; [ring|].
  f_equal. unfold P_proj.nrm. rewrite <- !RtoC_mul. f_equal.
  pose proof (order_pos D nt pers ms HG). pose proof (stab_ge1 D nt pers ms HG _ (SD _ Si)). pose proof (stab_ge1 D nt pers ms HG _ (SD _ Sj)).
  apply sqrt_ratio; apply lt_0_INR; lia.
Qed.
Lemma wt_zero i j r g : i < length L -> j < length L -> S r -> valid g -> is_rep (fst (act g r)) -> fst (act g r) <> st j -> wt i j r = C0.
Proof.
  intros Hi Hj Hr Hg Rr Hn. destruct (L_nth j Hj) as (Sj & Rj & Cj & Nj). unfold wt.
  rewrite (V_zero D nt pers ms qs HG); [apply C_eq; cbn; ring|]. intros h Hh E. apply Hn. symmetry.
  apply (rep_unique D nt pers ms HG (st j) (fst (act g r)) (gadd nt pers g h)); [apply SD, Sj|apply (act_dom D nt pers ms HG); [exact Hg|apply SD, Hr]|exact Rj|exact Rr|apply (valid_gadd D nt pers ms HG)|].
  rewrite (act_gadd D nt pers ms HG) by first [assumption|apply SD, Sj]. cbn [fst]. rewrite E. reflexivity.
Qed.

(* what a lookup has to deliver *)
Definition lookup_ok (sf : bool * (N -> option (Z * list nat * Z))) : Prop :=
  forall r, D r -> exists rr g0 j g sg, snd sf r = Some (j, g, sg) /\ is_position (map fst L) rr j /\ valid g0 /\ fst (act g0 r) = rr /\ is_rep rr /\
    forall i, i < length L -> (0 <= j)%Z ->
      forall m, (if fst sf then scale_matrix_ele qs pers nt sg (nn (Z.to_nat j)) (nn i) g m else m)
                = (m * (ph g0 r * RtoC (sqrt (IZR (nn (Z.to_nat j)) / IZR (nn i)))))%C.
Variable sf : bool * (N -> option (Z * list nat * Z)).
Hypothesis Hsf : lookup_ok sf.

Definition val (o : option (C * nat)) (j : nat) : C := match o with Some (m, j') => if j' =? j then m else C0 | None => C0 end.
Lemma S_orbit r g : valid g -> D r -> S (fst (act g r)) -> S r.
Proof.
  intros Hg Hr H. rewrite <- (act_inv D nt pers ms HG g r Hg Hr).
  apply (act_S D nt pers ms S sts SD SC Hin); [apply (valid_ginv D nt pers ms HG)|exact H].
Qed.
Lemma element_ok op Am J i : acts_as M op Am -> i < length L ->
  exists o, matrix_element sf L qs pers nt op J i = Some o /\
    forall j, j < length L -> val o j = Csum sts (fun t => wt i j t * (J * Am t (st i)))%C.
Proof.
  intros Hop Hi. destruct (L_nth i Hi) as (Si & Ri & Ci & Ni).
  destruct (Hop (st i) J (SD _ Si)) as (r & m & E & Hr & HA). unfold matrix_element. rewrite E.
  assert (Sum : forall j, Csum sts (fun t => wt i j t * (J * Am t (st i)))%C = Csum sts (fun t => if (t =? r)%N then (wt i j t * m)%C else C0)).
  { intros j. apply Csum_ext. intros t Ht. rewrite HA by (apply SD, Hin, Ht). destruct (t =? r)%N; [reflexivity|ring]. }
  assert (InS : forall j, S r -> Csum sts (fun t => if (t =? r)%N then (wt i j t * m)%C else C0) = (wt i j r * m)%C).
  { intros j Sr. rewrite (Csum_single sts _ r Hnd); [rewrite N.eqb_refl; reflexivity|apply Hin, Sr|].
    intros x _ Hx. destruct (N.eqb_spec x r); [congruence|reflexivity]. }
  assert (OutS : forall j, ~ S r -> Csum sts (fun t => if (t =? r)%N then (wt i j t * m)%C else C0) = C0).
  { intros j Nr. apply Csum_zero. intros x Hx. destruct (N.eqb_spec x r) as [->|]; [|reflexivity]. exfalso. apply Nr, Hin, Hx. }
  destruct (N.eqb_spec r (st i)) as [->|Hd].
  - exists (Some (m, i)). split; [reflexivity|]. intros j Hj. rewrite Sum, InS by exact Si. cbn [val].
    destruct (Nat.eqb_spec i j) as [<-|Hn].
    + rewrite (wt_orbit i i (st i) (repeat 0 nt) Hi Hi Si (valid_zero D nt pers ms HG)); [|rewrite (act_zero D nt pers ms HG); reflexivity].
      assert (P0 : ph (repeat 0 nt) (st i) = C1).
      { unfold P_proj.ph. rewrite (act_zero D nt pers ms HG). cbn [snd]. replace (theta qs pers (repeat 0 nt)) with 0%R; [rewrite cis_0; apply C_eq; cbn; ring|].
        rewrite <- (thp_theta D nt pers ms qs HG), (thp_zeros pers ms qs 0%N 0 nt) by (try lia; intros; apply nth_repeat). reflexivity. }
      rewrite P0. replace (IZR (nn i) / IZR (nn i))%R with 1%R; [rewrite sqrt_1; apply C_eq; cbn; ring|].
      pose proof (stab_ge1 D nt pers ms HG _ (SD _ Si)). rewrite Ni, <- INR_IZR_INZ. field. apply not_0_INR. lia.
    + rewrite (wt_zero i j (st i) (repeat 0 nt) Hi Hj Si (valid_zero D nt pers ms HG)); rewrite ?(act_zero D nt pers ms HG); cbn [fst];
        [ring|exact Ri|intros E2; apply Hn; apply L_inj; assumption].
  - destruct (Hsf r Hr) as (rr & g0 & j0 & g & sg & Ef & Pos & Hg0 & Erep & Rrep & Scale). rewrite Ef.
    destruct Pos as [(k & Ek & ->)|[Nin ->]].
    + assert (Hk : k < length L).
      { rewrite <- (map_length fst). apply nth_error_Some. rewrite Ek. discriminate. }
      assert (Est : st k = rr).
      { rewrite <- (map_nth fst). cbn [fst]. apply nth_error_nth. exact Ek. }
      destruct (Z.ltb_spec (Z.of_nat k) 0); [lia|]. rewrite Nat2Z.id. eexists. split; [reflexivity|]. intros j Hj. rewrite Sum.
      assert (Sr : S r) by (apply (S_orbit r g0 Hg0 Hr); rewrite Erep, <- Est; apply (L_nth k Hk)).
      rewrite InS by exact Sr. cbn [val]. specialize (Scale i Hi ltac:(lia) m). rewrite Nat2Z.id in Scale. rewrite Scale.
      destruct (Nat.eqb_spec k j) as [<-|Hn].
      * rewrite (wt_orbit i k r g0 Hi Hk Sr Hg0) by congruence. ring.
      * rewrite (wt_zero i j r g0 Hi Hj Sr Hg0); [ring|rewrite Erep; exact Rrep|]. intros E2. apply Hn. apply L_inj; [assumption|assumption|congruence].
    + cbn [Z.ltb]. eexists. split; [reflexivity|]. intros j Hj. rewrite Sum. cbn [val]. symmetry.
      assert (Dec : S r \/ ~ S r) by (destruct (in_dec N.eq_dec r sts) as [H|H]; rewrite Hin in H; auto).
      destruct Dec as [Sr|Sr]; [|apply OutS; exact Sr]. rewrite InS by exact Sr.
      rewrite (wt_zero i j r g0 Hi Hj Sr Hg0); [ring|rewrite Erep; exact Rrep|]. intros E2. apply Nin. rewrite <- Erep, E2.
      apply in_map_iff. exists (nth j L (0%N, 0%Z)). split; [reflexivity|apply nth_In; exact Hj].
Qed.

(* one call of op *)
Lemma core_ok real op Am J : acts_as M op Am ->
  (real = false -> exists es, general_op_core real sf L qs pers nt op J = Some es) /\
  forall es, general_op_core real sf L qs pers nt op J = Some es ->
    forall i j, i < length L -> j < length L -> coo_matrix es j i = as_type real (Csum sts (fun t => wt i j t * (J * Am t (st i)))%C).
Proof.
  intros Hop. split.
  - intros ->. apply all_some_ok. intros x Hx. apply in_map_iff in Hx. destruct Hx as (i & <- & Hi). apply in_seq in Hi.
    destruct (element_ok op Am J i Hop ltac:(lia)) as (o & E & _). unfold op_cell. rewrite E. destruct o as [[m j]|]; discriminate.
  - intros es H i j Hi Hj. apply all_some_spec in H.
    assert (Cell : forall k, k < length L -> exists o e, matrix_element sf L qs pers nt op J k = Some o /\ nth_error es k = Some e /\
       (fst (fst e) = C0 /\ o = None \/ snd e = k /\ forall a, val o a = C0 \/ a = snd (fst e)) /\ (forall j, as_type real (val o j) = if ((snd (fst e) =? j) && (snd e =? k))%bool then fst (fst e) else C0)).
    { intros k Hk. destruct (element_ok op Am J k Hop Hk) as (o & E & _). exists o.
      assert (Ek : nth_error (map Some es) k = Some (op_cell real sf L qs pers nt op J k)).
      { rewrite <- H. rewrite nth_error_map. rewrite (nth_error_nth' _ 0) by (rewrite seq_length; exact Hk). rewrite seq_nth by exact Hk. reflexivity. }
      rewrite nth_error_map in Ek. destruct (nth_error es k) as [e|] eqn:Ee; [|discriminate]. cbn [option_map] in Ek. injection Ek as Ek.
      exists e. split; [exact E|]. split; [reflexivity|]. unfold op_cell in Ek. rewrite E in Ek. destruct o as [[m j0]|].
      - destruct (check_imag real m) as [me|] eqn:Ec; [|discriminate]. injection Ek as ->. cbn [fst snd]. apply check_imag_some in Ec. subst me.
        split; [right; split; [reflexivity|]; intros a; cbn [val]; destruct (Nat.eqb_spec j0 a); [right; congruence|left; reflexivity]|]. intros a. cbn [val]. rewrite Nat.eqb_refl, andb_true_r.
        destruct (j0 =? a); [reflexivity|apply as_type_0].
      - injection Ek as ->. cbn [fst snd]. split; [left; split; reflexivity|]. intros a. cbn [val]. rewrite as_type_0. destruct (_ && _)%bool; reflexivity. }
    assert (Len : length es = length L).
    { rewrite <- (map_length Some es), <- H, map_length, seq_length. reflexivity. }
    unfold coo_matrix.
    assert (Es : Csum es (fun e => if ((snd (fst e) =? j) && (snd e =? i))%bool then fst (fst e) else C0)
       = Csum (seq 0 (length es)) (fun k => let e := nth k es (C0, 0, 0) in if ((snd (fst e) =? j) && (snd e =? i))%bool then fst (fst e) else C0)).
    { clear. induction es as [|e es IH] using rev_ind; [reflexivity|]. rewrite app_length, Nat.add_1_r, seq_S, !Csum_app. f_equal.
      - rewrite IH. apply Csum_ext. intros k Hk. apply in_seq in Hk. cbv zeta. rewrite app_nth1 by lia. reflexivity.
      - cbn [plus]. rewrite !Csum_cons, !Csum_nil. cbv zeta. rewrite app_nth2, Nat.sub_diag by lia. reflexivity. }
    rewrite Es, Len, (Csum_single _ _ i (seq_NoDup _ _)); [|apply in_seq; lia|].
    + destruct (Cell i Hi) as (o & e & Eo & Ee & _ & Ev). cbv zeta. rewrite (nth_error_nth _ _ _ Ee), <- Ev.
      destruct (element_ok op Am J i Hop Hi) as (o' & Eo' & Hv). rewrite Eo in Eo'. injection Eo' as <-. rewrite Hv by exact Hj. reflexivity.
    + intros k Hk Hn. apply in_seq in Hk. destruct (Cell k ltac:(lia)) as (o & e & _ & Ee & [[Ez _]|[Es' _]] & _); cbv zeta; rewrite (nth_error_nth _ _ _ Ee).
      * rewrite Ez. destruct (_ && _)%bool; reflexivity.
      * rewrite Es'. destruct (Nat.eqb_spec k i); [congruence|]. rewrite andb_false_r. reflexivity.
Qed.

(* one term *)
Variables (n_sites : nat) (allowed : list ascii) (scale : list ascii -> R) (op : list (ascii * nat) -> N -> C -> option (N * C)).
Variable mat : list (ascii * nat) -> cmat.
Definition okl (l : list (ascii * nat)) : Prop := Forall (fun oi => In (fst oi) allowed /\ snd oi < n_sites) l.
Hypothesis Hop : forall l, okl l -> acts_as M (op l) (mat l).
Lemma okl_checks l : okl l <-> existsb (fun oi => n_sites <=? snd oi) l = false /\ existsb (fun oi => negb (existsb (Ascii.eqb (fst oi)) allowed)) l = false.
Proof.
  unfold okl. induction l as [|[o i] l IH]; [cbn; split; auto|]. rewrite Forall_cons_iff, IH. cbn [existsb fst snd]. rewrite !orb_false_iff.
  assert (E1 : (n_sites <=? i) = false <-> i < n_sites) by (rewrite Nat.leb_gt; lia).
  assert (E2 : negb (existsb (Ascii.eqb o) allowed) = false <-> In o allowed).
  { rewrite negb_false_iff, existsb_exists. split; [intros (x & Hx & E); apply Ascii.eqb_eq in E; subst; exact Hx|intros H; exists o; split; [exact H|apply Ascii.eqb_refl]]. }
  tauto.
Qed.
Lemma coo_filter es r c x : coo_matrix (map (fun e => ((fst (fst e) * RtoC x)%C, snd (fst e), snd e)) (filter (fun e => negb (Czero (fst (fst e)))) es)) r c
  = (coo_matrix es r c * RtoC x)%C.
Proof.
  unfold coo_matrix. induction es as [|e es IH]; [cbn [filter map]; rewrite !Csum_nil; ring|]. cbn [filter]. rewrite Csum_cons.
  destruct (Czero (fst (fst e))) eqn:E; cbn [negb].
  - rewrite IH. replace (fst (fst e)) with C0; [destruct (_ && _)%bool; ring|].
    unfold Czero, Rzero in E. destruct (Req_EM_T (fst (fst (fst e))) 0) as [E1|]; [|discriminate]. destruct (Req_EM_T (snd (fst (fst e))) 0) as [E2|]; [|discriminate].
    symmetry. apply C_eq; assumption.
  - cbn [map]. rewrite Csum_cons, IH. cbn [fst snd]. destruct (_ && _)%bool; ring.
Qed.
Notation OpF := (fun real => Op real sf L qs pers nt n_sites allowed scale op).
Lemma Op_ok l J : okl l ->
  (exists es, OpF false l J = Some es) /\
  forall real es, OpF real l J = Some es -> forall i j, i < length L -> j < length L ->
    coo_matrix es j i = as_type real (Csum sts (fun t => wt i j t * (J * RtoC (scale (map fst l)) * mat l t (st i))))%C.
Proof.
  intros Hl. pose proof (proj1 (okl_checks l) Hl) as [C1' C2']. unfold Op. rewrite C1', C2'. split.
  - destruct (core_ok false (op l) (mat l) J (Hop l Hl)) as [H _]. destruct (H eq_refl) as [es He].
    destruct L; [eexists; reflexivity|]. rewrite He. eexists. reflexivity.
  - intros real es He i j Hi Hj. destruct (core_ok real (op l) (mat l) J (Hop l Hl)) as [_ H].
    assert (exists es0, general_op_core real sf L qs pers nt (op l) J = Some es0 /\
      es = map (fun e => ((fst (fst e) * RtoC (scale (map fst l)))%C, snd (fst e), snd e)) (filter (fun e => negb (Czero (fst (fst e)))) es0)) as (es0 & E0 & ->).
    { destruct L as [|p L']; [cbn in Hi; lia|]. destruct (general_op_core real sf (p :: L') qs pers nt (op l) J) as [es0|]; [|discriminate].
      exists es0. split; [reflexivity|congruence]. }
    rewrite coo_filter, (H es0 E0 i j Hi Hj), <- as_type_R, <- Csum_mul_r. f_equal. apply Csum_ext. intros t _. ring.
Qed.
Definition H_total (ts : list (list (ascii * nat) * C)) : cmat :=
  fun t u => Csum ts (fun x => snd x * RtoC (scale (map fst (fst x))) * mat (fst x) t u)%C.
Lemma make_matrix_reduced ts : Forall (fun x => okl (fst x)) ts -> commutes_with_maps S nt ms (H_total ts) ->
  (exists Mx, make_matrix (OpF false) ts = Some Mx) /\
  forall real Mx, make_matrix (OpF real) ts = Some Mx -> forall i j, i < length L -> j < length L ->
    Mx j i = as_type real (reduced sts pers qs ms (H_total ts) (st j) (st i)).
Proof.
  intros Hts HC. rewrite Forall_forall in Hts. split.
  - apply make_matrix_ok. intros x Hx E. destruct (Op_ok (fst x) (snd x) (Hts x Hx)) as [[es He] _]. congruence.
  - intros real Mx HM i j Hi Hj. destruct (L_nth i Hi) as (Si & _). destruct (L_nth j Hj) as (Sj & _).
    rewrite (make_matrix_sum _ _ _ HM). unfold reduced.
    rewrite (reduced_entry D nt pers ms qs HG S sts SD SC Hnd Hin (H_total ts) HC (st i) (st j) Si Sj).
    transitivity (Csum ts (fun x => as_type real (Csum sts (fun t => wt i j t * (snd x * RtoC (scale (map fst (fst x))) * mat (fst x) t (st i))))))%C.
    + apply Csum_ext. intros x Hx. destruct (Op_ok (fst x) (snd x) (Hts x Hx)) as [_ H].
      destruct (Op real sf L qs pers nt n_sites allowed scale op (fst x) (snd x)) as [es|] eqn:E; [apply (H real es E i j Hi Hj)|].
      exfalso. assert (Some_all : forall ts off dg, In x ts -> make_matrix_loop (OpF real) ts off dg = None).
      { clear - E. induction ts as [|[l J] ts IH]; [intros off dg []|]. intros off dg [Hx|Hx]; cbn [make_matrix_loop].
        - subst x. cbn [fst snd] in E. rewrite E. reflexivity.
        - destruct (Op real sf L qs pers nt n_sites allowed scale op l J) as [es|]; [|reflexivity]. destruct (0 <? length es); [destruct (is_diagonal es)|]; apply IH; exact Hx. }
      unfold make_matrix in HM. rewrite Some_all in HM by exact Hx. discriminate.
    + rewrite <- as_type_sum. f_equal. rewrite Csum_swap, <- Csum_mul_l. apply Csum_ext. intros t _. unfold H_total, wt. rewrite Csum_mul_l. ring.
Qed.
End Op.

(* ---- the lookups of the code ---- *)
Section Lookup.
Variables (M : nat) (nt : nat) (pers : list nat) (ms : smap) (qs : list Z).
Notation D := (fun s : N => (s < N.of_nat M)%N).
Hypothesis HG : good_maps D nt pers ms.
Variables (S : N -> Prop).
Hypothesis SD : forall s, S s -> D s.
Variable L : list (N * Z).
Hypothesis HL : lists_decreasing (in_block S nt pers qs ms) L.
Notation act := (gact ms).
Notation valid := (valid nt pers).
Notation nn i := (snd (nth i L (0%N, 0%Z))).
Notation st i := (fst (nth i L (0%N, 0%Z))).
Notation ph := (ph pers ms qs).
Lemma ph_zero r : ph (repeat 0 nt) r = C1.
Proof.
  unfold P_proj.ph. rewrite (act_zero D nt pers ms HG). cbn [snd]. replace (theta qs pers (repeat 0 nt)) with 0%R; [rewrite cis_0; apply C_eq; cbn; ring|].
  rewrite <- (thp_theta D nt pers ms qs HG), (thp_zeros pers ms qs 0%N 0 nt) by (try lia; intros; apply nth_repeat). reflexivity.
Qed.
(* when every map acts trivially all norms are equal *)
Lemma trivial_ok f : (forall r g, D r -> valid g -> fst (act g r) = r) ->
  (forall r, D r -> exists j, f r = Some (j, [], 1%Z) /\ is_position (map fst L) r j) -> lookup_ok M nt pers ms qs L (false, f).
Proof.
  intros HT Hf r Hr. destruct (Hf r Hr) as (j & Ej & Pos). exists r, (repeat 0 nt), j, [], 1%Z. cbn [fst snd].
  split; [exact Ej|]. split; [exact Pos|]. split; [apply (valid_zero D nt pers ms HG)|]. split; [rewrite (act_zero D nt pers ms HG); reflexivity|].
  split.
  - intros t Ht. apply (reach_act' D nt pers ms HG) in Ht; [|exact Hr]. destruct Ht as (g & Hg & <-). rewrite HT by assumption. lia.
  - intros i Hi Hj m. rewrite ph_zero.
    assert (Hjl : Z.to_nat j < length L).
    { destruct Pos as [(k & Ek & ->)|[_ ->]]; [|lia]. rewrite Nat2Z.id, <- (map_length fst). apply nth_error_Some. congruence. }
    assert (NN : forall k, k < length L -> nn k = Z.of_nat (group_order pers)).
    { intros k Hk. destruct (L_nth nt pers ms qs S L HL k Hk) as (Sk & _ & _ & ->). f_equal. unfold stabilisers. rewrite <- group_len.
      f_equal. rewrite filter_all; [reflexivity|]. intros g Hg. apply N.eqb_eq. apply HT; [apply SD, Sk|apply (group_valid D nt pers ms HG), Hg]. }
    rewrite !NN by assumption. pose proof (order_pos D nt pers ms HG).
    replace (IZR (Z.of_nat (group_order pers)) / IZR (Z.of_nat (group_order pers)))%R with 1%R; [rewrite sqrt_1; apply C_eq; cbn; ring|].
    rewrite <- INR_IZR_INZ. field. apply not_0_INR. lia.
Qed.
Lemma get_index_ok N_p pfx bb be : nt <= 32 -> (0 < N_p -> forall s, is_position (map fst L) s (rep_position_blocks bb be (map fst L) (pfx s) s)) ->
  lookup_ok M nt pers ms qs L (get_index M (map fst L) pers ms nt N_p pfx bb be).
Proof.
  intros Hnt Hb. unfold get_index. pose proof (A_dec nt pers ms qs S L HL) as Dec.
  assert (Hfind : forall s, is_position (map fst L) s ((if 0 <? N_p then (fun r => rep_position_blocks bb be (map fst L) (pfx r) r) else rep_position (map fst L)) s)).
  { intros s. destruct (Nat.ltb_spec 0 N_p); [apply Hb; assumption|apply rep_position_ok; exact Dec]. }
  set (find := if 0 <? N_p then _ else _) in *.
  destruct (Nat.eqb_spec (length (map fst L)) M) as [E|E].
  - assert (All : forall x, In x (map fst L) <-> D x).
    { assert (NDA : NoDup (map fst L)).
      { clear - Dec. unfold decreasing in Dec. induction Dec as [|a l H IH F]; constructor; [|exact IH]. intros Hx. rewrite Forall_forall in F. specialize (F a Hx). lia. }
      assert (Inc : incl (map fst L) (all_states M)).
      { intros x Hx. apply in_map_iff in Hx. destruct Hx as ([y k] & <- & Hy). cbn [fst]. apply In_all_states. apply SD. apply HL in Hy. apply Hy. }
      assert (Inc2 : incl (all_states M) (map fst L)).
      { apply NoDup_length_incl; [exact NDA|unfold all_states; rewrite map_length, seq_length; lia|exact Inc]. }
      intros x. split; intros Hx; [apply In_all_states, Inc, Hx|apply Inc2, In_all_states, Hx]. }
    assert (HT : forall r g, D r -> valid g -> fst (act g r) = r).
    { intros r g Hr Hg. assert (Rep : forall x, D x -> is_rep nt ms x).
      { intros x Hx. apply All in Hx. apply in_map_iff in Hx. destruct Hx as ([y k] & <- & Hy). apply HL in Hy. destruct Hy as (_ & Hy & _). exact Hy. }
      symmetry. apply (rep_unique D nt pers ms HG r (fst (act g r)) g); [exact Hr|apply (act_dom D nt pers ms HG); assumption|apply Rep, Hr|apply Rep, (act_dom D nt pers ms HG); assumption|exact Hg|reflexivity]. }
    apply trivial_ok; [exact HT|]. intros r Hr. eexists. split; [reflexivity|]. apply (full_position M (map fst L) r Dec All Hr).
  - destruct (Nat.ltb_spec 0 nt) as [Hpos|Hz].
    + intros r Hr. destruct (index_symm_ok D nt pers ms find (map fst L) r 1%Z HG Hr (conj Hpos Hnt) Hfind) as (rr & j & g & sg & Ei & Pos & Rch & Mx & Cs).
      assert (Rep : is_rep nt ms rr).
      { intros t Ht. apply Mx. apply (reach_trans _ _ _ _ _ Rch Ht). }
      cbn [fst snd]. destruct Cs as [(-> & -> & ->)|(_ & Hg & Ea)].
      * exists r, (repeat 0 nt), j, (repeat 0 nt), 1%Z. repeat (split; [first [exact Ei|exact Pos|apply (valid_zero D nt pers ms HG)|rewrite (act_zero D nt pers ms HG); reflexivity|exact Rep]|]).
        intros i Hi Hj m. rewrite ph_zero. unfold scale_matrix_ele. fold (thp pers qs nt (repeat 0 nt)).
        rewrite (thp_zeros pers ms qs 0%N 0 nt) by (try lia; intros; apply nth_repeat). unfold thp. cbn [seq Rsum fold_right]. rewrite Ropp_0, cis_0.
        replace (RtoC (IZR 1)) with C1 by reflexivity. ring.
      * apply (valid_elem D nt pers ms HG) in Hg.
        exists rr, g, j, g, sg. repeat (split; [first [exact Ei|exact Pos|exact Hg|rewrite Ea; reflexivity|exact Rep]|]).
        intros i Hi Hj m. unfold scale_matrix_ele. fold (thp pers qs nt g). rewrite (thp_theta D nt pers ms qs HG), <- cis_conj.
        unfold P_proj.ph. rewrite Ea. cbn [snd]. ring.
    + assert (nt = 0) by lia. apply trivial_ok.
      * intros r g Hr Hg. destruct Hg as [Hl _]. rewrite H in Hl. destruct g; [reflexivity|discriminate].
      * intros r Hr. eexists. split; [reflexivity|apply Hfind].
Qed.
End Lookup.
