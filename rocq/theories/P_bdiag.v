(* Lemmas for C59: sums of invariant matrices, terms grouped by drive, the loop over blocks. *)
From Verif Require Import AuxN SpecC SpecExpm SpecLanczos SpecExpect SpecFloquet SpecBlock SpecDriven M_symop P_floquet M_block P_block M_bdiag.
Local Open Scope nat_scope.

Lemma inv_sum n {X} (l : list X) (c : X -> C) (A : X -> mat) cols (B : X -> mat) : (forall x, In x l -> invariant n (A x) cols (B x)) ->
  invariant n (fun i j => Csum l (fun x => c x * A x i j)%C) cols (fun i j => Csum l (fun x => c x * B x i j)%C).
Proof.
  intros H k j Hk Hj. unfold apply.
  rewrite (Csum_ext _ _ (fun i => Csum l (fun x => c x * (A x k i * nth j cols (fun _ => C0) i)))%C).
  2:{ intros i _. rewrite <- Csum_mul_r. apply Csum_ext. intros. ring. }
  rewrite Csum_swap.
  rewrite (Csum_ext (seq 0 (length cols)) _ (fun i => Csum l (fun x => c x * (nth i cols (fun _ => C0) k * B x i j)))%C).
  2:{ intros i _. rewrite <- Csum_mul_l. apply Csum_ext. intros. ring. }
  rewrite (Csum_swap (seq 0 (length cols))). apply Csum_ext. intros x Hx. rewrite !Csum_mul_l. f_equal. exact (H x Hx k j Hk Hj).
Qed.
Lemma inv_add n A A' cols B B' : invariant n A cols B -> invariant n A' cols B' ->
  invariant n (fun i j => A i j + A' i j)%C cols (fun i j => B i j + B' i j)%C.
Proof.
  intros H H' k j Hk Hj. unfold apply.
  rewrite (Csum_ext _ _ (fun i => A k i * nth j cols (fun _ => C0) i + A' k i * nth j cols (fun _ => C0) i)%C) by (intros; ring).
  rewrite Csum_add. rewrite (Csum_ext (seq 0 (length cols)) _ (fun i => nth i cols (fun _ => C0) k * B i j + nth i cols (fun _ => C0) k * B' i j)%C) by (intros; ring).
  rewrite Csum_add. f_equal; [exact (H k j Hk Hj)|exact (H' k j Hk Hj)].
Qed.
Lemma inv_sum1 n {X} (l : list X) (A : X -> mat) cols (B : X -> mat) : (forall x, In x l -> invariant n (A x) cols (B x)) ->
  invariant n (fun i j => Csum l (fun x => A x i j)) cols (fun i j => Csum l (fun x => B x i j)).
Proof.
  intro H. assert (P := inv_sum n l (fun _ => C1) A cols B H). revert P. apply inv_ext; intros; apply Csum_ext; intros; ring.
Qed.
Lemma block_dim l : fst (block_diag_of l) = list_sum (map fst l).
Proof. induction l as [|x l IH]; [reflexivity|]. cbn. unfold block_diag_of in IH. now rewrite IH. Qed.

Section B.
Variable B : builder.
Notation dlt := (list (term B * drive B)).
Lemma drives_spec (d : dlt) : NoDup (drives B d) /\ forall f, In f (drives B d) <-> In f (map snd d).
Proof.
  unfold drives. assert (G : forall (d : dlt) ds, NoDup ds ->
    let r := fold_left (fun ds e => if in_dec (drive_eq B) (snd e) ds then ds else ds ++ [snd e]) d ds in
    NoDup r /\ forall f, In f r <-> In f ds \/ In f (map snd d)).
  { clear d. induction d as [|e d IH]; intros ds N; cbn [fold_left map In]; [split; [exact N|intro; tauto]|].
    destruct (in_dec _ (snd e) ds) as [Hi|Hi].
    - destruct (IH ds N) as [I1 I2]. split; [exact I1|]. intro f. rewrite I2. split; [tauto|]. intros [H|[<-|H]]; auto.
    - destruct (IH (ds ++ [snd e])) as [I1 I2].
      { clear IH. induction ds as [|a l IHl]; cbn; [constructor; [intros []|constructor]|]. inversion_clear N. cbn in Hi. constructor; [|apply IHl; tauto].
        rewrite in_app_iff. cbn. intuition congruence. }
      split; [exact I1|]. intro f. rewrite I2, in_app_iff. cbn. tauto. }
  destruct (G d [] (NoDup_nil _)) as [G1 G2]. split; [exact G1|]. intro f. rewrite G2. cbn. tauto.
Qed.
Lemma by_drive (d : dlt) (g : term B * drive B -> C) : forall ds, NoDup ds -> (forall e, In e d -> In (snd e) ds) ->
  Csum d g = Csum ds (fun f => Csum (filter (fun e => if drive_eq B (snd e) f then true else false) d) g).
Proof.
  intros ds N H. rewrite (Csum_ext ds _ (fun f => Csum d (fun e => if drive_eq B (snd e) f then g e else C0))).
  2:{ intros f _. rewrite Csum_filter. apply Csum_ext. intros e _. now destruct (drive_eq B (snd e) f). }
  rewrite Csum_swap. apply Csum_ext. intros e He. symmetry. rewrite (Csum_single ds _ (snd e) N (H e He)).
  - destruct (drive_eq B (snd e) (snd e)); congruence.
  - intros f _ Hf. destruct (drive_eq B (snd e) f); congruence.
Qed.

Variables (static : list (term B)) (dynamic : dlt).
Definition vals (b : bas B) : list (nat * mat) := map (fun e => (dim B b, snd e)) (make_dynamic B b dynamic).
Definition vanishes (b : bas B) (f : drive B) : bool := almost_zero B b (make_matrix B b (terms_of B dynamic f)).
Definition full (b : bas B) : Prop := forall f, In f (drives B dynamic) -> vanishes b f = false.
Lemma vals_eq b : vals b = map (fun f => (dim B b, make_matrix B b (terms_of B dynamic f))) (filter (fun f => negb (vanishes b f)) (drives B dynamic)).
Proof.
  unfold vals, make_dynamic. induction (drives B dynamic) as [|f l IH]; [reflexivity|]. cbn [map filter snd]. unfold vanishes at 1.
  destruct (almost_zero B b _); cbn [negb map snd]; [exact IH|]. f_equal. exact IH.
Qed.
Lemma filter_len {X} (p : X -> bool) l : length (filter p l) <= length l /\ (length (filter p l) = length l -> forall x, In x l -> p x = true).
Proof.
  induction l as [|x l [I1 I2]]; cbn; [split; [lia|intros _ ? []]|]. destruct (p x) eqn:E; cbn; split; try lia.
  intros HL y [<-|Hy]; [exact E|]. apply I2; [lia|exact Hy].
Qed.
Lemma vals_len b : length (vals b) <= length (drives B dynamic).
Proof. rewrite vals_eq, map_length. apply filter_len. Qed.
Lemma vals_len_full b : length (vals b) = length (drives B dynamic) <-> full b.
Proof.
  rewrite vals_eq, map_length. split.
  - intros HL f Hf. assert (E := proj2 (filter_len _ _) HL f Hf). cbv beta in E. destruct (vanishes b f); [discriminate|reflexivity].
  - intro F. assert (E : filter (fun f => negb (vanishes b f)) (drives B dynamic) = drives B dynamic); [|now rewrite E].
    unfold full in F. induction (drives B dynamic) as [|f l IH]; [reflexivity|]. cbn [filter]. rewrite (F f (or_introl eq_refl)). cbn [negb]. f_equal.
    apply IH. intros. apply F. now right.
Qed.
Lemma vals_full b : full b -> vals b = map (fun f => (dim B b, make_matrix B b (terms_of B dynamic f))) (drives B dynamic).
Proof.
  intro F. rewrite vals_eq. f_equal. unfold full in F. induction (drives B dynamic) as [|f l IH]; [reflexivity|]. cbn [filter].
  rewrite (F f (or_introl eq_refl)). cbn [negb]. f_equal. apply IH. intros. apply F. now right.
Qed.
Lemma vals_empty b : dim B b = 0 -> vals b = [].
Proof.
  intro E. rewrite vals_eq. assert (V : forall f, vanishes b f = true) by (intro; unfold vanishes, almost_zero; rewrite E; reflexivity).
  induction (drives B dynamic) as [|f l IH]; [reflexivity|]. cbn [filter]. rewrite V. cbn. exact IH.
Qed.
Definition one {X} (x : option X) : list X := match x with Some y => [y] | None => [] end.
Definition column (k : nat) (bs : list (bas B)) : list (nat * mat) := flat_map (fun b => one (nth_error (vals b) k)) bs.
Fixpoint dlist (k : nat) (order : list (drive B)) (bs : list (bas B)) : list (list (nat * mat) * drive B) :=
  match order with [] => [] | f :: o => (column k bs, f) :: dlist (S k) o bs end.
Lemma dlist_nil order : forall k, dlist k order [] = map (fun f => ([], f)) order.
Proof. induction order as [|f o IH]; intro k; [reflexivity|]. cbn. now rewrite IH. Qed.
Lemma skipn_nth {X} (l : list X) : forall k, skipn k l = one (nth_error l k) ++ skipn (S k) l.
Proof. induction l as [|x l IH]; intros [|k]; try reflexivity. cbn [skipn nth_error]. rewrite IH. reflexivity. Qed.
Lemma column_snoc k bs b : column k (bs ++ [b]) = column k bs ++ one (nth_error (vals b) k).
Proof. unfold column. rewrite flat_map_app. cbn. now rewrite app_nil_r. Qed.
Lemma append_dlist b bs : forall order k, length (vals b) <= k + length order ->
  append_all B (skipn k (vals b)) (dlist k order bs) = Some (dlist k order (bs ++ [b])).
Proof.
  induction order as [|f o IH]; intros k HL; cbn [dlist length] in *.
  - rewrite skipn_all2 by lia. reflexivity.
  - rewrite skipn_nth, column_snoc. destruct (nth_error (vals b) k) as [M|] eqn:E.
    + cbn [one app append_all]. rewrite IH by lia. reflexivity.
    + apply nth_error_None in E. rewrite skipn_all2 by lia. cbn [one app append_all]. rewrite app_nil_r.
      assert (Q : append_all B (skipn (S k) (vals b)) (dlist (S k) o bs) = Some (dlist (S k) o (bs ++ [b]))) by (apply IH; lia).
      rewrite skipn_all2 in Q by lia. cbn [append_all] in Q. injection Q as ->. reflexivity.
Qed.
Variable order : list (drive B).
Hypothesis HO : Permutation order (drives B dynamic).
Definition state (c : bool) (bs : list (bas B)) : loop_state B :=
  {| check := c; P_list := map (proj B) bs; static_mats := map (fun b => (dim B b, make_matrix B b static)) bs; dynamic_list := dlist 0 order bs |}.
Lemma step_ok c bs block : (c = true -> passes B (con B block) = true) ->
  add B static dynamic (Gives (state c bs)) block = Gives (state false (bs ++ [con B block])).
Proof.
  intro HC. unfold add, state at 1. cbn [check]. assert (E : (c && negb (passes B (con B block)))%bool = false) by (destruct c; [rewrite HC; reflexivity|reflexivity]).
  cbn zeta. rewrite E. cbn [dynamic_list P_list static_mats state]. fold (vals (con B block)).
  assert (A := append_dlist (con B block) bs order 0). cbn [skipn] in A. rewrite A.
  - unfold state. now rewrite !map_app.
  - rewrite (Permutation_length HO). apply vals_len.
Qed.
Lemma loop_ok : forall blocks bs, fold_left (add B static dynamic) blocks (Gives (state false bs)) = Gives (state false (bs ++ map (con B) blocks)).
Proof.
  induction blocks as [|x l IH]; intro bs; cbn [fold_left map]; [now rewrite app_nil_r|].
  rewrite step_ok by discriminate. rewrite IH, <- app_assoc. reflexivity.
Qed.
Definition dims (bs : list (bas B)) : nat := list_sum (map (dim B) bs).
Lemma column_dim k bs : list_sum (map fst (column k bs)) <= dims bs /\
  (list_sum (map fst (column k bs)) = dims bs -> forall b, In b bs -> 0 < dim B b -> k < length (vals b)).
Proof.
  induction bs as [|b bs [I1 I2]]; [split; [unfold column, dims; cbn; lia|intros _ ? []]|].
  unfold column, dims in *. cbn [flat_map map]. rewrite map_app, list_sum_app. cbn [list_sum fold_right].
  change (fold_right Nat.add 0 (map (dim B) bs)) with (list_sum (map (dim B) bs)).
  destruct (nth_error (vals b) k) as [M|] eqn:E; cbn [one map list_sum fold_right].
  - assert (EM : fst M = dim B b). { apply nth_error_In in E. unfold vals in E. apply in_map_iff in E. destruct E as (e & <- & _). reflexivity. }
    split; [lia|]. intros HS b' [<-|Hb]; [intros _; apply nth_error_Some; congruence|]. apply I2; [lia|exact Hb].
  - split; [lia|]. intros HS b' [<-|Hb]; [|apply I2; [lia|exact Hb]]. lia.
Qed.
Lemma column_full bs k : (forall b, In b bs -> 0 < dim B b -> full b) -> forall f, nth_error (drives B dynamic) k = Some f ->
  column k bs = map (fun b => (dim B b, make_matrix B b (terms_of B dynamic f))) (filter (fun b => 0 <? dim B b) bs).
Proof.
  intros HF f Hf. unfold column. induction bs as [|b bs IH]; [reflexivity|]. cbn [flat_map filter].
  rewrite IH by (intros; apply HF; [now right|assumption]). destruct (Nat.ltb_spec 0 (dim B b)) as [Hd|Hd].
  - cbn [map]. rewrite (vals_full b) by (apply HF; [now left|exact Hd]). rewrite nth_error_map, Hf. reflexivity.
  - rewrite (vals_empty b) by lia. destruct k; reflexivity.
Qed.
Lemma filter_dims bs : list_sum (map (dim B) (filter (fun b => 0 <? dim B b) bs)) = dims bs.
Proof.
  unfold dims. induction bs as [|b bs IH]; [reflexivity|]. cbn [filter map list_sum fold_right]. destruct (Nat.ltb_spec 0 (dim B b)); cbn [map list_sum fold_right] in *.
  - unfold list_sum in IH. now rewrite IH.
  - unfold list_sum in IH. rewrite IH. lia.
Qed.
Lemma dlist_in bs x : forall order' k, In x (dlist k order' bs) -> exists i, i < length order' /\ nth_error order' i = Some (snd x) /\ fst x = column (k + i) bs.
Proof.
  induction order' as [|f o IH]; intros k Hi; [destruct Hi|]. cbn [dlist] in Hi. destruct Hi as [<-|Hi].
  - exists 0. cbn. rewrite Nat.add_0_r. split; [lia|auto].
  - destruct (IH _ Hi) as (i & H1 & H2 & H3). exists (S i). cbn. split; [lia|]. split; [exact H2|]. rewrite H3. f_equal. lia.
Qed.
Lemma dlist_has bs : forall order' k i, i < length order' -> exists f, In (column (k + i) bs, f) (dlist k order' bs).
Proof.
  induction order' as [|f o IH]; intros k i Hi; [cbn in Hi; lia|]. destruct i as [|i].
  - exists f. rewrite Nat.add_0_r. now left.
  - cbn in Hi. destruct (IH (S k) i) as [g Hg]; [lia|]. exists g. right. replace (k + S i) with (S k + i) by lia. exact Hg.
Qed.
Definition bases (kwargs : blk) (blocks : list blk) : list (bas B) := map (fun block => con B (update block kwargs)) blocks.
Definition sized (bs : list (bas B)) : Prop := forall b, In b bs -> 0 < dim B b -> full b.
Definition built (bs : list (bas B)) : result B :=
  {| P := concat (map (proj B) bs); H_dim := dims bs; H_static := snd (block_diag_of (map (fun b => (dim B b, make_matrix B b static)) bs));
     H_dynamic := map (fun x => (snd x, snd (block_diag_of (fst x)))) (dlist 0 order bs) |}.
Lemma run_loop blocks kwargs first rest : blocks = first :: rest -> passes B (con B (update first kwargs)) = true ->
  (sized (bases kwargs blocks) -> block_diag_hamiltonian B blocks static dynamic kwargs order = Gives (built (bases kwargs blocks))) /\
  (~ sized (bases kwargs blocks) -> block_diag_hamiltonian B blocks static dynamic kwargs order = Fails ValueError).
Proof.
  intros -> HP. unfold block_diag_hamiltonian. rewrite <- (dlist_nil order 0).
  change {| check := true; P_list := []; static_mats := []; dynamic_list := dlist 0 order [] |} with (state true []).
  cbn [map fold_left]. rewrite step_ok by auto. rewrite loop_ok. cbn [app]. rewrite map_map.
  change (con B (update first kwargs) :: map (fun x => con B (update x kwargs)) rest) with (bases kwargs (first :: rest)).
  set (bs := bases kwargs (first :: rest)).
  assert (ES : static_mats B (state false bs) = (dim B (con B (update first kwargs)), make_matrix B (con B (update first kwargs)) static) ::
    map (fun b => (dim B b, make_matrix B b static)) (bases kwargs rest)) by reflexivity.
  rewrite ES. rewrite <- ES. cbn zeta. cbn [state static_mats dynamic_list P_list].
  assert (ED : fst (block_diag_of (map (fun b => (dim B b, make_matrix B b static)) bs)) = dims bs) by (rewrite block_dim, map_map; reflexivity).
  rewrite ED. clearbody bs. clear ES. split.
  - intro HS. assert (EF : forallb (fun x => fst (snd x) =? dims bs) (map (fun x => (snd x, block_diag_of (fst x))) (dlist 0 order bs)) = true).
    { apply forallb_forall. intros y Hy. apply in_map_iff in Hy. destruct Hy as (x & <- & Hx). cbn [fst snd]. apply dlist_in in Hx.
      destruct Hx as (i & Hi & _ & ->). cbn [Nat.add]. apply Nat.eqb_eq. rewrite block_dim.
      destruct (nth_error (drives B dynamic) i) as [f|] eqn:Ef.
      - rewrite (column_full bs i HS f Ef), map_map. cbn [fst]. apply filter_dims.
      - apply nth_error_None in Ef. rewrite (Permutation_length HO) in Hi. lia. }
    rewrite EF. unfold built. now rewrite map_map.
  - intro HN. destruct (forallb _ _) eqn:EF; [|reflexivity]. exfalso. apply HN. intros b Hb Hd. apply vals_len_full.
    rewrite forallb_forall in EF. assert (HL := vals_len b). destruct (Nat.eq_dec (length (vals b)) (length (drives B dynamic))) as [|Hne]; [assumption|exfalso].
    assert (Hlt : length (vals b) < length order) by (rewrite (Permutation_length HO); lia).
    destruct (dlist_has bs order 0 (length (vals b)) Hlt) as [f Hf]. cbn [Nat.add] in Hf.
    specialize (EF (f, block_diag_of (column (length (vals b)) bs))). cbn [fst snd] in EF.
    assert (Q := EF ltac:(apply in_map_iff; eexists; split; [|exact Hf]; reflexivity)). apply Nat.eqb_eq in Q. rewrite block_dim in Q.
    assert (Z := proj2 (column_dim (length (vals b)) bs) Q b Hb Hd). lia.
Qed.
Lemma first_fails blocks kwargs first rest : blocks = first :: rest -> passes B (con B (update first kwargs)) = false ->
  block_diag_hamiltonian B blocks static dynamic kwargs order = Fails TypeError.
Proof.
  intros -> HP. unfold block_diag_hamiltonian. cbn [map fold_left]. unfold add at 2. cbn [check]. rewrite HP. cbn [negb andb].
  assert (FR : forall l, fold_left (add B static dynamic) l (Fails TypeError) = Fails TypeError) by (induction l; auto). now rewrite FR.
Qed.

(* --- the matrix of the result --- *)

Lemma dlist_map bs rho : order = map rho (drives B dynamic) -> sized bs ->
  map (fun x => (snd x, snd (block_diag_of (fst x)))) (dlist 0 order bs) =
  map (fun f => (rho f, snd (block_diag_of (map (fun b => (dim B b, make_matrix B b (terms_of B dynamic f))) (filter (fun b => 0 <? dim B b) bs))))) (drives B dynamic).
Proof.
  intros EO HS. rewrite EO. clear EO. assert (G : forall ds k, (forall i, nth_error (drives B dynamic) (k + i) = nth_error ds i) ->
    map (fun x => (snd x, snd (block_diag_of (fst x)))) (dlist k (map rho ds) bs) =
    map (fun f => (rho f, snd (block_diag_of (map (fun b => (dim B b, make_matrix B b (terms_of B dynamic f))) (filter (fun b => 0 <? dim B b) bs))))) ds).
  { induction ds as [|f ds IH]; intros k Hk; [reflexivity|]. cbn [map dlist fst snd]. f_equal.
    - assert (E := Hk 0). rewrite Nat.add_0_r in E. cbn in E. now rewrite (column_full bs k HS f E).
    - apply IH. intro i. change (nth_error ds i) with (nth_error (f :: ds) (S i)). rewrite <- Hk. f_equal. lia. }
  apply G. reflexivity.
Qed.
End B.
