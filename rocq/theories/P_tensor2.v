(* The bases of C13-C17 are factors of tensor bases: their Op has indices in range and is proportional to the coupling. *)
From Coq Require Import Ascii.
From Verif Require Import AuxN SpecC SpecTensor M_index M_ops M_opstr M_symop M_tensor P_tensor.
Local Open Scope nat_scope.

(* a lattice basis as a factor; full, proj, project, index: the other members *)
Definition lattice_factor (OpF : list (ascii * nat) -> C -> option (list (C * nat * nat))) (Ns : nat)
  (index : list (list ascii) -> option nat) (full : nat) (proj : nat -> nat -> C) (project : (nat -> C) -> nat -> C) : basis :=
  {| b_Ns := Ns;
     b_Op := fun s I J => if length s =? length I then
               match OpF (combine s I) J with Some es => Some (map (fun e => (fst (fst e), Z.of_nat (snd (fst e)), Z.of_nat (snd e))) es) | None => None end
             else None;
     b_index := index; b_full := full; b_proj := proj; b_project := project |}.

(* the action of an operator string on a state scales with the coupling *)
Definition scales (op : N -> C -> option (N * C)) : Prop := forall r r1 m, op r C1 = Some (r1, m) ->
  forall J, exists r', op r J = Some (r', (J * m)%C) /\ (r' = r1 \/ (r' = r /\ J = C0)).

Lemma Czero_spec m : Czero m = true <-> m = C0.
Proof.
  unfold Czero, Rzero. destruct m as [a b]. cbn. destruct (Req_EM_T a 0), (Req_EM_T b 0); cbn; split; intros H; try discriminate; try reflexivity; subst; try reflexivity;
  unfold C0 in H; injection H; intros; contradiction.
Qed.
Lemma Czero_mul J m : J <> C0 -> Czero (J * m)%C = Czero m.
Proof.
  intros HJ. apply eq_true_iff_eq. rewrite !Czero_spec. split; intros H; [|rewrite H; ring]. destruct (Cmul_integral _ _ H) as [|]; [contradiction|assumption].
Qed.
Lemma op_loop_scale local s J (HJ : J <> C0) : forall rl r m, op_loop local s rl r (J * m)%C = match op_loop local s rl r m with Some (r', m') => Some (r', (J * m')%C) | None => None end.
Proof.
  induction rl as [|[o i] rl IH]; intros r m; cbn [op_loop]; [reflexivity|]. destruct (local o i r) as [[r' f]|]; [|reflexivity].
  replace (J * m * f)%C with (J * (m * f))%C by ring. rewrite (Czero_mul J _ HJ). destruct (Czero (m * f)%C); [reflexivity|]. apply IH.
Qed.
Lemma op_loop_zero local s : forall rl r m r1 m1, op_loop local s rl r m = Some (r1, m1) -> exists r', op_loop local s rl r C0 = Some (r', C0) /\ (r' = r1 \/ r' = s).
Proof.
  intros rl r m r1 m1 E. destruct rl as [|[o i] rl]; cbn [op_loop] in *; [injection E as <- <-; exists r; tauto|].
  destruct (local o i r) as [[r' f]|]; [|discriminate]. replace (C0 * f)%C with C0 by ring. rewrite (proj2 (Czero_spec C0) eq_refl). exists s. tauto.
Qed.
Lemma op_loop_scales local l : scales (fun r m => op_loop local r (rev l) r m).
Proof.
  intros r r1 m E J. destruct (Czero J) eqn:Z0.
  - apply Czero_spec in Z0. subst J. destruct (op_loop_zero local r (rev l) r _ _ _ E) as (r' & E' & H). exists r'. rewrite E'. split; [f_equal; f_equal; ring|tauto].
  - assert (HJ : J <> C0) by (intros ->; rewrite (proj2 (Czero_spec C0) eq_refl) in Z0; discriminate). exists r1. split; [|tauto].
    replace J with (J * C1)%C by ring. rewrite (op_loop_scale local r J HJ), E. f_equal. f_equal. ring.
Qed.
Lemma hcb_scales n l : scales (hcb_op n l). Proof. exact (op_loop_scales (hcb_local n) l). Qed.
Lemma fermion_scales bytes n l : scales (fermion_op bytes n l). Proof. exact (op_loop_scales (fermion_local bytes n) l). Qed.
Lemma diag_scales local sps n l : scales (diag_op local sps n l).
Proof.
  intros r r1 m E J. unfold diag_op in *. destruct (diag_loop local sps n r (rev l) r 1 1) as [[[r' dg] off]|]; [|discriminate].
  injection E as <- <-. exists r'. split; [|tauto]. f_equal. f_equal. ring.
Qed.

Section Cells.
Variables (sf : bool * (N -> option (Z * list nat * Z))) (bas : list (N * Z)) (qs : list Z) (pers : list nat) (nt : nat).
Hypothesis Hsf : forall r j g sg, snd sf r = Some (j, g, sg) -> (j < Z.of_nat (length bas))%Z.
Variable op : N -> C -> option (N * C).
Hypothesis Hop : scales op.

Lemma cell_scale J i m r c : op_cell false sf bas qs pers nt op C1 i = Some (m, r, c) ->
  exists r' c', op_cell false sf bas qs pers nt op J i = Some ((J * m)%C, r', c') /\ (r' = r /\ c' = c \/ J = C0).
Proof.
  clear Hsf. unfold op_cell, matrix_element. set (s := fst (nth i bas (0%N, 0%Z))). destruct (op s C1) as [[r1 m1]|] eqn:E; [|discriminate].
  destruct (Hop s r1 m1 E J) as (r2 & E2 & H2). rewrite E2. cbn [check_imag].
  assert (S : forall j g sg, (if fst sf then scale_matrix_ele qs pers nt sg (snd (nth (Z.to_nat j) bas (0%N, 0%Z))) (snd (nth i bas (0%N, 0%Z))) g (J * m1)%C else (J * m1)%C)
     = (J * (if fst sf then scale_matrix_ele qs pers nt sg (snd (nth (Z.to_nat j) bas (0%N, 0%Z))) (snd (nth i bas (0%N, 0%Z))) g m1 else m1))%C).
  { intros j g sg. destruct (fst sf); [unfold scale_matrix_ele; ring|reflexivity]. }
  assert (Z1 : forall x : C, J = C0 -> (J * x)%C = C0) by (intros x ->; ring).
  destruct H2 as [->|[-> HJ]].
  - destruct (r1 =? s)%N; [intros X; injection X as <- <- <-; eexists; eexists; split; [reflexivity|tauto]|].
    destruct (snd sf r1) as [[[j g] sg]|]; [|discriminate]. destruct (j <? 0)%Z; intros X; injection X as <- <- <-.
    + exists 0, 0. split; [|tauto]. f_equal. f_equal. f_equal. ring.
    + rewrite S. eexists; eexists; split; [reflexivity|tauto].
  - rewrite N.eqb_refl. intros X. exists i, i. split; [|tauto]. rewrite !(Z1 _ HJ). reflexivity.
Qed.
Lemma cell_range J i m r c : i < length bas -> op_cell false sf bas qs pers nt op J i = Some (m, r, c) -> r < length bas /\ c < length bas.
Proof.
  intros Hi. unfold op_cell, matrix_element. destruct (op _ J) as [[r1 m1]|]; [|discriminate]. destruct (r1 =? _)%N.
  - cbn [check_imag]. intros X. injection X as <- <- <-. lia.
  - destruct (snd sf r1) as [[[j g] sg]|] eqn:E; [|discriminate]. destruct (Z.ltb_spec j 0); [intros X; injection X as <- <- <-; lia|].
    cbn [check_imag]. intros X. injection X as <- <- <-. specialize (Hsf _ _ _ _ E). lia.
Qed.
Lemma core_range J es : general_op_core false sf bas qs pers nt op J = Some es -> Forall (fun e => snd (fst e) < length bas /\ snd e < length bas) es.
Proof.
  unfold general_op_core. assert (X : forall l es, (forall i, In i l -> i < length bas) -> all_some (map (op_cell false sf bas qs pers nt op J) l) = Some es ->
    Forall (fun e => snd (fst e) < length bas /\ snd e < length bas) es).
  { induction l as [|i l IH]; intros es' Hl E; cbn in E; [injection E as <-; constructor|].
    destruct (op_cell false sf bas qs pers nt op J i) as [[[m r] c]|] eqn:Ec; [|discriminate]. destruct (all_some _) as [r'|]; [|discriminate]. injection E as <-.
    constructor; [apply (cell_range J i m r c (Hl i (or_introl eq_refl)) Ec)|]. apply IH; [intros x Hx; apply Hl; right; exact Hx|reflexivity]. }
  apply X. intros i Hi. apply in_seq in Hi. lia.
Qed.
Lemma core_scale J es : general_op_core false sf bas qs pers nt op C1 = Some es ->
  exists es', general_op_core false sf bas qs pers nt op J = Some es' /\
    Forall2 (fun e e' => fst (fst e') = (J * fst (fst e))%C /\ (snd (fst e') = snd (fst e) /\ snd e' = snd e \/ J = C0)) es es'.
Proof.
  unfold general_op_core. generalize (seq 0 (length bas)) as l. intros l. revert es. induction l as [|i l IH]; intros es E; cbn [map all_some] in *.
  - injection E as <-. exists []. split; [reflexivity|constructor].
  - destruct (op_cell false sf bas qs pers nt op C1 i) as [[[m r] c]|] eqn:Ec; [|discriminate].
    destruct (all_some (map (op_cell false sf bas qs pers nt op C1) l)) as [r1|]; [|discriminate]. injection E as <-.
    destruct (IH r1 eq_refl) as (es' & E' & H'). destruct (cell_scale J i m r c Ec) as (r' & c' & Ec' & Hc). rewrite Ec', E'.
    eexists. split; [reflexivity|]. constructor; [cbn; split; [reflexivity|exact Hc]|exact H'].
Qed.
End Cells.

Lemma filter_entry J sc es es' : Forall2 (fun e e' : C * nat * nat => fst (fst e') = (J * fst (fst e))%C /\ (snd (fst e') = snd (fst e) /\ snd e' = snd e \/ J = C0)) es es' ->
  let out es := map (fun e : C * nat * nat => (fst (fst e), Z.of_nat (snd (fst e)), Z.of_nat (snd e))) (map (fun e => ((fst (fst e) * RtoC sc)%C, snd (fst e), snd e)) (filter (fun e => negb (Czero (fst (fst e)))) es)) in
  forall i j, entry (out es') i j = (J * entry (out es) i j)%C.
Proof.
  intros H out i j. unfold out, entry. rewrite !Csum_map, !Csum_filter. induction H as [|[[m r] c] [[m' r'] c'] es es' (E & H1) _ IH]; [rewrite !Csum_nil; ring|].
  rewrite !Csum_cons, IH. cbn [fst snd] in *. subst m'.
  assert (X : forall m, (if negb (Czero m) then m else C0) = m) by (intros x; destruct (Czero x) eqn:Z0; [apply Czero_spec in Z0; subst; reflexivity|reflexivity]).
  assert (Y : forall (m : C) (b : bool), (if negb (Czero m) then (if b then (m * RtoC sc)%C else C0) else C0) = if b then (m * RtoC sc)%C else C0).
  { intros x b. destruct (Czero x) eqn:Z0; [apply Czero_spec in Z0; subst; destruct b; cbn [negb]; try reflexivity; ring|reflexivity]. }
  rewrite !Y. destruct H1 as [[-> ->]|HJ].
  - destruct ((_ =? _) && _)%Z; ring.
  - subst J. destruct ((_ =? _) && _)%Z, ((Z.of_nat r =? _) && _)%Z; ring.
Qed.

(* any basis of C17 with at least one state *)
Lemma lattice_good sf bas qs pers nt n allowed sc op index full proj project :
  (forall r j g sg, snd sf r = Some (j, g, sg) -> (j < Z.of_nat (length bas))%Z) -> (forall l, scales (op l)) -> bas <> [] ->
  good_Op (lattice_factor (Op false sf bas qs pers nt n allowed sc op) (length bas) index full proj project).
Proof.
  intros Hsf Hop Hne. constructor.
  - cbn. destruct bas; [congruence|cbn; lia].
  - intros s I J l. cbn [b_Op b_Ns lattice_factor]. destruct (length s =? length I); [|discriminate]. unfold Op. destruct (existsb _ _); [discriminate|]. destruct (existsb _ _); [discriminate|].
    destruct bas as [|b0 bas]; [congruence|]. set (B := b0 :: bas) in *.
    destruct (general_op_core false sf B qs pers nt (op (combine s I)) J) as [es|] eqn:E; [|discriminate]. intros X. injection X as <-.
    pose proof (core_range sf B qs pers nt Hsf (op (combine s I)) J es E) as HR. unfold in_range. rewrite Forall_map, Forall_map. cbn [fst snd].
    apply Forall_forall. intros e He. apply filter_In in He. destruct (proj1 (Forall_forall _ _) HR e (proj1 He)) as [A1 A2]. lia.
  - intros s I J l. cbn [b_Op lattice_factor]. destruct (length s =? length I); [|discriminate]. unfold Op. destruct (existsb _ _); [discriminate|]. destruct (existsb _ _); [discriminate|].
    destruct bas as [|b0 bas]; [congruence|]. set (B := b0 :: bas) in *.
    destruct (general_op_core false sf B qs pers nt (op (combine s I)) C1) as [es|] eqn:E; [|discriminate]. intros X. injection X as <-.
    destruct (core_scale sf B qs pers nt (op (combine s I)) (Hop _) J es E) as (es' & E' & H'). rewrite E'. eexists. split; [reflexivity|].
    intros i j. exact (filter_entry J (sc (map fst (combine s I))) es es' H' i j).
Qed.
