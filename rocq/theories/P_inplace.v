(* The matrix-free application adds the product with the reduced matrix. *)
From Verif Require Import AuxN SpecC SpecSymm SpecBasis SpecIndex SpecOps SpecProj M_symm M_index M_ops M_opstr M_symop M_inplace P_symm P_norm P_symminst P_index P_make P_proj P_symop P_symopinst.
Local Open Scope nat_scope.

(* additions commute *)
Definition ev_sum (l : list event) (r k : nat) : C :=
  Csum l (fun e => if ((r =? ev_row e) && (k =? ev_col e))%bool then (if ev_imag e then (0, ev_val e) else (ev_val e, 0))%R else C0).
Lemma add_event_sum l : forall v r k, fold_left add_event l v r k = (v r k + ev_sum l r k)%C.
Proof.
  induction l as [|e l IH]; intros v r k; cbn [fold_left].
  - unfold ev_sum. rewrite Csum_nil. ring.
  - rewrite IH. unfold ev_sum. rewrite Csum_cons. unfold add_event. destruct (_ && _)%bool; [|ring]. destruct (ev_imag e); apply C_eq; cbn; ring.
Qed.
Lemma ev_sum_perm l l' r k : Permutation l l' -> ev_sum l r k = ev_sum l' r k.
Proof. intros H. apply Csum_perm, H. Qed.
Lemma ev_sum_flat {X} (f : X -> list event) l r k : ev_sum (flat_map f l) r k = Csum l (fun x => ev_sum (f x) r k).
Proof.
  induction l as [|x l IH]; [unfold ev_sum; cbn [flat_map]; rewrite !Csum_nil; reflexivity|]. cbn [flat_map]. rewrite Csum_cons, <- IH. unfold ev_sum. apply Csum_app.
Qed.
Lemma row_events_sum real nvecs v_in m i j r k : k < nvecs -> ev_sum (row_events real nvecs v_in m i j) r k = if j =? r then as_type real (v_in i k * m)%C else C0.
Proof.
  intros Hk. unfold row_events. rewrite ev_sum_flat, (Csum_single _ _ k (seq_NoDup _ _)).
  - unfold ev_sum. rewrite Csum_cons. cbn [ev_row ev_col ev_imag ev_val]. rewrite Nat.eqb_refl, andb_true_r. rewrite (Nat.eqb_sym r j).
    destruct real; cbn [as_type]; rewrite ?Csum_cons, Csum_nil; cbn [ev_row ev_col ev_imag ev_val]; rewrite ?Nat.eqb_refl, ?andb_true_r, ?(Nat.eqb_sym r j); destruct (j =? r); apply C_eq; cbn; ring.
  - apply in_seq. lia.
  - intros k' _ Hn. unfold ev_sum. rewrite Csum_cons. cbn [ev_row ev_col ev_imag ev_val]. replace (k =? k') with false by (symmetry; apply Nat.eqb_neq; congruence).
    rewrite andb_false_r. destruct real; rewrite ?Csum_cons, Csum_nil; cbn [ev_row ev_col]; rewrite ?(proj2 (Nat.eqb_neq k k') (not_eq_sym Hn)), ?andb_false_r; ring.
Qed.
Lemma core_sum events Ns v0 v : inplace_core events Ns v0 (Some v) ->
  forall r k, v r k = (v0 r k + Csum (seq 0 Ns) (fun ii => ev_sum (match events ii with Some l => l | None => [] end) r k))%C.
Proof.
  intros H r k. inversion H as [parts evs HP Hok HI E|]. subst. rewrite add_event_sum. f_equal.
  rewrite (ev_sum_perm _ _ r k (interleave_perm _ _ HI)), <- flat_map_concat_map, ev_sum_flat.
  transitivity (Csum (concat parts) (fun ii => ev_sum match events ii with Some l => l | None => [] end r k)); [|apply Csum_perm, HP].
  clear. induction parts as [|p parts IH]; [reflexivity|]. cbn [concat]. rewrite Csum_cons, Csum_app, IH, ev_sum_flat. reflexivity.
Qed.
Lemma core_some events Ns v0 : (forall ii, ii < Ns -> events ii <> None) -> exists v, inplace_core events Ns v0 (Some v).
Proof.
  intros H. eexists. apply (ip_ok events Ns v0 [seq 0 Ns]); [cbn; rewrite app_nil_r; apply Permutation_refl|exact H|apply interleave_concat].
Qed.
Lemma core_never events Ns v0 : (forall ii, ii < Ns -> events ii <> None) -> ~ inplace_core events Ns v0 None.
Proof. intros H I. inversion I as [|ii Hi E]. exact (H ii Hi E). Qed.

Section Inplace.
Variables (M : nat) (nt : nat) (pers : list nat) (ms : smap) (qs : list Z).
Notation D := (fun s : N => (s < N.of_nat M)%N).
Hypothesis HG : good_maps D nt pers ms.
Variables (S : N -> Prop) (sts : list N).
Hypothesis SD : forall s, S s -> D s.
Hypothesis SC : closed_under S nt ms.
Hypothesis Hnd : NoDup sts.
Hypothesis Hin : forall s, In s sts <-> S s.
Variable L : list (N * Z).
Hypothesis HL : lists_decreasing (in_block S nt pers qs ms) L.
Variable sf : bool * (N -> option (Z * list nat * Z)).
Hypothesis Hsf : lookup_ok M nt pers ms qs L sf.
Notation st i := (fst (nth i L (0%N, 0%Z))).
Notation W i j Am := (Csum sts (fun t => wt pers ms qs L i j t * Am t (st i)))%C.
Definition entry (tr cj : bool) (Am : cmat) (r c : nat) : C :=
  let x := if tr then W r c Am else W c r Am in if cj then Cconj x else x.

Lemma matrix_element_range op A i m j : (exists Am, acts_as M op Am) -> i < length L -> matrix_element sf L qs pers nt op A i = Some (Some (m, j)) -> j < length L.
Proof.
  intros [Am Hop] Hi H. unfold matrix_element in H. destruct (L_nth nt pers ms qs S L HL i Hi) as (Si & _).
  destruct (Hop (st i) A (SD _ Si)) as (r & m0 & E & Hr & _). rewrite E in H. destruct (N.eqb_spec r (st i)) as [_|_]; [injection H as _ <-; exact Hi|].
  destruct (Hsf r Hr) as (rr & g0 & j0 & g & sg & Ef & Hp & _). rewrite Ef in H. destruct (Z.ltb_spec j0 0) as [_|Hj0]; [discriminate|].
  destruct Hp as [(p & Hp & ->)|[_ ->]]; [|lia]. injection H as _ <-. rewrite Nat2Z.id. rewrite <- (map_length fst). apply nth_error_Some. congruence.
Qed.
Lemma term_ok real tr cj op Am A nvecs v_in v0 : acts_as M op Am -> (real = true -> forall r k, snd (v_in r k) = 0%R) ->
  (real = false -> exists v, inplace_core (inplace_events real tr cj sf L qs pers nt op A nvecs v_in) (length L) v0 (Some v)) /\
  (real = false -> ~ inplace_core (inplace_events real tr cj sf L qs pers nt op A nvecs v_in) (length L) v0 None) /\
  forall v, inplace_core (inplace_events real tr cj sf L qs pers nt op A nvecs v_in) (length L) v0 (Some v) ->
    forall r k, r < length L -> k < nvecs ->
    v r k = (v0 r k + Csum (seq 0 (length L)) (fun c => as_type real (entry tr cj (fun t u => A * Am t u)%C r c) * v_in c k))%C.
Proof.
  intros Hop Hv.
  assert (NE : real = false -> forall ii, ii < length L -> inplace_events real tr cj sf L qs pers nt op A nvecs v_in ii <> None).
  { intros -> ii Hi. unfold inplace_events. destruct (element_ok M nt pers ms qs HG S sts SD SC Hnd Hin L HL sf Hsf op Am A ii Hop Hi) as (o & -> & _).
    destruct o as [[m j]|]; [|discriminate]. destruct tr; discriminate. }
  split; [intros Hr; apply core_some, NE, Hr|]. split; [intros Hr; apply core_never, NE, Hr|].
  intros v Hc r k Hr Hk. rewrite (core_sum _ _ _ _ Hc r k). f_equal.
  assert (OK : forall ii, ii < length L -> inplace_events real tr cj sf L qs pers nt op A nvecs v_in ii <> None) by (inversion Hc; assumption). clear Hc.
  assert (AT : forall z i, as_type real (v_in i k * z)%C = (as_type real z * v_in i k)%C).
  { intros z i. destruct real; [|cbn; ring]. specialize (Hv eq_refl i k). destruct (v_in i k) as [x y]. cbn in Hv. subst y. apply C_eq; cbn; ring. }
  assert (EV : forall ii, ii < length L -> exists o, matrix_element sf L qs pers nt op A ii = Some o /\ (forall j, j < length L -> val o j = W ii j (fun t u => A * Am t u)%C) /\
     (match o with Some (_, j) => j < length L | None => True end) /\
     ev_sum match inplace_events real tr cj sf L qs pers nt op A nvecs v_in ii with Some l => l | None => [] end r k =
       match o with Some (m, j) => let m' := if cj then Cconj m else m in
         if tr then (if ii =? r then as_type real m' * v_in j k else C0)%C else (if j =? r then as_type real m' * v_in ii k else C0)%C | None => C0 end).
  { intros ii Hi. destruct (element_ok M nt pers ms qs HG S sts SD SC Hnd Hin L HL sf Hsf op Am A ii Hop Hi) as (o & E & Ho). exists o. split; [exact E|]. split; [exact Ho|].
    split.
    - destruct o as [[m j]|]; [|exact I]. exact (matrix_element_range op A ii m j (ex_intro _ Am Hop) Hi E).
    - specialize (OK ii Hi). unfold inplace_events in OK |- *. rewrite E in OK |- *. destruct o as [[m j]|]; [|unfold ev_sum; apply Csum_nil].
      destruct tr.
      + destruct (check_imag real (if cj then Cconj m else m)); [|contradiction]. rewrite row_events_sum by exact Hk. cbv zeta. destruct (ii =? r); [apply AT|reflexivity].
      + destruct (check_imag real (if cj then Cconj m else m)); [|contradiction]. rewrite row_events_sum by exact Hk. cbv zeta. destruct (j =? r); [apply AT|reflexivity]. }
  assert (CJ0 : as_type real (if cj then Cconj C0 else C0) = C0) by (destruct cj; [replace (Cconj C0) with C0 by (apply C_eq; cbn; ring)|]; apply as_type_0).
  destruct tr.
  - (* row r only receives from iteration r *)
    rewrite (Csum_single _ _ r (seq_NoDup _ _)); [|apply in_seq; lia|].
    + destruct (EV r Hr) as (o & E & Ho & Hj & ->). destruct o as [[m j]|].
      * cbv zeta. rewrite Nat.eqb_refl. rewrite (Csum_single _ _ j (seq_NoDup _ _)); [|apply in_seq; lia|].
        -- unfold entry. rewrite <- (Ho j Hj). cbn [val]. rewrite Nat.eqb_refl. reflexivity.
        -- intros c Hc Hn. apply in_seq in Hc. unfold entry. rewrite <- (Ho c ltac:(lia)). cbn [val]. replace (j =? c) with false by (symmetry; apply Nat.eqb_neq; congruence). rewrite CJ0. ring.
      * symmetry. apply Csum_zero. intros c Hc. apply in_seq in Hc. unfold entry. rewrite <- (Ho c ltac:(lia)). cbn [val]. rewrite CJ0. ring.
    + intros ii Hi Hn. apply in_seq in Hi. destruct (EV ii ltac:(lia)) as (o & _ & _ & _ & ->). destruct o as [[m j]|]; [|reflexivity]. cbv zeta.
      replace (ii =? r) with false by (symmetry; apply Nat.eqb_neq; congruence). reflexivity.
  - apply Csum_ext. intros c Hc. apply in_seq in Hc. destruct (EV c ltac:(lia)) as (o & E & Ho & Hj & ->). unfold entry. rewrite <- (Ho r Hr). destruct o as [[m j]|]; cbn [val].
    + cbv zeta. destruct (j =? r); [reflexivity|rewrite CJ0; ring].
    + rewrite CJ0. ring.
Qed.

Variables (okl : list (ascii * nat) -> Prop) (scale : list ascii -> R) (op : list (ascii * nat) -> N -> C -> option (N * C)).
Variable mat : list (ascii * nat) -> cmat.
Hypothesis Hop : forall l, okl l -> acts_as M (op l) (mat l).
Notation IO := (fun real tr cj a nvecs v_in => inplace_Op real tr cj sf L qs pers nt scale op a nvecs v_in).
Lemma entry_add tr cj A B r c : entry tr cj (fun t u => A t u + B t u)%C r c = (entry tr cj A r c + entry tr cj B r c)%C.
Proof.
  unfold entry. assert (H : forall i j, W i j (fun t u => A t u + B t u)%C = (W i j A + W i j B)%C).
  { intros i j. rewrite <- Csum_add. apply Csum_ext. intros t _. ring. }
  destruct tr; rewrite H; destruct cj; try reflexivity; apply C_eq; cbn; ring.
Qed.
Lemma entry_zero tr cj r c : entry tr cj (fun _ _ => C0) r c = C0.
Proof.
  unfold entry. assert (H : forall i j, W i j (fun _ _ => C0) = C0) by (intros i j; apply Csum_zero; intros; ring).
  destruct tr; rewrite H; destruct cj; try reflexivity; apply C_eq; cbn; ring.
Qed.
Lemma entry_ext tr cj A B r c : (forall t u, A t u = B t u) -> entry tr cj A r c = entry tr cj B r c.
Proof. intros H. unfold entry. assert (HW : forall i j, W i j A = W i j B) by (intros i j; apply Csum_ext; intros t _; rewrite H; reflexivity). rewrite !HW. reflexivity. Qed.
Lemma terms_ok real tr cj a nvecs v_in ts : Forall (fun t => okl (fst t)) ts -> (real = true -> forall r k, snd (v_in r k) = 0%R) -> forall v0,
  (real = false -> exists v, IO real tr cj a nvecs v_in ts v0 (Some v)) /\
  (real = false -> ~ IO real tr cj a nvecs v_in ts v0 None) /\
  forall v, IO real tr cj a nvecs v_in ts v0 (Some v) -> forall r k, r < length L -> k < nvecs ->
    v r k = (v0 r k + Csum (seq 0 (length L)) (fun c => as_type real (entry tr cj (fun t u => a * H_total scale mat ts t u)%C r c) * v_in c k))%C.
Proof.
  intros HF Hv. induction HF as [|[l J] ts Hl HF IH]; intros v0.
  - split; [intros _; eexists; constructor|]. split; [intros _ H; inversion H|]. intros v H r k _ _. inversion H. subst. symmetry.
    rewrite Csum_zero; [ring|]. intros c _. rewrite (entry_ext tr cj _ (fun _ _ => C0)), entry_zero, as_type_0; [ring|]. intros t u. unfold H_total. rewrite Csum_nil. ring.
  - destruct (term_ok real tr cj (op l) (mat l) (a * (J * RtoC (scale (map fst l))))%C nvecs v_in v0 (Hop l Hl) Hv) as (T1 & T2 & T3). cbn [fst] in *. split; [|split].
    + intros Hr. destruct (T1 Hr) as [v1 H1]. destruct (IH v1) as (I1 & _). destruct (I1 Hr) as [v H2]. exists v. eapply io_cons; eassumption.
    + intros -> H. inversion H as [|? ? ? ? HE|? ? ? ? v1 ? HE HR]; subst.
      * exact (T2 eq_refl HE).
      * destruct (IH v1) as (_ & I2 & _). exact (I2 eq_refl HR).
    + intros v H r k Hr Hk. inversion H as [| |? ? ? ? v1 ? HE HR]; subst. destruct (IH v1) as (_ & _ & I3). rewrite (I3 v HR r k Hr Hk), (T3 v1 HE r k Hr Hk).
      match goal with |- (?x + ?y + ?z = _)%C => transitivity (x + (y + z))%C; [ring|] end. f_equal. rewrite <- Csum_add. apply Csum_ext. intros c _.
      rewrite (entry_ext tr cj (fun t u => a * H_total scale mat ((l, J) :: ts) t u)%C (fun t u => a * (J * RtoC (scale (map fst l))) * mat l t u + a * H_total scale mat ts t u)%C).
      * rewrite entry_add, as_type_add. ring.
      * intros t u. unfold H_total. rewrite Csum_cons. cbn [fst snd]. ring.
Qed.
Lemma entry_reduced tr cj A r c : commutes_with_maps S nt ms A -> r < length L -> c < length L ->
  entry tr cj A r c = let x := if tr then reduced sts pers qs ms A (st c) (st r) else reduced sts pers qs ms A (st r) (st c) in if cj then Cconj x else x.
Proof.
  intros HC Hr Hc. destruct (L_nth nt pers ms qs S L HL r Hr) as (Sr & _). destruct (L_nth nt pers ms qs S L HL c Hc) as (Sc & _).
  unfold entry. assert (EW : forall i j, i < length L -> j < length L -> S (st i) -> S (st j) -> W i j A = reduced sts pers qs ms A (st j) (st i)).
  { intros i j _ _ Si Sj. unfold reduced. rewrite (reduced_entry D nt pers ms qs HG S sts SD SC Hnd Hin A HC (st i) (st j) Si Sj). rewrite <- Csum_mul_l. apply Csum_ext. intros t _. unfold wt. ring. }
  destruct tr; rewrite EW by assumption; reflexivity.
Qed.
End Inplace.

Section Inst.
Variables (B : N) (n : nat) (pers : list nat) (qs : list Z) (ms : smap) (S : N -> Prop) (sts : list N) (L : list (N * Z)).
Let M := N.to_nat (B ^ N.of_nat n).
Hypothesis HG : good_maps (fun s => (s < B ^ N.of_nat n)%N) (length pers) pers ms.
Hypothesis Hnt : length pers <= 32.
Hypothesis SD : forall s, S s -> (s < B ^ N.of_nat n)%N.
Hypothesis HE : enumerates sts S.
Hypothesis SC : closed_under S (length pers) ms.
Hypothesis HL : lists_decreasing (in_block S (length pers) pers qs ms) L.
Variables (N_p : nat) (pfx : N -> Z) (bb be : Z -> Z).
Hypothesis Hblk : 0 < N_p -> forall s, is_position (map fst L) s (rep_position_blocks bb be (map fst L) (pfx s) s).
Variables (allowed : list ascii) (scale : list ascii -> R) (op : list (ascii * nat) -> N -> C -> option (N * C)) (mat mat0 : ascii -> nat -> cmat).
Hypothesis Hop : forall l, Forall (fun oi => In (fst oi) allowed /\ snd oi < n) l -> acts_as M (op l) (string_matrix M mat0 l).
Hypothesis Hsc : forall l r s, string_matrix M mat l r s = (RtoC (scale (map fst l)) * string_matrix M mat0 l r s)%C.
Notation sf := (get_index M (map fst L) pers ms (length pers) N_p pfx bb be).
Lemma inplace_lattice real tr cj nvecs v_in ts v0 : Forall (fun t => Forall (fun oi => In (fst oi) allowed /\ snd oi < n) (fst t)) ts ->
  commutes_with_maps S (length pers) ms (lattice_operator M mat ts) -> (real = true -> forall r k, snd (v_in r k) = 0%R) ->
  let run := inplace_Op real tr cj sf L qs pers (length pers) scale op C1 nvecs v_in ts v0 in
  (real = false -> (exists v, run (Some v)) /\ ~ run None) /\
  forall v, run (Some v) -> forall r k, r < length L -> k < nvecs ->
    v r k = (v0 r k + Csum (seq 0 (length L)) (fun c =>
      as_type real (let st i := fst (nth i L (0%N, 0%Z)) in
        let x := if tr then reduced sts pers qs ms (lattice_operator M mat ts) (st c) (st r) else reduced sts pers qs ms (lattice_operator M mat ts) (st r) (st c) in
        if cj then Cconj x else x) * v_in c k))%C.
Proof.
  intros Hts HC Hv run. destruct HE as [Hnd Hin].
  assert (HG2 := HG' B n pers ms HG). assert (SD2 := SD' B n S SD).
  assert (HLk := lookup_inst B n pers qs ms S L HG Hnt SD HL N_p pfx bb be Hblk).
  destruct (terms_ok M (length pers) pers ms qs HG2 S sts SD2 SC Hnd Hin L HL sf HLk _ scale op (string_matrix M mat0) Hop real tr cj C1 nvecs v_in ts Hts Hv v0) as (T1 & T2 & T3).
  split; [intros Hr; split; [exact (T1 Hr)|exact (T2 Hr)]|]. intros v H r k Hr Hk. rewrite (T3 v H r k Hr Hk). f_equal. apply Csum_ext. intros c Hc. apply in_seq in Hc. f_equal. f_equal.
  rewrite (entry_ext pers ms qs sts L tr cj _ (lattice_operator M mat ts)).
  - apply (entry_reduced M (length pers) pers ms qs HG2 S sts SD2 SC Hnd Hin L HL tr cj _ r c HC Hr). lia.
  - intros t u. unfold M. rewrite <- (total_lattice B n scale mat mat0 Hsc ts t u). ring.
Qed.
End Inst.
