From Verif Require Import AuxN SpecC SpecBasis SpecSparse M_sparse P_sparse.
Local Open Scope nat_scope.

(* ---- DIA ---- *)
Section DIA.
Variables (n_row n_col n_diags L : nat) (offsets : nat -> Z) (diags : Z -> C).
Notation len d := (dia_len n_row n_col L (offsets d)).
Notation j0 d := (dia_jstart (offsets d)).
Notation i0 d := (dia_istart (offsets d)).

Lemma dia_bound d n : n < len d -> exists i j, i < n_row /\ j < n_col /\ j < L /\ (i0 d + Zn n = Zn i /\ j0 d + Zn n = Zn j /\ Zn j - Zn i = offsets d)%Z.
Proof.
  unfold dia_len, dia_jstart, dia_istart. intros H. exists (Z.to_nat (Z.max 0 (- offsets d) + Zn n)), (Z.to_nat (Z.max 0 (offsets d) + Zn n)). lia.
Qed.
Lemma dia_exists d i j : i < n_row -> j < n_col -> j < L -> (Zn j - Zn i = offsets d)%Z -> exists n, n < len d /\ (i0 d + Zn n = Zn i)%Z /\ (j0 d + Zn n = Zn j)%Z.
Proof. unfold dia_len, dia_jstart, dia_istart. intros H1 H2 H3 H4. exists (Z.to_nat (Zn i - Z.max 0 (- offsets d))). lia. Qed.

(* sum over the diagonals *)
Definition dia_sum (i : nat) (a : C) (X : Z -> C) (d : nat) : C :=
  Csum (seq 0 (len d)) (fun n => if (i0 d + Zn n =? Zn i)%Z then ((a * diags (Zn d * Zn L + j0 d + Zn n)%Z) * X (j0 d + Zn n)%Z)%C else C0).
Lemma dia_row1 i a X d : i < n_row -> dia_sum i a X d =
  (a * Csum (seq 0 n_col) (fun j => (if ((Zn j - Zn i =? offsets d)%Z && (j <? L))%bool then diags (Zn d * Zn L + Zn j)%Z else C0) * X (Zn j)))%C.
Proof.
  intros Hi. unfold dia_sum.
  destruct (Z_le_dec 0 (Zn i + offsets d)) as [H0|H0]; [destruct (lt_dec (Z.to_nat (Zn i + offsets d)) n_col) as [H1|H1]; [destruct (lt_dec (Z.to_nat (Zn i + offsets d)) L) as [H2|H2]|]|].
  1: { destruct (dia_exists d i (Z.to_nat (Zn i + offsets d)) Hi H1 H2) as (n & Hn & En & Ej); [lia|]. rewrite (Csum_single (seq 0 (len d)) _ n); [|apply seq_NoDup|apply in_seq; lia|].
    - rewrite (Csum_single (seq 0 n_col) _ (Z.to_nat (Zn i + offsets d))); [|apply seq_NoDup|apply in_seq; lia|].
      + destruct (Z.eqb_spec (i0 d + Zn n) (Zn i)) as [_|]; [|lia]. destruct (Z.eqb_spec (Zn (Z.to_nat (Zn i + offsets d)) - Zn i) (offsets d)) as [_|]; [|lia].
        destruct (Nat.ltb_spec (Z.to_nat (Zn i + offsets d)) L) as [_|]; [|lia]. cbn [andb]. rewrite <- Z.add_assoc, Ej. ring.
      + intros j Hj Hne. destruct (Z.eqb_spec (Zn j - Zn i) (offsets d)); [lia|]. cbn [andb]. ring.
    - intros n' Hn' Hne. destruct (Z.eqb_spec (i0 d + Zn n') (Zn i)); [lia|]. reflexivity. }
  all: assert (Z1 : forall n, n < len d -> (i0 d + Zn n)%Z <> Zn i) by (intros n Hn E; destruct (dia_bound d n Hn) as (i' & j' & B); lia).
  all: rewrite !Csum_zero; [ring| |].
  all: try (intros n Hn; apply in_seq in Hn; destruct (Z.eqb_spec (i0 d + Zn n) (Zn i)) as [E|]; [elim (fun K => Z1 n K E); lia|reflexivity]).
  all: intros j Hj; apply in_seq in Hj; destruct (Z.eqb_spec (Zn j - Zn i) (offsets d)); destruct (Nat.ltb_spec j L); cbn [andb]; [lia|ring|ring|ring].
Qed.
Lemma dia_row i a X : i < n_row -> Csum (seq 0 n_diags) (dia_sum i a X) = (a * Csum (seq 0 n_col) (fun j => dia_entry n_diags L offsets diags i j * X (Zn j)))%C.
Proof.
  intros Hi. rewrite (Csum_ext _ _ _ (fun d _ => dia_row1 i a X d Hi)), Csum_mul_l. f_equal. rewrite Csum_swap. apply Csum_ext. intros j _. unfold dia_entry. apply Csum_mul_r.
Qed.

Definition dia_list a xs (x : mem) ys := flat_map (fun d => map (fun n => ((i0 d * ys + Zn n * ys)%Z, ((a * diags (Zn d * Zn L + j0 d + Zn n)%Z) * x (j0 d * xs + Zn n * xs)%Z)%C)) (seq 0 (len d))) (seq 0 n_diags).
Lemma dia_matvec_ok ov a xs x ys y : ys <> 0%Z ->
  is_product ov n_row n_col (dia_entry n_diags L offsets diags) a (fun j => x (Zn j * xs)%Z) (fun i => Zn i * ys)%Z y (dia_matvec_noomp_strided ov n_row n_col n_diags L offsets diags a xs x ys y).
Proof.
  intros Hs. apply product_one.
  assert (E : dia_matvec_noomp_strided ov n_row n_col n_diags L offsets diags a xs x ys y = adds (dia_list a xs x ys) (init ov n_row 1 ys 0 y)).
  { unfold dia_matvec_noomp_strided, init. rewrite zero1_zero2. generalize (if ov then zero2 n_row 1 ys 0 y else y). intros y0. unfold dia_list.
    rewrite <- (Nat.sub_0_r n_diags) at 2. rewrite <- loop_adds. apply loop_ext. intros d y1 _. cbv zeta. rewrite loop_acc, Nat.sub_0_r. reflexivity. }
  rewrite E. apply products_of.
  - intros i m Hi Hm. unfold dia_list. rewrite at_flat, <- (dia_row i a (fun j => x (j * xs)%Z) Hi). apply Csum_ext. intros d _. rewrite at_map. apply Csum_ext. intros n _. cbn [fst snd].
    rewrite <- !Z.mul_add_distr_r. replace (Zn i * ys + Zn m * 0)%Z with (Zn i * ys)%Z by lia.
    destruct (Z.eqb_spec (i0 d + Zn n) (Zn i)) as [-> |Hne]; [rewrite Z.eqb_refl; reflexivity|]. destruct (Z.eqb_spec ((i0 d + Zn n) * ys) (Zn i * ys)) as [E'|]; [|reflexivity]. apply Z.mul_reg_r in E'; [contradiction|exact Hs].
  - intros e He. unfold dia_list in He. apply in_flat_map in He as (d & Hd & He). apply in_map_iff in He as (n & <- & Hn). apply in_seq in Hn. cbn [fst].
    destruct (dia_bound d n ltac:(lia)) as (i & j & Hi & _ & _ & Ei & _). exists i, 0. split; [exact Hi|]. split; [lia|]. rewrite <- Z.mul_add_distr_r, Ei. lia.
Qed.

Definition dias_list n_vecs a xsr xsc (x : mem) ysr ysc := flat_map (fun d => flat_map (fun n => axpy_list n_vecs (a * diags (Zn d * Zn L + j0 d + Zn n)%Z)%C xsc x (j0 d * xsr + Zn n * xsr)%Z ysc (i0 d * ysr + Zn n * ysr)%Z) (seq 0 (len d))) (seq 0 n_diags).
Definition dias_list2 n_vecs a xsr xsc (x : mem) ysr ysc := flat_map (fun d => flat_map (fun m => flat_map (fun n => [((i0 d * ysr + Zn m * ysc + Zn n * ysr)%Z, ((a * diags (Zn d * Zn L + j0 d + Zn n)%Z) * x (j0 d * xsr + Zn m * xsc + Zn n * xsr)%Z)%C)])
  (seq 0 (len d))) (seq 0 n_vecs)) (seq 0 n_diags).
Lemma dia_matvecs_row ov n_vecs a xsr xsc x ysr ysc y : (ysc < ysr)%Z ->
  dia_matvecs_strided ov n_row n_col n_vecs n_diags L offsets diags a xsr xsc x ysr ysc y = adds (dias_list n_vecs a xsr xsc x ysr ysc) (init ov n_row n_vecs ysr ysc y).
Proof.
  intros H. unfold dia_matvecs_strided. fold (init ov n_row n_vecs ysr ysc y). generalize (init ov n_row n_vecs ysr ysc y). intros y0. apply Z.ltb_lt in H. rewrite H.
  unfold dias_list. rewrite <- (Nat.sub_0_r n_diags) at 2. rewrite <- loop_adds. apply loop_ext. intros d y1 _. cbv zeta.
  pose (F := fun (n : nat) px py => axpy_list n_vecs (a * diags (Zn d * Zn L + j0 d + Zn n)%Z)%C xsc x px ysc py).
  rewrite (loop_ext _ _ _ (fun n st => ((fst st + xsr)%Z, ((fst (snd st) + ysr)%Z, adds (F n (fst st) (fst (snd st))) (snd (snd st)))))).
  2: { intros n [px [py y2]] _. cbn [fst snd]. f_equal. f_equal. apply axpy_adds. }
  rewrite loop_ptr2. reflexivity.
Qed.
Lemma dia_matvecs_col ov n_vecs a xsr xsc x ysr ysc y : ~ (ysc < ysr)%Z ->
  dia_matvecs_strided ov n_row n_col n_vecs n_diags L offsets diags a xsr xsc x ysr ysc y = adds (dias_list2 n_vecs a xsr xsc x ysr ysc) (init ov n_row n_vecs ysr ysc y).
Proof.
  intros H. unfold dia_matvecs_strided. fold (init ov n_row n_vecs ysr ysc y). generalize (init ov n_row n_vecs ysr ysc y). intros y0. apply Z.ltb_nlt in H. rewrite H.
  unfold dias_list2. rewrite <- (Nat.sub_0_r n_diags) at 2. rewrite <- loop_adds. apply loop_ext. intros d y1 _. cbv zeta.
  pose (F := fun (m : nat) px py => flat_map (fun n => [((py + Zn n * ysr)%Z, ((a * diags (Zn d * Zn L + j0 d + Zn n)%Z) * x (px + Zn n * xsr)%Z)%C)]) (seq 0 (len d))).
  rewrite (loop_ext _ _ _ (fun m st => ((fst st + xsc)%Z, ((fst (snd st) + ysc)%Z, adds (F m (fst st) (fst (snd st))) (snd (snd st)))))).
  2: { intros m [px [py y2]] _. cbn [fst snd]. f_equal. f_equal.
    pose (G := fun (n : nat) px py => [(py : Z, ((a * diags (Zn d * Zn L + j0 d + Zn n)%Z) * x px)%C)]).
    rewrite (loop_ext _ _ _ (fun n st => ((fst st + xsr)%Z, ((fst (snd st) + ysr)%Z, adds (G n (fst st) (fst (snd st))) (snd (snd st)))))).
    2: { intros n [px' [py' y3]] _. reflexivity. }
    rewrite loop_ptr2. reflexivity. }
  rewrite loop_ptr2. reflexivity.
Qed.
Lemma dia_matvecs_ok ov n_vecs a xsr xsc x ysr ysc y : distinct_addresses n_row n_vecs (fun i m => Zn i * ysr + Zn m * ysc)%Z ->
  is_products ov n_row n_col n_vecs (dia_entry n_diags L offsets diags) a (fun j m => x (Zn j * xsr + Zn m * xsc)%Z) (fun i m => Zn i * ysr + Zn m * ysc)%Z y
    (dia_matvecs_strided ov n_row n_col n_vecs n_diags L offsets diags a xsr xsc x ysr ysc y).
Proof.
  intros D. destruct (Z_lt_dec ysc ysr) as [Hlt|Hge].
  - rewrite dia_matvecs_row by exact Hlt. apply products_of.
    + intros i m Hi Hm. unfold dias_list. rewrite at_flat, <- (dia_row i a (fun j => x (j * xsr + Zn m * xsc)%Z) Hi). apply Csum_ext. intros d _. rewrite at_flat. apply Csum_ext. intros n Hn. apply in_seq in Hn.
      destruct (dia_bound d n ltac:(lia)) as (i' & j' & Hi' & _ & _ & Ei & Ej & _). rewrite <- !Z.mul_add_distr_r, Ei.
      destruct (Z.eqb_spec (Zn i') (Zn i)) as [E|Hne].
      * rewrite (at_axpy _ _ _ _ _ _ _ _ m Hm); [reflexivity|lia|intros m' Hm' E'; apply (D i m' i m); try assumption; lia].
      * apply at_axpy_0. intros m' Hm' E'. apply Hne. f_equal. apply (D i' m' i m); try assumption; lia.
    + intros e He. unfold dias_list in He. apply in_flat_map in He as (d & Hd & He). apply in_flat_map in He as (n & Hn & He). apply in_map_iff in He as (m & <- & Hm). apply in_seq in Hn, Hm. cbn [fst].
      destruct (dia_bound d n ltac:(lia)) as (i & j & Hi & _ & _ & Ei & _). exists i, m. split; [exact Hi|]. split; [lia|]. rewrite <- Z.mul_add_distr_r, Ei. lia.
  - rewrite dia_matvecs_col by exact Hge.
    assert (A1 : forall d n m i', (i0 d + Zn n = Zn i')%Z -> (i0 d * ysr + Zn m * ysc + Zn n * ysr = Zn i' * ysr + Zn m * ysc)%Z) by (intros d n m i' E; rewrite <- E; lia).
    apply products_of.
    + intros i m Hi Hm. unfold dias_list2. rewrite at_flat, <- (dia_row i a (fun j => x (j * xsr + Zn m * xsc)%Z) Hi). apply Csum_ext. intros d _. rewrite at_flat, (Csum_single _ _ m); [|apply seq_NoDup|apply in_seq; lia|].
      * rewrite at_flat. apply Csum_ext. intros n Hn. apply in_seq in Hn. destruct (dia_bound d n ltac:(lia)) as (i' & j' & Hi' & _ & _ & Ei & Ej & _).
        unfold at_sum. rewrite Csum_cons, Csum_nil. cbn [fst snd]. rewrite (A1 d n m i' Ei), Ei. replace (j0 d * xsr + Zn m * xsc + Zn n * xsr)%Z with ((j0 d + Zn n) * xsr + Zn m * xsc)%Z by lia.
        destruct (Z.eqb_spec (Zn i') (Zn i)) as [-> |Hne]; [rewrite Z.eqb_refl; ring|]. destruct (Z.eqb_spec (Zn i' * ysr + Zn m * ysc) (Zn i * ysr + Zn m * ysc)) as [E|]; [|ring].
        elim Hne. f_equal. apply (D i' m i m); assumption.
      * intros m' Hm' Hne. apply in_seq in Hm'. rewrite at_flat. apply Csum_zero. intros n Hn. apply in_seq in Hn. destruct (dia_bound d n ltac:(lia)) as (i' & j' & Hi' & _ & _ & Ei & Ej & _).
        unfold at_sum. rewrite Csum_cons, Csum_nil. cbn [fst snd]. rewrite (A1 d n m' i' Ei). destruct (Z.eqb_spec (Zn i' * ysr + Zn m' * ysc) (Zn i * ysr + Zn m * ysc)) as [E|]; [|ring].
        elim Hne. apply (D i' m' i m); try assumption; lia.
    + intros e He. unfold dias_list2 in He. apply in_flat_map in He as (d & Hd & He). apply in_flat_map in He as (m & Hm & He). apply in_flat_map in He as (n & Hn & [<-|[]]). apply in_seq in Hn, Hm. cbn [fst].
      destruct (dia_bound d n ltac:(lia)) as (i & j & Hi & _ & _ & Ei & _). exists i, m. split; [exact Hi|]. split; [lia|]. apply A1, Ei.
Qed.
End DIA.

(* ---- threads ---- *)
Definition iaddr (i : instr) : Z := match i with Load p => p | StoreAdd p _ => p | Store p _ => p end.
Definition exec (l : list instr) (st : mem * C) : mem * C := fold_left (fun st i => exec1 i st) l st.
Lemma exec1_local i y1 y2 r (D : Z -> Prop) : D (iaddr i) -> (forall p, D p -> y1 p = y2 p) ->
  snd (exec1 i (y1, r)) = snd (exec1 i (y2, r)) /\ (forall p, D p -> fst (exec1 i (y1, r)) p = fst (exec1 i (y2, r)) p).
Proof.
  intros Hi H. destruct i as [p|p v|p v]; cbn in *; (split; [auto|]); intros q Hq; auto; unfold upd; destruct (q =? p)%Z; auto.
Qed.
Lemma exec_local l : forall y1 y2 r (D : Z -> Prop), (forall i, In i l -> D (iaddr i)) -> (forall p, D p -> y1 p = y2 p) -> forall p, D p -> fst (exec l (y1, r)) p = fst (exec l (y2, r)) p.
Proof.
  induction l as [|i l IH]; intros y1 y2 r D Hl H p Hp; [apply H, Hp|]. unfold exec. cbn [fold_left]. destruct (exec1_local i y1 y2 r D (Hl i (or_introl eq_refl)) H) as [E1 E2].
  destruct (exec1 i (y1, r)) as [z1 r1]. destruct (exec1 i (y2, r)) as [z2 r2]. cbn [fst snd] in E1, E2. subst r2. apply (IH z1 z2 r1 D); [intros j Hj; apply Hl; right; exact Hj|exact E2|exact Hp].
Qed.
Lemma exec1_other i y r p : p <> iaddr i -> fst (exec1 i (y, r)) p = y p.
Proof. destruct i; cbn; intros H; [reflexivity| |]; unfold upd; destruct (Z.eqb_spec p p0); congruence. Qed.

(* threads with disjoint addresses do not see each other *)
Lemma par_disjoint (D : nat -> Z -> Prop) (HD : forall t t' p, D t p -> D t' p -> t = t') ths y y' : par ths y y' ->
  (forall t l r, nth_error ths t = Some (l, r) -> forall i, In i l -> D t (iaddr i)) ->
  (forall t l r, nth_error ths t = Some (l, r) -> forall p, D t p -> y' p = fst (exec l (y, r)) p) /\
  (forall p, (forall t, t < length ths -> ~ D t p) -> y' p = y p).
Proof.
  induction 1 as [ths y F|pre i l r post y y' H IH]; intros Hl.
  - split; [|reflexivity]. intros t l r E p _. rewrite Forall_forall in F. specialize (F _ (nth_error_In _ _ E)). cbn in F. subst l. reflexivity.
  - assert (Ht : nth_error (pre ++ (i :: l, r) :: post) (length pre) = Some (i :: l, r)) by (rewrite nth_error_app2, Nat.sub_diag by lia; reflexivity).
    assert (Hi : D (length pre) (iaddr i)) by (apply (Hl _ _ _ Ht); left; reflexivity).
    destruct IH as [IH1 IH2].
    { intros t l' r' E j Hj. destruct (Nat.eq_dec t (length pre)) as [-> |Hne].
      - rewrite nth_error_app2, Nat.sub_diag in E by lia. cbn in E. injection E as <- <-. apply (Hl _ _ _ Ht). right. exact Hj.
      - apply (Hl t l' r'); [|exact Hj]. destruct (lt_dec t (length pre)); [rewrite nth_error_app1 in E |- * by assumption; exact E|].
        rewrite nth_error_app2 in E |- * by lia. destruct (t - length pre) eqn:Et; [lia|]. exact E. }
    split.
    + intros t l' r' E p Hp. destruct (Nat.eq_dec t (length pre)) as [-> |Hne].
      * rewrite Ht in E. injection E as <- <-. rewrite (IH1 (length pre) l (snd (exec1 i (y, r)))); [|rewrite nth_error_app2, Nat.sub_diag by lia; reflexivity|exact Hp].
        unfold exec. cbn [fold_left]. rewrite <- surjective_pairing. reflexivity.
      * rewrite (IH1 t l' r'); [|destruct (lt_dec t (length pre)); [rewrite nth_error_app1 in E |- * by assumption; exact E|]; rewrite nth_error_app2 in E |- * by lia; destruct (t - length pre) eqn:Et; [lia|exact E]|exact Hp].
        apply (exec_local l' _ _ r' (D t)); [apply (Hl _ _ _ E)| |exact Hp]. intros q Hq. apply exec1_other. intros ->. apply Hne. exact (HD _ _ _ Hq Hi).
    + intros p Hp. rewrite IH2; [apply exec1_other; intros ->; apply (Hp (length pre)); [rewrite app_length; cbn; lia|exact Hi]|].
      intros t Hlt. apply Hp. rewrite app_length in *. exact Hlt.
Qed.
Lemma par_exists ths : forall y, exists y', par ths y y'.
Proof.
  assert (G : forall rest done y, Forall (fun th : list instr * C => fst th = []) done -> exists y', par (done ++ rest) y y').
  { induction rest as [|[l r] rest IH]; intros done y F; [rewrite app_nil_r; exists y; constructor; exact F|]. revert r y.
    induction l as [|i l IHl]; intros r y.
    - replace (done ++ ([], r) :: rest) with ((done ++ [([], r)]) ++ rest) by (rewrite <- app_assoc; reflexivity). apply IH. apply Forall_app. split; [exact F|]. constructor; [reflexivity|constructor].
    - destruct (IHl (snd (exec1 i (y, r))) (fst (exec1 i (y, r)))) as [y' H]. exists y'. constructor. exact H. }
  intros y. apply (G ths [] y). constructor.
Qed.
