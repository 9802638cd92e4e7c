From Verif Require Import AuxN SpecC SpecBasis P_make P_merge SpecSparse M_sparse P_sparse P_sparse2 P_sparse3.
Local Open Scope nat_scope.

(* ---- csrmv_merge ---- *)
Section CsrOmp.
Variables (n_row n_col : nat) (Ap Aj : nat -> nat) (Ax : nat -> C) (T : nat).
Hypothesis V : valid_ptr n_row n_col Ap Aj.
Hypothesis HT : 0 < T.
Let R0 : Ap 0 = 0. Proof. apply V. Qed.
Let RM : forall i j, i <= j -> j <= n_row -> Ap i <= Ap j. Proof. intros i j. apply (Ap_mono n_row n_col Ap Aj Ax V). Qed.

Lemma forall2_det {A B} (f : A -> option B) l r : Forall2 (fun a b => f a = Some b) l r -> forall g, (forall a, f a = Some (g a)) -> r = map g l.
Proof. induction 1 as [|a b l r E F IH]; intros g H; [reflexivity|]. cbn. rewrite (IH g H). f_equal. rewrite H in E. congruence. Qed.
Lemma forall2_map {A B} (f : A -> option B) g l : (forall a, f a = Some (g a)) -> Forall2 (fun a b => f a = Some b) l (map g l).
Proof. intros H. induction l; cbn; constructor; auto. Qed.

Lemma csrmv_merge_ok ov a xs x ys y y' : ys <> 0%Z -> csrmv_merge ov n_row Ap Aj Ax a xs x ys T y y' ->
  is_product ov n_row n_col (csr_entry Ap Aj Ax) a (fun j => x (Zn j * xs)%Z) (fun i => Zn i * ys)%Z y y'.
Proof.
  intros Hs (res & y1 & F & P & ->). destruct (coords_exist n_row (Ap n_row) Ap R0 RM eq_refl Aj Ax T HT) as (X & HX & HS).
  apply forall2_det with (g := fun t => (assigns ov (row_list n_row (Ap n_row) Ap Aj Ax xs x T X t a ys), X (S t), carry n_row (Ap n_row) Ap Aj Ax xs x T X t)) in F.
  2: { intros t. apply (thread_spec n_row (Ap n_row) Ap R0 RM eq_refl Aj Ax xs x T HT X HX ov a ys t HS). }
  subst res. rewrite map_map in P |- *. cbn [fst snd] in P |- *.
  destruct (merge_ok n_row (Ap n_row) Ap R0 RM eq_refl Aj Ax xs x T HT X HX ov a ys y y1 HS Hs P) as [H1 H2].
  split; [|exact H2]. intros i Hi. specialize (H1 i Hi). cbv zeta in H1. etransitivity; [exact H1|]. unfold base. f_equal. f_equal.
  apply (csr_row n_row n_col Ap Aj Ax V i (fun j => x (Zn j * xs)%Z) Hi).
Qed.
Lemma csrmv_merge_runs ov a xs x ys y : exists y', csrmv_merge ov n_row Ap Aj Ax a xs x ys T y y'.
Proof.
  destruct (coords_exist n_row (Ap n_row) Ap R0 RM eq_refl Aj Ax T HT) as (X & HX & HS).
  set (g := fun t => (assigns ov (row_list n_row (Ap n_row) Ap Aj Ax xs x T X t a ys), X (S t), carry n_row (Ap n_row) Ap Aj Ax xs x T X t)).
  destruct (par_exists (threads (map (fun r => fst (fst r)) (map g (seq 0 T)))) y) as [y1 P]. eexists. exists (map g (seq 0 T)), y1. split; [|split; [exact P|reflexivity]].
  apply forall2_map. intros t. apply (thread_spec n_row (Ap n_row) Ap R0 RM eq_refl Aj Ax xs x T HT X HX ov a ys t HS).
Qed.
(* thread t takes rows X t .. X (t+1) - 1 and the non-zeros K t .. K (t+1) - 1 *)
Lemma merge_partition : exists X K : nat -> nat,
  (forall t, t <= T -> merge_path_search (Nat.min ((n_row + Ap n_row + T - 1) / T * t) (n_row + Ap n_row)) n_row (Ap n_row) (fun i => Ap (S i)) = Some (X t, K t)) /\
  X 0 = 0 /\ K 0 = 0 /\ X T = n_row /\ K T = Ap n_row /\ (forall t, X t <= X (S t) /\ K t <= K (S t)) /\
  (forall t, X t <= n_row /\ Ap (X t) <= K t /\ (X t < n_row -> K t <= Ap (S (X t)))).
Proof.
  destruct (coords_exist n_row (Ap n_row) Ap R0 RM eq_refl Aj Ax T HT) as (X & HX & HS). exists X, (K n_row (Ap n_row) T X).
  assert (XT : X T = n_row) by (apply (X_T n_row (Ap n_row) Ap R0 RM eq_refl Aj Ax T HT X HX)). assert (X0 : X 0 = 0) by (apply (X_0 n_row (Ap n_row) Ap R0 RM eq_refl T X HX)).
  split; [intros t _; apply HS|]. split; [exact X0|]. split; [unfold K, dg; lia|]. split; [exact XT|]. split; [unfold K; rewrite XT, (dg_T n_row (Ap n_row) Ap R0 RM eq_refl Aj Ax T HT); lia|].
  split; [intros t; apply (X_mono n_row (Ap n_row) Ap R0 RM eq_refl Aj Ax T HT X HX); lia|]. intros t. split; [apply (X_le n_row (Ap n_row) Ap R0 RM eq_refl Aj Ax T HT X HX)|].
  split; [apply (K_lower n_row (Ap n_row) Ap R0 RM eq_refl T X HX)|apply (K_upper n_row (Ap n_row) Ap R0 RM eq_refl T X HX)].
Qed.
End CsrOmp.

(* ---- csc_matvec_omp ---- *)
Lemma omp_zero n ys y y1 : ys <> 0%Z -> omp_for n (fun j => [Store (Zn j * ys)%Z C0]) y y1 ->
  (forall i, i < n -> y1 (Zn i * ys)%Z = C0) /\ (forall p, (forall i, i < n -> p <> (Zn i * ys)%Z) -> y1 p = y p).
Proof.
  intros Hs H. destruct (omp_assign true n (fun j => Zn j * ys)%Z (fun _ => C0) y y1) as [H1 H2]; [intros i j _ _ E; nia|exact H|]. split; [|exact H2].
  intros i Hi. rewrite H1 by exact Hi. cbn. ring.
Qed.
Lemma atomics l : forall y p, fold_left atomic l y p = (y p + Csum l (fun e => if (fst (fst e) =? p)%Z then (if snd (fst e) then (0, snd e) else (snd e, 0))%R else C0))%C.
Proof.
  induction l as [|[[q im] v] l IH]; intros y p; cbn [fold_left]; [rewrite Csum_nil; ring|]. rewrite IH, Csum_cons. cbn [fst snd]. unfold atomic, upd. rewrite (Z.eqb_sym p).
  destruct (Z.eqb_spec q p) as [-> |]; [|ring]. destruct im; apply C_eq; cbn; ring.
Qed.
Lemma Csum_flat {X Y} (f : X -> list Y) l g : Csum (flat_map f l) g = Csum l (fun x => Csum (f x) g).
Proof. induction l as [|x l IH]; [reflexivity|]. cbn [flat_map]. rewrite Csum_app, IH, Csum_cons. reflexivity. Qed.
Lemma concat_flat_map {X Y} (f : X -> list Y) l : concat (map (flat_map f) l) = flat_map f (concat l).
Proof. induction l as [|x l IH]; [reflexivity|]. cbn. rewrite IH, flat_map_app. reflexivity. Qed.
Lemma csc_omp_ok n_row n_col Ap Ai Ax ov a xs x ys y y' : valid_ptr n_col n_row Ap Ai -> ys <> 0%Z -> csc_matvec_omp ov n_row n_col Ap Ai Ax a xs x ys y y' ->
  is_product ov n_row n_col (csc_entry Ap Ai Ax) a (fun j => x (Zn j * xs)%Z) (fun i => Zn i * ys)%Z y y'.
Proof.
  intros V Hs (y1 & HZ & parts & evs & HP & HI & ->).
  assert (Z1 : (forall i, i < n_row -> y1 (Zn i * ys)%Z = if ov then C0 else y (Zn i * ys)%Z) /\ (forall p, (forall i, i < n_row -> p <> (Zn i * ys)%Z) -> y1 p = y p)).
  { destruct ov; [apply omp_zero; assumption|subst; auto]. }
  destruct Z1 as [Z1 Z2].
  assert (E : forall p, fold_left atomic evs y1 p = (y1 p + Csum (seq 0 n_col) (fun j => Csum (seq (Ap j) (Ap (S j) - Ap j)) (fun ii => if (Zn (Ai ii) * ys =? p)%Z then (a * Ax ii) * x (Zn j * xs)%Z else C0)))%C).
  { intros p. rewrite atomics. f_equal. rewrite (Csum_perm _ _ _ (interleave_perm _ _ HI)), concat_flat_map, (Csum_flat _ (concat parts)), (Csum_perm _ _ _ HP).
    apply Csum_ext. intros j _. rewrite Csum_flat. apply Csum_ext. intros ii _. unfold atomic_add. rewrite !Csum_cons, Csum_nil. cbn [fst snd].
    destruct (Zn (Ai ii) * ys =? p)%Z; [|ring]. apply C_eq; cbn; ring. }
  split.
  - intros i Hi. rewrite E, Z1 by exact Hi. f_equal. rewrite <- csc_row. apply Csum_ext. intros j _. apply Csum_ext. intros ii _.
    destruct (Nat.eqb_spec (Ai ii) i) as [-> |Hne]; [rewrite Z.eqb_refl; reflexivity|]. destruct (Z.eqb_spec (Zn (Ai ii) * ys) (Zn i * ys)); [nia|reflexivity].
  - intros p Hp. rewrite E, Z2 by exact Hp. rewrite Csum_zero; [ring|]. intros j Hj. apply in_seq in Hj. apply Csum_zero. intros ii Hii.
    destruct (Z.eqb_spec (Zn (Ai ii) * ys) p) as [E'|]; [|reflexivity]. elim (Hp (Ai ii)); [|congruence]. apply (Aj_bound n_col n_row Ap Ai Ax V j); [lia|exact Hii].
Qed.
Lemma csc_omp_runs n_row n_col Ap Ai Ax ov a xs x ys y : exists y', csc_matvec_omp ov n_row n_col Ap Ai Ax a xs x ys y y'.
Proof.
  assert (Z : exists y1, if ov then omp_for n_row (fun j => [Store (Zn j * ys)%Z C0]) y y1 else y1 = y) by (destruct ov; [apply omp_for_exists|exists y; reflexivity]).
  destruct Z as [y1 Z]. eexists. exists y1. split; [exact Z|]. exists [seq 0 n_col]. eexists. split; [cbn; rewrite app_nil_r; apply Permutation_refl|]. split; [apply interleave_concat|reflexivity].
Qed.

(* ---- dia_matvec_omp ---- *)
Section DiaOmp.
Variables (n_row n_col n_diags L : nat) (offsets : nat -> Z) (diags : Z -> C) (a : C) (xs : Z) (x : mem) (ys : Z).
Hypothesis Hs : ys <> 0%Z.
Lemma dia_step d y y1 :
  omp_for (dia_len n_row n_col L (offsets d)) (fun n => let k := offsets d in let p := (dia_istart k * ys + Zn n * ys)%Z in
      assign false p ((a * diags (Zn d * Zn L + dia_jstart k + Zn n)%Z) * x (dia_jstart k * xs + Zn n * xs)%Z)%C) y y1 ->
  (forall i, i < n_row -> y1 (Zn i * ys)%Z = (y (Zn i * ys)%Z + dia_sum n_row n_col L offsets diags i a (fun j => x (j * xs)%Z) d)%C) /\
  (forall p, (forall i, i < n_row -> p <> (Zn i * ys)%Z) -> y1 p = y p).
Proof.
  cbv zeta. intros H. apply (omp_assign false _ (fun n => dia_istart (offsets d) * ys + Zn n * ys)%Z) in H as [H1 H2]; [|intros n m _ _ E; nia]. split.
  - intros i Hi. unfold dia_sum.
    destruct (Z_le_dec (dia_istart (offsets d)) (Zn i)) as [A|A]; [destruct (lt_dec (Z.to_nat (Zn i - dia_istart (offsets d))) (dia_len n_row n_col L (offsets d))) as [B|B]|].
    1: { set (n := Z.to_nat (Zn i - dia_istart (offsets d))) in *. assert (En : (dia_istart (offsets d) + Zn n = Zn i)%Z) by (unfold n; lia). clearbody n.
      specialize (H1 n B). cbn [base] in H1. rewrite <- !Z.mul_add_distr_r, En in H1. rewrite H1. f_equal. rewrite (Csum_single _ _ n); [|apply seq_NoDup|apply in_seq; lia|].
      - rewrite En, Z.eqb_refl. reflexivity.
      - intros m _ Hm. destruct (Z.eqb_spec (dia_istart (offsets d) + Zn m) (Zn i)); [lia|reflexivity]. }
    all: rewrite H2; [rewrite Csum_zero; [ring|]; intros n Hn; apply in_seq in Hn; destruct (Z.eqb_spec (dia_istart (offsets d) + Zn n) (Zn i)); [lia|reflexivity]|].
    all: intros n Hn E; rewrite <- Z.mul_add_distr_r in E; apply Z.mul_reg_r in E; [lia|exact Hs].
  - intros p Hp. apply H2. intros n Hn E. destruct (dia_bound n_row n_col L offsets diags d n Hn) as (i & j & Hi & _ & _ & Ei & _). apply (Hp i Hi). rewrite E, <- Z.mul_add_distr_r, Ei. reflexivity.
Qed.
Lemma dia_steps_ok l : forall y y', dia_steps n_row n_col L offsets diags a xs x ys l y y' ->
  (forall i, i < n_row -> y' (Zn i * ys)%Z = (y (Zn i * ys)%Z + Csum l (dia_sum n_row n_col L offsets diags i a (fun j => x (j * xs)%Z)))%C) /\
  (forall p, (forall i, i < n_row -> p <> (Zn i * ys)%Z) -> y' p = y p).
Proof.
  induction l as [|d l IH]; intros y y' H; inversion H as [|? ? ? y1 ? HA HB]; subst.
  - split; [|reflexivity]. intros i _. rewrite Csum_nil. ring.
  - destruct (dia_step d y y1 HA) as [A1 A2]. destruct (IH y1 y' HB) as [B1 B2]. split.
    + intros i Hi. rewrite B1, A1, Csum_cons by exact Hi. ring.
    + intros p Hp. rewrite B2, A2 by exact Hp. reflexivity.
Qed.
Lemma dia_omp_ok ov y y' : dia_matvec_omp ov n_row n_col n_diags L offsets diags a xs x ys y y' ->
  is_product ov n_row n_col (dia_entry n_diags L offsets diags) a (fun j => x (Zn j * xs)%Z) (fun i => Zn i * ys)%Z y y'.
Proof.
  intros (y1 & HZ & H).
  assert (Z1 : (forall i, i < n_row -> y1 (Zn i * ys)%Z = if ov then C0 else y (Zn i * ys)%Z) /\ (forall p, (forall i, i < n_row -> p <> (Zn i * ys)%Z) -> y1 p = y p)).
  { destruct ov; [apply omp_zero; assumption|subst; auto]. }
  destruct Z1 as [Z1 Z2]. apply dia_steps_ok in H as [H1 H2]. split.
  - intros i Hi. rewrite H1, Z1, (dia_row n_row n_col n_diags L offsets diags i a (fun j => x (j * xs)%Z)) by exact Hi. reflexivity.
  - intros p Hp. rewrite H2, Z2 by exact Hp. reflexivity.
Qed.
Lemma dia_omp_runs ov y : exists y', dia_matvec_omp ov n_row n_col n_diags L offsets diags a xs x ys y y'.
Proof.
  assert (Z : exists y1, if ov then omp_for n_row (fun j => [Store (Zn j * ys)%Z C0]) y y1 else y1 = y) by (destruct ov; [apply omp_for_exists|exists y; reflexivity]).
  destruct Z as [y1 Z]. assert (G : forall l y, exists y', dia_steps n_row n_col L offsets diags a xs x ys l y y').
  { induction l as [|d l IH]; intros y2; [exists y2; constructor|]. destruct (omp_for_exists (dia_len n_row n_col L (offsets d)) (fun n =>
      let k := offsets d in let p := (dia_istart k * ys + Zn n * ys)%Z in assign false p ((a * diags (Zn d * Zn L + dia_jstart k + Zn n)%Z) * x (dia_jstart k * xs + Zn n * xs)%Z)%C) y2) as [y3 H].
    destruct (IH y3) as [y4 H4]. exists y4. econstructor; [exact H|exact H4]. }
  destruct (G (seq 0 n_diags) y1) as [y' H]. exists y', y1. split; [exact Z|exact H].
Qed.
End DiaOmp.

(* ---- the python layer ---- *)
Lemma other_ok ov n_row n_col (A : nat -> nat -> C) a xs x ys y : ys <> 0%Z ->
  is_product ov n_row n_col A a (fun j => x (Zn j * xs)%Z) (fun i => Zn i * ys)%Z y
    (loop 0 n_row (fun i y => let v := (a * Csum (seq 0 n_col) (fun j => A i j * x (Zn j * xs)%Z))%C in if ov then upd y (Zn i * ys)%Z v else acc y (Zn i * ys)%Z v) y).
Proof.
  intros Hs. cbv zeta. induction n_row as [|n IH]; [split; [lia|reflexivity]|]. destruct IH as [H1 H2]. rewrite loop_S.
  match goal with |- context [loop 0 n ?f y] => set (y1 := loop 0 n f y) in *; clearbody y1 end. split.
  - intros i Hi. assert (D : i = n \/ (i < n /\ (Zn i * ys =? Zn n * ys)%Z = false)) by (destruct (Nat.eq_dec i n); [left; assumption|right; split; [lia|apply Z.eqb_neq; nia]]).
    destruct D as [-> | [Hi' E]].
    + destruct ov; unfold acc, upd; rewrite Z.eqb_refl; [ring|]. f_equal. apply H2. intros i Hi'. nia.
    + destruct ov; unfold acc, upd; rewrite E; apply H1, Hi'.
  - intros p Hp. assert (E : (p =? Zn n * ys)%Z = false) by (apply Z.eqb_neq, Hp; lia).
    destruct ov; unfold acc, upd; rewrite E; apply H2; intros i Hi; apply Hp; lia.
Qed.
Lemma dot1_ok T M n_row n_col ov a xs x ys y y' : 0 < T -> valid_matrix n_row n_col M -> ys <> 0%Z -> dot1 T M n_row n_col ov a xs x ys y y' ->
  is_product ov n_row n_col (entries M) a (fun j => x (Zn j * xs)%Z) (fun i => Zn i * ys)%Z y y'.
Proof.
  intros HT HV Hs H. destruct M as [Ap Aj Ax|Ap Ai Ax|nd L off d|A]; cbn [dot1 entries valid_matrix] in *.
  - destruct (n_row <? 100); [subst; apply csr_matvec_ok; assumption|apply (csrmv_merge_ok n_row n_col Ap Aj Ax T HV HT ov a xs x ys y y' Hs H)].
  - destruct (n_row <? 100); [subst; apply csc_matvec_ok; assumption|apply (csc_omp_ok n_row n_col Ap Ai Ax ov a xs x ys y y' HV Hs H)].
  - destruct (n_row <? 100); [subst; apply dia_matvec_ok; assumption|apply (dia_omp_ok n_row n_col nd L off d a xs x ys Hs ov y y' H)].
  - subst. apply other_ok, Hs.
Qed.
Lemma dot1_runs T M n_row n_col ov a xs x ys y : 0 < T -> valid_matrix n_row n_col M -> exists y', dot1 T M n_row n_col ov a xs x ys y y'.
Proof.
  intros HT HV. destruct M as [Ap Aj Ax|Ap Ai Ax|nd L off d|A]; cbn [dot1 valid_matrix] in *; try (destruct (n_row <? 100)); try (eexists; reflexivity).
  - apply (csrmv_merge_runs n_row n_col Ap Aj Ax T HV HT).
  - apply csc_omp_runs.
  - apply dia_omp_runs.
Qed.
Lemma others_ok ov n_row n_col n_vecs (A : nat -> nat -> C) a xsr xsc x ysr ysc y : distinct_addresses n_row n_vecs (fun i m => Zn i * ysr + Zn m * ysc)%Z ->
  is_products ov n_row n_col n_vecs A a (fun j m => x (Zn j * xsr + Zn m * xsc)%Z) (fun i m => Zn i * ysr + Zn m * ysc)%Z y (dotn (Other A) n_row n_col n_vecs ov a xsr xsc x ysr ysc y).
Proof.
  intros D. cbn [dotn]. set (v := fun i m => (a * Csum (seq 0 n_col) (fun j => A i j * x (Zn j * xsr + Zn m * xsc)%Z))%C).
  set (p := fun i m => (Zn i * ysr + Zn m * ysc)%Z). cbv zeta.
  set (step := fun y (e : nat * nat) => let '(i, m) := e in if ov then upd y (p i m) (v i m) else acc y (p i m) (v i m)).
  assert (E : forall n y, loop 0 n (fun i y => loop 0 n_vecs (fun m y => if ov then upd y (Zn i * ysr + Zn m * ysc)%Z (v i m) else acc y (Zn i * ysr + Zn m * ysc)%Z (v i m)) y) y
    = fold_left step (list_prod (seq 0 n) (seq 0 n_vecs)) y).
  { intros n y0. unfold loop at 1. rewrite Nat.sub_0_r. revert y0. induction (seq 0 n) as [|i l IH]; intros y0; [reflexivity|]. cbn [fold_left list_prod]. rewrite IH, fold_left_app. f_equal.
    unfold loop. rewrite Nat.sub_0_r. rewrite <- (fold_map (fun m => (i, m)) step). reflexivity. }
  match goal with |- is_products _ _ _ _ _ _ _ _ _ ?t => change t with (loop 0 n_row (fun i y => loop 0 n_vecs (fun m y => if ov then upd y (Zn i * ysr + Zn m * ysc)%Z (v i m) else acc y (Zn i * ysr + Zn m * ysc)%Z (v i m)) y) y) end.
  rewrite E. clear E.
  assert (G : forall l y, (forall e, In e l -> fst e < n_row /\ snd e < n_vecs) -> NoDup l ->
    (forall i m, In (i, m) l -> fold_left step l y (p i m) = ((if ov then C0 else y (p i m)) + v i m)%C) /\
    (forall q, (forall i m, In (i, m) l -> q <> p i m) -> fold_left step l y q = y q)).
  { induction l as [|[i0 m0] l IH]; intros y0 Hl N; [split; [intros i m []|reflexivity]|]. inversion N as [|? ? N1 N2]; subst. cbn [fold_left].
    destruct (IH (step y0 (i0, m0)) (fun e He => Hl e (or_intror He)) N2) as [H1 H2].
    assert (ST : forall q, step y0 (i0, m0) q = if (q =? p i0 m0)%Z then ((if ov then C0 else y0 (p i0 m0)) + v i0 m0)%C else y0 q).
    { intros q. unfold step, acc, upd. destruct ov; destruct (q =? p i0 m0)%Z; try reflexivity. ring. }
    split.
    - intros i m [E|Hin].
      + injection E as <- <-. rewrite H2, ST, Z.eqb_refl; [reflexivity|]. intros i m Hin E. destruct (Hl (i, m) (or_intror Hin)), (Hl (i0, m0) (or_introl eq_refl)). cbn [fst snd] in *.
        destruct (D i0 m0 i m) as [-> ->]; try assumption. contradiction.
      + rewrite H1 by exact Hin. rewrite ST. destruct (Z.eqb_spec (p i m) (p i0 m0)) as [E|]; [|reflexivity]. destruct (Hl (i, m) (or_intror Hin)), (Hl (i0, m0) (or_introl eq_refl)). cbn [fst snd] in *.
        destruct (D i m i0 m0) as [-> ->]; try assumption. contradiction.
    - intros q Hq. rewrite H2, ST by (intros i m Hin; apply Hq; right; exact Hin). destruct (Z.eqb_spec q (p i0 m0)) as [E|]; [|reflexivity]. elim (Hq i0 m0 (or_introl eq_refl) E). }
  destruct (G (list_prod (seq 0 n_row) (seq 0 n_vecs)) y) as [H1 H2].
  - intros [i m] He. apply in_prod_iff in He as [A1 A2]. apply in_seq in A1, A2. cbn. lia.
  - clear. assert (K : forall l l' : list nat, NoDup l -> NoDup l' -> NoDup (list_prod l l')).
    { induction l as [|i l IH]; intros l' N N'; [constructor|]. inversion N as [|? ? N1 N2]; subst. cbn. apply NoDup_app_intro'.
      - apply FinFun.Injective_map_NoDup; [intros x y E; congruence|exact N'].
      - apply IH; assumption.
      - intros [i' m'] A B. apply in_map_iff in A as (m & E & _). injection E as <- <-. apply in_prod_iff in B as [B _]. contradiction. }
    apply K; apply seq_NoDup.
  - split.
    + intros i m Hi Hm. rewrite (H1 i m); [reflexivity|]. apply in_prod_iff. split; apply in_seq; lia.
    + intros q Hq. apply H2. intros i m Hin. apply in_prod_iff in Hin as [A1 A2]. apply in_seq in A1, A2. apply Hq; lia.
Qed.
Lemma dotn_ok M n_row n_col n_vecs ov a xsr xsc x ysr ysc y : valid_matrix n_row n_col M -> distinct_addresses n_row n_vecs (fun i m => Zn i * ysr + Zn m * ysc)%Z ->
  (match M with Csr _ _ _ => (ysc < ysr)%Z \/ ysc = (Zn n_row * ysr)%Z \/ n_vecs <= 1 | _ => True end) ->
  is_products ov n_row n_col n_vecs (entries M) a (fun j m => x (Zn j * xsr + Zn m * xsc)%Z) (fun i m => Zn i * ysr + Zn m * ysc)%Z y (dotn M n_row n_col n_vecs ov a xsr xsc x ysr ysc y).
Proof.
  intros HV D HC. destruct M as [Ap Aj Ax|Ap Ai Ax|nd L off d|A].
  - apply csr_matvecs_ok; assumption.
  - apply csc_matvecs_ok; assumption.
  - apply dia_matvecs_ok; assumption.
  - apply others_ok, D.
Qed.
(* C-contiguous arrays *)
Lemma c_order n_row n_vecs : distinct_addresses n_row n_vecs (fun i m => Zn i * Zn n_vecs + Zn m * 1)%Z.
Proof. intros i m i' m' H1 H2 H3 H4 E. assert (i = i') by nia. subst. lia. Qed.
