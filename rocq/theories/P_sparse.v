From Verif Require Import AuxN SpecC SpecBasis SpecSparse M_sparse.
Local Open Scope nat_scope.

(* lists of additions *)
Definition adds (l : list (Z * C)) (y : mem) : mem := fold_left (fun y e => acc y (fst e) (snd e)) l y.
Definition at_sum (l : list (Z * C)) (p : Z) : C := Csum l (fun e => if (fst e =? p)%Z then snd e else C0).
Lemma adds_at l : forall y p, adds l y p = (y p + at_sum l p)%C.
Proof.
  induction l as [|e l IH]; intros y p; unfold adds, at_sum in *; cbn [fold_left].
  - rewrite Csum_nil. ring.
  - rewrite IH, Csum_cons. unfold acc, upd. rewrite (Z.eqb_sym p). destruct (fst e =? p)%Z eqn:E; [|ring]. apply Z.eqb_eq in E. subst. ring.
Qed.
Lemma adds_app l l' y : adds (l ++ l') y = adds l' (adds l y).
Proof. apply fold_left_app. Qed.
Lemma at_app l l' p : at_sum (l ++ l') p = (at_sum l p + at_sum l' p)%C.
Proof. apply Csum_app. Qed.
Lemma at_flat {X} (f : X -> list (Z * C)) l p : at_sum (flat_map f l) p = Csum l (fun x => at_sum (f x) p).
Proof. induction l as [|x l IH]; [reflexivity|]. cbn [flat_map]. rewrite at_app, IH, Csum_cons. reflexivity. Qed.
Lemma at_map {X} (f : X -> Z * C) l p : at_sum (map f l) p = Csum l (fun x => if (fst (f x) =? p)%Z then snd (f x) else C0).
Proof. apply Csum_map. Qed.
Lemma at_other l p : (forall e, In e l -> fst e <> p) -> at_sum l p = C0.
Proof. intros H. apply Csum_zero. intros e He. destruct (Z.eqb_spec (fst e) p) as [E|]; [elim (H e He E)|reflexivity]. Qed.

(* loops *)
Lemma loop_ext {S} a b (f g : nat -> S -> S) st : (forall k st, a <= k < b -> f k st = g k st) -> loop a b f st = loop a b g st.
Proof.
  intros H. unfold loop. assert (G : forall l st, (forall k, In k l -> a <= k < b) -> fold_left (fun st i => f i st) l st = fold_left (fun st i => g i st) l st).
  { induction l as [|k l IH]; intros s Hl; [reflexivity|]. cbn [fold_left]. rewrite H by (apply Hl; left; reflexivity). apply IH. intros k' Hk. apply Hl. right. exact Hk. }
  apply G. intros k Hk. apply in_seq in Hk. lia.
Qed.
Lemma loop_S {S} n (f : nat -> S -> S) st : loop 0 (Datatypes.S n) f st = f n (loop 0 n f st).
Proof. unfold loop. rewrite !Nat.sub_0_r, seq_S, fold_left_app. reflexivity. Qed.
Lemma loop_adds a b f y : loop a b (fun k y => adds (f k) y) y = adds (flat_map f (seq a (b - a))) y.
Proof. unfold loop. revert y. induction (seq a (b - a)) as [|k l IH]; intros y; [reflexivity|]. cbn [fold_left flat_map]. rewrite IH, adds_app. reflexivity. Qed.
Lemma loop_acc a b p (v : nat -> C) y : loop a b (fun k y => acc y (p k) (v k)) y = adds (map (fun k => (p k, v k)) (seq a (b - a))) y.
Proof. unfold loop. revert y. induction (seq a (b - a)) as [|k l IH]; intros y; [reflexivity|]. cbn [fold_left map]. rewrite IH. reflexivity. Qed.
(* one moving pointer *)
Lemma loop_ptr n s (f : nat -> Z -> list (Z * C)) p0 y :
  loop 0 n (fun k st => ((fst st + s)%Z, adds (f k (fst st)) (snd st))) (p0, y) = ((p0 + Zn n * s)%Z, adds (flat_map (fun k => f k (p0 + Zn k * s)%Z) (seq 0 n)) y).
Proof.
  induction n as [|n IH]; [cbn; f_equal; lia|]. rewrite loop_S, IH. cbn [fst snd]. rewrite seq_S, flat_map_app, adds_app. cbn [flat_map]. rewrite app_nil_r. f_equal. lia.
Qed.
(* two moving pointers *)
Lemma loop_ptr2 n s t (f : nat -> Z -> Z -> list (Z * C)) p0 q0 y :
  loop 0 n (fun k st => ((fst st + s)%Z, ((fst (snd st) + t)%Z, adds (f k (fst st) (fst (snd st))) (snd (snd st))))) (p0, (q0, y)) =
  ((p0 + Zn n * s)%Z, ((q0 + Zn n * t)%Z, adds (flat_map (fun k => f k (p0 + Zn k * s)%Z (q0 + Zn k * t)%Z) (seq 0 n)) y)).
Proof.
  induction n as [|n IH]; [cbn; repeat f_equal; lia|]. rewrite loop_S, IH. cbn [fst snd]. rewrite seq_S, flat_map_app, adds_app. cbn [flat_map]. rewrite app_nil_r.
  f_equal; [lia|]. f_equal. lia.
Qed.
Lemma loop_sum a b (v : nat -> C) : forall s, loop a b (fun k s => (s + v k)%C) s = (s + Csum (seq a (b - a)) v)%C.
Proof. unfold loop. induction (seq a (b - a)) as [|k l IH]; intros s; cbn [fold_left]; [rewrite Csum_nil; ring|]. rewrite IH, Csum_cons. ring. Qed.

Definition axpy_list (n : nat) (a : C) xs (x : mem) px ys py : list (Z * C) := map (fun m => ((py + Zn m * ys)%Z, (a * x (px + Zn m * xs)%Z)%C)) (seq 0 n).
Lemma axpy_adds n a xs x : forall px ys py y, axpy_strided n a xs x px ys y py = adds (axpy_list n a xs x px ys py) y.
Proof.
  induction n as [|n IH]; intros px ys py y; [reflexivity|]. cbn [axpy_strided]. rewrite IH. unfold axpy_list. cbn [seq map].
  rewrite <- seq_shift, map_map. unfold adds. cbn [fold_left fst snd]. rewrite !Z.mul_0_l, !Z.add_0_r. f_equal.
  apply map_ext. intros m. f_equal; [|f_equal; f_equal]; lia.
Qed.

Lemma at_axpy n a xs x px ys py p m : m < n -> p = (py + Zn m * ys)%Z -> (forall m', m' < n -> (py + Zn m' * ys)%Z = p -> m' = m) ->
  at_sum (axpy_list n a xs x px ys py) p = (a * x (px + Zn m * xs)%Z)%C.
Proof.
  intros Hm -> D. unfold axpy_list. rewrite at_map, (Csum_single _ _ m); [cbn [fst snd]; rewrite Z.eqb_refl; reflexivity|apply seq_NoDup|apply in_seq; lia|].
  intros m' Hm' Hne. apply in_seq in Hm'. cbn [fst]. destruct (Z.eqb_spec (py + Zn m' * ys) (py + Zn m * ys)) as [E|]; [|reflexivity]. elim Hne. apply D; [lia|exact E].
Qed.
Lemma at_axpy_0 n a xs x px ys py p : (forall m', m' < n -> (py + Zn m' * ys)%Z <> p) -> at_sum (axpy_list n a xs x px ys py) p = C0.
Proof. intros H. apply at_other. intros e He. apply in_map_iff in He as (m & <- & Hm). apply in_seq in Hm. apply H. lia. Qed.

(* setting y to zero *)
Lemma fold_upd_at l v : forall y p, fold_left (fun y q => upd y q v) l y p = if existsb (fun q => (p =? q)%Z) l then v else y p.
Proof.
  induction l as [|q l IH]; intros y p; [reflexivity|]. cbn [fold_left existsb]. rewrite IH. unfold upd. destruct (existsb _ l); [rewrite orb_true_r; reflexivity|].
  rewrite orb_false_r. reflexivity.
Qed.
Lemma fold_map {X Y S} (g : X -> Y) (f : S -> Y -> S) l : forall s, fold_left (fun s x => f s (g x)) l s = fold_left f (map g l) s.
Proof. induction l as [|x l IH]; intros s; [reflexivity|]. apply IH. Qed.
Lemma zero2_fold n m sr sc y : zero2 n m sr sc y = fold_left (fun y q => upd y q C0) (flat_map (fun i => map (fun j => (Zn i * sr + Zn j * sc)%Z) (seq 0 m)) (seq 0 n)) y.
Proof.
  unfold zero2. revert y. unfold loop at 1. rewrite Nat.sub_0_r. induction (seq 0 n) as [|i l IH]; intros y; [reflexivity|]. cbn [fold_left flat_map]. rewrite IH, fold_left_app.
  f_equal. unfold loop. rewrite Nat.sub_0_r. apply (fold_map (fun j => (Zn i * sr + Zn j * sc)%Z) (fun y q => upd y q C0)).
Qed.
Lemma zero2_in n m sr sc y i j : i < n -> j < m -> zero2 n m sr sc y (Zn i * sr + Zn j * sc)%Z = C0.
Proof.
  intros Hi Hj. rewrite zero2_fold, fold_upd_at. destruct (existsb _ _) eqn:E; [reflexivity|]. exfalso. apply not_true_iff_false in E. apply E.
  apply existsb_exists. exists (Zn i * sr + Zn j * sc)%Z. split; [|apply Z.eqb_refl]. apply in_flat_map. exists i. split; [apply in_seq; lia|]. apply in_map_iff. exists j. split; [reflexivity|apply in_seq; lia].
Qed.
Lemma zero2_out n m sr sc y p : (forall i j, i < n -> j < m -> p <> (Zn i * sr + Zn j * sc)%Z) -> zero2 n m sr sc y p = y p.
Proof.
  intros H. rewrite zero2_fold, fold_upd_at. destruct (existsb _ _) eqn:E; [|reflexivity]. exfalso. apply existsb_exists in E as (q & Hq & E).
  apply Z.eqb_eq in E. subst q. apply in_flat_map in Hq as (i & Hi & Hq). apply in_map_iff in Hq as (j & Hj & Hq). apply in_seq in Hi, Hq. apply (H i j); [lia|lia|congruence].
Qed.
Lemma zero1_zero2 n s y : zero1 n s y = zero2 n 1 s 0 y.
Proof. unfold zero1, zero2. apply loop_ext. intros k st _. unfold loop. cbn [seq Nat.sub fold_left]. f_equal. lia. Qed.

(* a kernel that sets y to zero if ov and then adds l *)
Definition init (ov : bool) n m sr sc (y : mem) : mem := if ov then zero2 n m sr sc y else y.
Lemma products_of ov n_row n_col n_vecs A a x sr sc y l :
  (forall i m, i < n_row -> m < n_vecs -> at_sum l (Zn i * sr + Zn m * sc)%Z = (a * Csum (seq 0 n_col) (fun j => A i j * x j m))%C) ->
  (forall e, In e l -> exists i m, i < n_row /\ m < n_vecs /\ fst e = (Zn i * sr + Zn m * sc)%Z) ->
  is_products ov n_row n_col n_vecs A a x (fun i m => Zn i * sr + Zn m * sc)%Z y (adds l (init ov n_row n_vecs sr sc y)).
Proof.
  intros H1 H2. split.
  - intros i m Hi Hm. rewrite adds_at, H1 by assumption. f_equal. unfold init. destruct ov; [apply zero2_in; assumption|reflexivity].
  - intros p Hp. rewrite adds_at, at_other; [|intros e He E; destruct (H2 e He) as (i & m & Hi & Hm & E'); apply (Hp i m Hi Hm); congruence].
    transitivity (init ov n_row n_vecs sr sc y p); [ring|]. unfold init. destruct ov; [apply zero2_out; exact Hp|reflexivity].
Qed.
Lemma product_one ov n_row n_col A a x s y y' : is_products ov n_row n_col 1 A a (fun j _ => x j) (fun i m => Zn i * s + Zn m * 0)%Z y y' ->
  is_product ov n_row n_col A a x (fun i => Zn i * s)%Z y y'.
Proof.
  intros [H1 H2]. split.
  - intros i Hi. specialize (H1 i 0 Hi (Nat.lt_0_1)). cbn beta in H1. replace (Zn i * s + Zn 0 * 0)%Z with (Zn i * s)%Z in H1 by lia. exact H1.
  - intros p Hp. apply H2. intros i m Hi Hm. replace (Zn i * s + Zn m * 0)%Z with (Zn i * s)%Z by lia. apply Hp, Hi.
Qed.

(* ---- CSR ---- *)
Section CSR.
Variables (n_row n_col : nat) (Ap Aj : nat -> nat) (Ax : nat -> C).
Hypothesis V : valid_ptr n_row n_col Ap Aj.

Lemma Ap_mono i j : i <= j -> j <= n_row -> Ap i <= Ap j.
Proof. destruct V as (_ & M & _). induction 1 as [|j H IH]; intros Hj; [lia|]. specialize (M j). lia. Qed.
Lemma Aj_bound i k : i < n_row -> In k (seq (Ap i) (Ap (S i) - Ap i)) -> Aj k < n_col.
Proof. intros Hi Hk. apply in_seq in Hk. destruct V as (_ & M & B). apply B. assert (Ap (S i) <= Ap n_row) by (apply Ap_mono; lia). lia. Qed.
Lemma csr_row i (X : nat -> C) : i < n_row ->
  Csum (seq (Ap i) (Ap (S i) - Ap i)) (fun k => Ax k * X (Aj k))%C = Csum (seq 0 n_col) (fun j => csr_entry Ap Aj Ax i j * X j)%C.
Proof.
  intros Hi. unfold csr_entry. transitivity (Csum (seq 0 n_col) (fun j => Csum (seq (Ap i) (Ap (S i) - Ap i)) (fun k => (if Aj k =? j then Ax k else C0) * X j)%C)).
  2: { apply Csum_ext. intros j _. apply Csum_mul_r. }
  rewrite Csum_swap. apply Csum_ext. intros k Hk. rewrite (Csum_single _ _ (Aj k)).
  - rewrite Nat.eqb_refl. reflexivity.
  - apply seq_NoDup.
  - apply in_seq. specialize (Aj_bound i k Hi Hk). lia.
  - intros j _ Hj. destruct (Nat.eqb_spec (Aj k) j); [congruence|]. ring.
Qed.

Lemma row_sum_eq xs x k : k < n_row -> row_sum Ap Aj Ax xs x k = Csum (seq 0 n_col) (fun j => csr_entry Ap Aj Ax k j * x (Zn j * xs)%Z)%C.
Proof.
  intros Hk. unfold row_sum. rewrite (loop_sum _ _ (fun jj => Ax jj * x (Zn (Aj jj) * xs)%Z)%C), <- (csr_row k (fun j => x (Zn j * xs)%Z) Hk). ring.
Qed.
Lemma csr_matvec_ok ov a xs x ys y : ys <> 0%Z ->
  is_product ov n_row n_col (csr_entry Ap Aj Ax) a (fun j => x (Zn j * xs)%Z) (fun i => Zn i * ys)%Z y (csr_matvec_noomp_strided ov n_row Ap Aj Ax a xs x ys y).
Proof.
  intros Hs. unfold csr_matvec_noomp_strided.
  assert (G : forall n, n <= n_row -> is_product ov n n_col (csr_entry Ap Aj Ax) a (fun j => x (Zn j * xs)%Z) (fun i => Zn i * ys)%Z y
     (loop 0 n (fun k y => if ov then upd y (Zn k * ys)%Z (a * row_sum Ap Aj Ax xs x k)%C else acc y (Zn k * ys)%Z (a * row_sum Ap Aj Ax xs x k)%C) y)).
  2: { apply G. lia. }
  induction n as [|n IH]; intros Hn; [split; [lia|reflexivity]|]. destruct (IH ltac:(lia)) as [H1 H2]. rewrite loop_S. match goal with |- context [loop 0 n ?f y] => set (y1 := loop 0 n f y) in *; clearbody y1 end. rewrite row_sum_eq by lia. split.
  - intros i Hi. assert (D : i = n \/ (i < n /\ (Zn i * ys =? Zn n * ys)%Z = false)) by (destruct (Nat.eq_dec i n); [left; assumption|right; split; [lia|apply Z.eqb_neq; nia]]).
    destruct D as [-> | [Hi' E]].
    + destruct ov; unfold acc, upd; rewrite Z.eqb_refl; [ring|]. f_equal. apply H2. intros i Hi'. nia.
    + destruct ov; unfold acc, upd; rewrite E; apply H1, Hi'.
  - intros p Hp. assert (E : (p =? Zn n * ys)%Z = false) by (apply Z.eqb_neq, Hp; lia).
    destruct ov; unfold acc, upd; rewrite E; apply H2; intros i Hi; apply Hp; lia.
Qed.

(* the additions of csr_matvecs in both loop orders *)
Definition csr_list n_vecs a xsr xsc x ysr ysc := flat_map (fun k => flat_map (fun jj => axpy_list n_vecs (a * Ax jj)%C xsc x (xsr * Zn (Aj jj))%Z ysc (0 + Zn k * ysr)%Z) (seq (Ap k) (Ap (S k) - Ap k))) (seq 0 n_row).
Definition csr_list2 n_vecs a xsr xsc x ysr := flat_map (fun m => flat_map (fun k => map (fun jj => ((0 + Zn m * (Zn n_row * ysr) + Zn k * ysr)%Z, ((a * Ax jj) * x (0 + Zn m * xsc + xsr * Zn (Aj jj))%Z)%C))
  (seq (Ap k) (Ap (S k) - Ap k))) (seq 0 n_row)) (seq 0 n_vecs).
Lemma csr_matvecs_row ov n_vecs a xsr xsc x ysr ysc y : (ysc < ysr)%Z ->
  csr_matvecs_strided ov n_row n_vecs Ap Aj Ax a xsr xsc x ysr ysc y = adds (csr_list n_vecs a xsr xsc x ysr ysc) (init ov n_row n_vecs ysr ysc y).
Proof.
  intros H. unfold csr_matvecs_strided. fold (init ov n_row n_vecs ysr ysc y). generalize (init ov n_row n_vecs ysr ysc y). intros y0. apply Z.ltb_lt in H. rewrite H.
  pose (F1 := (fun k py => flat_map (fun jj => axpy_list n_vecs (a * Ax jj)%C xsc x (xsr * Zn (Aj jj))%Z ysc py) (seq (Ap k) (Ap (S k) - Ap k)))). rewrite (loop_ext _ _ _ (fun k st => ((fst st + ysr)%Z, adds (F1 k (fst st)) (snd st)))).
  2: { intros k [py y1] _. cbn [fst snd]. f_equal. etransitivity; [|apply loop_adds]. apply loop_ext. intros jj y2 _. apply axpy_adds. }
  rewrite loop_ptr. reflexivity.
Qed.
Lemma csr_matvecs_col ov n_vecs a xsr xsc x ysr ysc y : ~ (ysc < ysr)%Z ->
  csr_matvecs_strided ov n_row n_vecs Ap Aj Ax a xsr xsc x ysr ysc y = adds (csr_list2 n_vecs a xsr xsc x ysr) (init ov n_row n_vecs ysr ysc y).
Proof.
  intros H. unfold csr_matvecs_strided. fold (init ov n_row n_vecs ysr ysc y). generalize (init ov n_row n_vecs ysr ysc y). intros y0. apply Z.ltb_nlt in H. rewrite H.
  pose (F2 := (fun (m : nat) px py => flat_map (fun k => map (fun jj => ((py + Zn k * ysr)%Z, ((a * Ax jj) * x (px + xsr * Zn (Aj jj))%Z)%C)) (seq (Ap k) (Ap (S k) - Ap k))) (seq 0 n_row))). rewrite (loop_ext _ _ _ (fun m st => ((fst st + xsc)%Z, ((fst (snd st) + Zn n_row * ysr)%Z,
     adds (F2 m (fst st) (fst (snd st))) (snd (snd st)))))).
  2: { intros m [px [py y1]] _. cbn [fst snd]. f_equal.
    pose (F3 := (fun k (py : Z) => map (fun jj => (py, ((a * Ax jj) * x (px + xsr * Zn (Aj jj))%Z)%C)) (seq (Ap k) (Ap (S k) - Ap k)))). rewrite (loop_ext _ _ _ (fun k st => ((fst st + ysr)%Z, adds (F3 k (fst st)) (snd st)))).
    2: { intros k [py' y2] _. cbn [fst snd]. f_equal. apply loop_acc. }
    rewrite loop_ptr. reflexivity. }
  rewrite loop_ptr2. reflexivity.
Qed.

Lemma csr_matvecs_ok ov n_vecs a xsr xsc x ysr ysc y : distinct_addresses n_row n_vecs (fun i m => Zn i * ysr + Zn m * ysc)%Z ->
  ((ysc < ysr)%Z \/ ysc = (Zn n_row * ysr)%Z \/ n_vecs <= 1) ->
  is_products ov n_row n_col n_vecs (csr_entry Ap Aj Ax) a (fun j m => x (Zn j * xsr + Zn m * xsc)%Z) (fun i m => Zn i * ysr + Zn m * ysc)%Z y
    (csr_matvecs_strided ov n_row n_vecs Ap Aj Ax a xsr xsc x ysr ysc y).
Proof.
  intros D HC. destruct (Z_lt_dec ysc ysr) as [Hlt|Hge].
  - rewrite csr_matvecs_row by exact Hlt. apply products_of.
    + intros i m Hi Hm. unfold csr_list. rewrite at_flat, (Csum_single _ _ i).
      * rewrite at_flat, <- (csr_row i (fun j => x (Zn j * xsr + Zn m * xsc)%Z) Hi), <- Csum_mul_l. apply Csum_ext. intros jj _.
        rewrite (at_axpy _ _ _ _ _ _ _ _ m Hm); [|lia|intros m' Hm' E; apply (D i m' i m); try assumption; lia].
        rewrite (Z.mul_comm xsr). ring.
      * apply seq_NoDup.
      * apply in_seq. lia.
      * intros k Hk Hki. apply in_seq in Hk. rewrite at_flat. apply Csum_zero. intros jj _. apply at_axpy_0. intros m' Hm' E. apply Hki. apply (D k m' i m); try assumption; lia.
    + intros e He. unfold csr_list in He. apply in_flat_map in He as (k & Hk & He). apply in_flat_map in He as (jj & _ & He). apply in_map_iff in He as (m & <- & Hm).
      apply in_seq in Hk, Hm. exists k, m. split; [lia|]. split; [lia|]. cbn [fst]. lia.
  - assert (EC : forall m k, m < n_vecs -> (0 + Zn m * (Zn n_row * ysr) + Zn k * ysr = Zn k * ysr + Zn m * ysc)%Z).
    { intros m k Hm. destruct HC as [HC|[HC|HC]]; [contradiction|subst ysc; lia|]. replace m with 0 by lia. lia. }
    rewrite csr_matvecs_col by exact Hge. apply products_of.
    + intros i m Hi Hm. unfold csr_list2. rewrite at_flat, (Csum_single _ _ m); [| apply seq_NoDup | apply in_seq; lia |].
      * rewrite at_flat, (Csum_single _ _ i); [| apply seq_NoDup | apply in_seq; lia |].
        -- rewrite at_map, <- (csr_row i (fun j => x (Zn j * xsr + Zn m * xsc)%Z) Hi), <- Csum_mul_l. apply Csum_ext. intros jj _. cbn [fst snd].
           rewrite EC, Z.eqb_refl by assumption. replace (0 + Zn m * xsc + xsr * Zn (Aj jj))%Z with (Zn (Aj jj) * xsr + Zn m * xsc)%Z by lia. ring.
        -- intros k Hk Hki. apply in_seq in Hk. rewrite at_map. apply Csum_zero. intros jj _. cbn [fst]. rewrite EC by assumption. destruct (Z.eqb_spec (Zn k * ysr + Zn m * ysc) (Zn i * ysr + Zn m * ysc)) as [E|]; [|reflexivity].
           elim Hki. apply (D k m i m); try assumption; lia.
      * intros m' Hm' Hne. apply in_seq in Hm'. rewrite at_flat. apply Csum_zero. intros k Hk. apply in_seq in Hk. rewrite at_map. apply Csum_zero. intros jj _. cbn [fst]. rewrite EC by lia.
        destruct (Z.eqb_spec (Zn k * ysr + Zn m' * ysc) (Zn i * ysr + Zn m * ysc)) as [E|]; [|reflexivity]. elim Hne. apply (D k m' i m); try assumption; lia.
    + intros e He. unfold csr_list2 in He. apply in_flat_map in He as (m & Hm & He). apply in_flat_map in He as (k & Hk & He). apply in_map_iff in He as (jj & <- & _).
      apply in_seq in Hk, Hm. exists k, m. split; [lia|]. split; [lia|]. cbn [fst]. apply EC. lia.
Qed.
End CSR.

(* ---- CSC ---- *)
Lemma csc_csr Ap Ai Ax i j : csc_entry Ap Ai Ax i j = csr_entry Ap Ai Ax j i.
Proof. reflexivity. Qed.
Section CSC.
Variables (n_row n_col : nat) (Ap Ai : nat -> nat) (Ax : nat -> C).
Hypothesis V : valid_ptr n_col n_row Ap Ai.
(* sum over all stored entries of those in row i *)
Lemma csc_row i (X : nat -> C) a : 
  Csum (seq 0 n_col) (fun j => Csum (seq (Ap j) (Ap (S j) - Ap j)) (fun ii => if Ai ii =? i then (a * Ax ii) * X j else C0))%C = (a * Csum (seq 0 n_col) (fun j => csc_entry Ap Ai Ax i j * X j))%C.
Proof.
  rewrite <- Csum_mul_l. apply Csum_ext. intros j _. unfold csc_entry. rewrite <- Csum_mul_r, <- Csum_mul_l. apply Csum_ext. intros ii _. destruct (Ai ii =? i); ring.
Qed.
Definition csc_list a xs (x : mem) ys := flat_map (fun j => map (fun ii => ((Zn (Ai ii) * ys)%Z, ((a * Ax ii) * x (Zn j * xs)%Z)%C)) (seq (Ap j) (Ap (S j) - Ap j))) (seq 0 n_col).
Lemma csc_matvec_ok ov a xs x ys y : ys <> 0%Z ->
  is_product ov n_row n_col (csc_entry Ap Ai Ax) a (fun j => x (Zn j * xs)%Z) (fun i => Zn i * ys)%Z y (csc_matvec_noomp_strided ov n_row n_col Ap Ai Ax a xs x ys y).
Proof.
  intros Hs. apply product_one.
  assert (E : csc_matvec_noomp_strided ov n_row n_col Ap Ai Ax a xs x ys y = adds (csc_list a xs x ys) (init ov n_row 1 ys 0 y)).
  { unfold csc_matvec_noomp_strided, init. rewrite zero1_zero2. generalize (if ov then zero2 n_row 1 ys 0 y else y). intros y0. unfold csc_list.
    rewrite <- (Nat.sub_0_r n_col) at 2. rewrite <- loop_adds. apply loop_ext. intros j y1 _. apply loop_acc. }
  rewrite E. apply products_of.
  - intros i m Hi Hm. unfold csc_list. rewrite at_flat, <- csc_row. apply Csum_ext. intros j _. rewrite at_map. apply Csum_ext. intros ii _. cbn [fst snd].
    replace (Zn i * ys + Zn m * 0)%Z with (Zn i * ys)%Z by lia. destruct (Nat.eqb_spec (Ai ii) i) as [-> |Hne]; [rewrite Z.eqb_refl; reflexivity|].
    destruct (Z.eqb_spec (Zn (Ai ii) * ys) (Zn i * ys)); [nia|reflexivity].
  - intros e He. unfold csc_list in He. apply in_flat_map in He as (j & Hj & He). apply in_map_iff in He as (ii & <- & Hii). apply in_seq in Hj.
    exists (Ai ii), 0. split; [apply (Aj_bound n_col n_row Ap Ai Ax V j); [lia|assumption]|split; [lia|cbn [fst]; lia]].
Qed.
Definition cscs_list n_vecs a xsr xsc (x : mem) ysr ysc := flat_map (fun j => flat_map (fun ii => axpy_list n_vecs (a * Ax ii)%C xsc x (0 + Zn j * xsr)%Z ysc (ysr * Zn (Ai ii))%Z) (seq (Ap j) (Ap (S j) - Ap j))) (seq 0 n_col).
Definition cscs_list2 n_vecs a xsr xsc (x : mem) ysr ysc := flat_map (fun m => flat_map (fun j => map (fun ii => ((0 + Zn m * ysc + ysr * Zn (Ai ii))%Z, ((a * Ax ii) * x (0 + Zn m * xsc + Zn j * xsr)%Z)%C))
  (seq (Ap j) (Ap (S j) - Ap j))) (seq 0 n_col)) (seq 0 n_vecs).
Lemma csc_matvecs_row ov n_vecs a xsr xsc x ysr ysc y : (ysc < ysr)%Z ->
  csc_matvecs_strided ov n_row n_col n_vecs Ap Ai Ax a xsr xsc x ysr ysc y = adds (cscs_list n_vecs a xsr xsc x ysr ysc) (init ov n_row n_vecs ysr ysc y).
Proof.
  intros H. unfold csc_matvecs_strided. fold (init ov n_row n_vecs ysr ysc y). generalize (init ov n_row n_vecs ysr ysc y). intros y0. apply Z.ltb_lt in H. rewrite H.
  pose (F4 := (fun j px => flat_map (fun ii => axpy_list n_vecs (a * Ax ii)%C xsc x px ysc (ysr * Zn (Ai ii))%Z) (seq (Ap j) (Ap (S j) - Ap j)))). rewrite (loop_ext _ _ _ (fun j st => ((fst st + xsr)%Z, adds (F4 j (fst st)) (snd st)))).
  2: { intros k [py y1] _. cbn [fst snd]. f_equal. etransitivity; [|apply loop_adds]. apply loop_ext. intros jj y2 _. apply axpy_adds. }
  rewrite loop_ptr. reflexivity.
Qed.
Lemma csc_matvecs_col ov n_vecs a xsr xsc x ysr ysc y : ~ (ysc < ysr)%Z ->
  csc_matvecs_strided ov n_row n_col n_vecs Ap Ai Ax a xsr xsc x ysr ysc y = adds (cscs_list2 n_vecs a xsr xsc x ysr ysc) (init ov n_row n_vecs ysr ysc y).
Proof.
  intros H. unfold csc_matvecs_strided. fold (init ov n_row n_vecs ysr ysc y). generalize (init ov n_row n_vecs ysr ysc y). intros y0. apply Z.ltb_nlt in H. rewrite H.
  pose (F5 := (fun (m : nat) px py => flat_map (fun j => map (fun ii => ((py + ysr * Zn (Ai ii))%Z, ((a * Ax ii) * x (px + Zn j * xsr)%Z)%C)) (seq (Ap j) (Ap (S j) - Ap j))) (seq 0 n_col))). rewrite (loop_ext _ _ _ (fun m st => ((fst st + xsc)%Z, ((fst (snd st) + ysc)%Z,
     adds (F5 m (fst st) (fst (snd st))) (snd (snd st)))))).
  2: { intros m [px [py y1]] _. cbn [fst snd]. f_equal. f_equal.
    pose (F6 := (fun j (xrow : Z) => map (fun ii => ((py + ysr * Zn (Ai ii))%Z, ((a * Ax ii) * x xrow)%C)) (seq (Ap j) (Ap (S j) - Ap j)))). rewrite (loop_ext _ _ _ (fun j st => ((fst st + xsr)%Z, adds (F6 j (fst st)) (snd st)))).
    2: { intros k [py' y2] _. cbn [fst snd]. f_equal. apply loop_acc. }
    rewrite loop_ptr. reflexivity. }
  rewrite loop_ptr2. reflexivity.
Qed.
Lemma csc_matvecs_ok ov n_vecs a xsr xsc x ysr ysc y : distinct_addresses n_row n_vecs (fun i m => Zn i * ysr + Zn m * ysc)%Z ->
  is_products ov n_row n_col n_vecs (csc_entry Ap Ai Ax) a (fun j m => x (Zn j * xsr + Zn m * xsc)%Z) (fun i m => Zn i * ysr + Zn m * ysc)%Z y
    (csc_matvecs_strided ov n_row n_col n_vecs Ap Ai Ax a xsr xsc x ysr ysc y).
Proof.
  intros D. destruct (Z_lt_dec ysc ysr) as [Hlt|Hge].
  - rewrite csc_matvecs_row by exact Hlt. apply products_of.
    + intros i m Hi Hm. unfold cscs_list. rewrite at_flat, <- (csc_row i (fun j => x (Zn j * xsr + Zn m * xsc)%Z)). apply Csum_ext. intros j Hj. rewrite at_flat. apply Csum_ext. intros ii Hii.
      assert (B : Ai ii < n_row) by (apply in_seq in Hj; apply (Aj_bound n_col n_row Ap Ai Ax V j); [lia|assumption]).
      destruct (Nat.eqb_spec (Ai ii) i) as [E|E].
      * rewrite (at_axpy _ _ _ _ _ _ _ _ m Hm); [|lia|intros m' Hm' E'; apply (D i m' i m); try assumption; lia]. f_equal; f_equal; lia.
      * apply at_axpy_0. intros m' Hm' E'. apply E. apply (D (Ai ii) m' i m); try assumption; lia.
    + intros e He. unfold cscs_list in He. apply in_flat_map in He as (j & Hj & He). apply in_flat_map in He as (ii & Hii & He). apply in_map_iff in He as (m & <- & Hm).
      apply in_seq in Hj, Hm. exists (Ai ii), m. split; [apply (Aj_bound n_col n_row Ap Ai Ax V j); [lia|assumption]|split; [lia|cbn [fst]; lia]].
  - rewrite csc_matvecs_col by exact Hge. apply products_of.
    + intros i m Hi Hm. unfold cscs_list2. rewrite at_flat, (Csum_single _ _ m); [| apply seq_NoDup | apply in_seq; lia |].
      * rewrite at_flat, <- (csc_row i (fun j => x (Zn j * xsr + Zn m * xsc)%Z)). apply Csum_ext. intros j Hj. rewrite at_map. apply Csum_ext. intros ii Hii. cbn [fst snd].
        assert (B : Ai ii < n_row) by (apply in_seq in Hj; apply (Aj_bound n_col n_row Ap Ai Ax V j); [lia|assumption]).
        destruct (Nat.eqb_spec (Ai ii) i) as [E|E].
        -- destruct (Z.eqb_spec (0 + Zn m * ysc + ysr * Zn (Ai ii)) (Zn i * ysr + Zn m * ysc)); [|subst; lia]. f_equal; f_equal; lia.
        -- destruct (Z.eqb_spec (0 + Zn m * ysc + ysr * Zn (Ai ii)) (Zn i * ysr + Zn m * ysc)) as [E'|]; [|reflexivity]. elim E. apply (D (Ai ii) m i m); try assumption; lia.
      * intros m' Hm' Hne. apply in_seq in Hm'. rewrite at_flat. apply Csum_zero. intros j Hj. rewrite at_map. apply Csum_zero. intros ii Hii. cbn [fst].
        assert (B : Ai ii < n_row) by (apply in_seq in Hj; apply (Aj_bound n_col n_row Ap Ai Ax V j); [lia|assumption]).
        destruct (Z.eqb_spec (0 + Zn m' * ysc + ysr * Zn (Ai ii)) (Zn i * ysr + Zn m * ysc)) as [E|]; [|reflexivity]. elim Hne. apply (D (Ai ii) m' i m); try assumption; lia.
    + intros e He. unfold cscs_list2 in He. apply in_flat_map in He as (m & Hm & He). apply in_flat_map in He as (j & Hj & He). apply in_map_iff in He as (ii & <- & Hii).
      apply in_seq in Hj, Hm. exists (Ai ii), m. split; [apply (Aj_bound n_col n_row Ap Ai Ax V j); [lia|assumption]|split; [lia|cbn [fst]; lia]].
Qed.
End CSC.
