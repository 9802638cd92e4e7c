From Verif Require Import AuxN SpecC SpecBasis SpecSparse M_sparse P_sparse P_sparse2.
Local Open Scope nat_scope.

(* ---- parallel assignments to distinct addresses ---- *)
Definition assigns (ov : bool) (l : list (Z * C)) : list instr := flat_map (fun e => assign ov (fst e) (snd e)) l.
Definition base (ov : bool) (y : mem) (p : Z) : C := if ov then C0 else y p.
Lemma exec_app l l' st : exec (l ++ l') st = exec l' (exec l st).
Proof. apply fold_left_app. Qed.
Lemma exec_assign ov p v st q : fst (exec (assign ov p v) st) q = if (q =? p)%Z then (base ov (fst st) p + v)%C else fst st q.
Proof. destruct st as [y r]. unfold base. destruct ov; cbn; unfold upd; destruct (q =? p)%Z; [ring|reflexivity|reflexivity|reflexivity]. Qed.
Lemma exec_assigns_out ov l : forall st p, ~ In p (map fst l) -> fst (exec (assigns ov l) st) p = fst st p.
Proof.
  induction l as [|e l IH]; intros st p H; [reflexivity|]. unfold assigns. cbn [flat_map]. rewrite exec_app. fold (assigns ov l). cbn [map] in H.
  rewrite IH by (intros K; apply H; right; exact K). rewrite exec_assign. destruct (Z.eqb_spec p (fst e)) as [E|]; [elim H; left; congruence|reflexivity].
Qed.
Lemma exec_assigns_in ov l : forall st e, NoDup (map fst l) -> In e l -> fst (exec (assigns ov l) st) (fst e) = (base ov (fst st) (fst e) + snd e)%C.
Proof.
  induction l as [|e0 l IH]; intros st e N H; [destruct H|]. unfold assigns. cbn [flat_map]. rewrite exec_app. fold (assigns ov l). inversion N as [|a b N1 N2]; subst. destruct H as [-> |H].
  - rewrite exec_assigns_out, exec_assign, Z.eqb_refl by exact N1. reflexivity.
  - rewrite IH by assumption. f_equal. unfold base. destruct ov; [reflexivity|]. rewrite exec_assign. destruct (Z.eqb_spec (fst e) (fst e0)) as [E|]; [|reflexivity]. elim N1. rewrite <- E. apply in_map, H.
Qed.
Lemma nodup_app_disj {A} (l l' : list A) x : NoDup (l ++ l') -> In x l -> In x l' -> False.
Proof. induction l as [|a l IH]; cbn; intros N H H'; [destruct H|]. inversion N as [|? ? N1 N2]; subst. destruct H as [-> |H]; [apply N1, in_or_app; right; exact H'|exact (IH N2 H H')]. Qed.
Lemma nodup_app_l {A} (l l' : list A) : NoDup (l ++ l') -> NoDup l.
Proof. induction l as [|a l IH]; cbn; intros N; [constructor|]. inversion N as [|? ? N1 N2]; subst. constructor; [intros H; apply N1, in_or_app; left; exact H|exact (IH N2)]. Qed.
Lemma nodup_app_r {A} (l l' : list A) : NoDup (l ++ l') -> NoDup l'.
Proof. induction l as [|a l IH]; cbn; intros N; [exact N|]. inversion N; subst. auto. Qed.
Lemma parts_disjoint (parts : list (list (Z * C))) : NoDup (map fst (concat parts)) -> forall t t' l l' p,
  nth_error parts t = Some l -> nth_error parts t' = Some l' -> In p (map fst l) -> In p (map fst l') -> t = t'.
Proof.
  assert (K : forall parts t (l : list (Z * C)) p, nth_error parts t = Some l -> In p (map fst l) -> In p (map fst (concat parts))).
  { intros ps t l p E H. apply in_map_iff in H as (e & <- & H). apply in_map. apply in_concat. exists l. split; [exact (nth_error_In _ _ E)|exact H]. }
  induction parts as [|l0 parts IH]; intros N t t' l l' p E E' H H'; [destruct t; discriminate|]. cbn [concat] in N. rewrite map_app in N.
  destruct t as [|t], t' as [|t']; cbn in E, E'; [reflexivity| | |].
  - injection E as ->. elim (nodup_app_disj _ _ p N H). exact (K _ _ _ _ E' H').
  - injection E' as ->. elim (nodup_app_disj _ _ p N H'). exact (K _ _ _ _ E H).
  - f_equal. exact (IH (nodup_app_r _ _ N) t t' l l' p E E' H H').
Qed.
Lemma parts_nodup (parts : list (list (Z * C))) : NoDup (map fst (concat parts)) -> forall l, In l parts -> NoDup (map fst l).
Proof.
  induction parts as [|l0 parts IH]; intros N l H; [destruct H|]. cbn [concat] in N. rewrite map_app in N. destruct H as [-> |H]; [exact (nodup_app_l _ _ N)|exact (IH (nodup_app_r _ _ N) l H)].
Qed.
Lemma assigns_addr ov l i : In i (assigns ov l) -> In (iaddr i) (map fst l).
Proof. intros H. apply in_flat_map in H as (e & He & H). apply in_map_iff. exists e. split; [|exact He]. destruct ov; cbn in H; [destruct H as [<-|[]]|destruct H as [<-|[<-|[]]]]; reflexivity. Qed.
Lemma par_assigns ov parts y y' : NoDup (map fst (concat parts)) -> par (threads (map (assigns ov) parts)) y y' ->
  (forall e, In e (concat parts) -> y' (fst e) = (base ov y (fst e) + snd e)%C) /\ (forall p, ~ In p (map fst (concat parts)) -> y' p = y p).
Proof.
  intros N H. set (D := fun t p => exists l, nth_error parts t = Some l /\ In p (map fst l)).
  assert (Th : forall t l r, nth_error (threads (map (assigns ov) parts)) t = Some (l, r) -> exists l0, nth_error parts t = Some l0 /\ l = assigns ov l0 /\ r = C0).
  { intros t l r E. unfold threads in E. rewrite map_map, nth_error_map in E. destruct (nth_error parts t) as [l0|]; [|discriminate]. exists l0. cbn in E. injection E as <- <-. auto. }
  destruct (par_disjoint D) with (ths := threads (map (assigns ov) parts)) (y := y) (y' := y') as [H1 H2].
  - intros t t' p (l & E & Hl) (l' & E' & Hl'). exact (parts_disjoint parts N t t' l l' p E E' Hl Hl').
  - exact H.
  - intros t l r E i Hi. destruct (Th t l r E) as (l0 & E0 & -> & ->). exists l0. split; [exact E0|]. exact (assigns_addr ov l0 i Hi).
  - split.
    + intros e He. apply in_concat in He as (l0 & Hl0 & He). destruct (In_nth_error _ _ Hl0) as [t Et].
      rewrite (H1 t (assigns ov l0) C0); [|unfold threads; rewrite map_map, nth_error_map, Et; reflexivity|exists l0; split; [exact Et|apply in_map, He]].
      apply exec_assigns_in; [exact (parts_nodup parts N l0 Hl0)|exact He].
    + intros p Hp. apply H2. intros t _ (l & E & Hl). apply Hp. apply in_map_iff in Hl as (e & <- & Hl). apply in_map. apply in_concat. exists l. split; [exact (nth_error_In _ _ E)|exact Hl].
Qed.
(* #pragma omp for *)
Lemma omp_assign ov n addr v y y' : (forall i j, i < n -> j < n -> addr i = addr j -> i = j) -> omp_for n (fun i => assign ov (addr i) (v i)) y y' ->
  (forall i, i < n -> y' (addr i) = (base ov y (addr i) + v i)%C) /\ (forall p, (forall i, i < n -> p <> addr i) -> y' p = y p).
Proof.
  intros Inj (parts & HP & H).
  assert (E : map (flat_map (fun i => assign ov (addr i) (v i))) parts = map (assigns ov) (map (map (fun i => (addr i, v i))) parts)).
  { rewrite map_map. apply map_ext. intros l. unfold assigns. induction l as [|i l IH]; [reflexivity|]. cbn [flat_map map]. rewrite IH. reflexivity. }
  rewrite E in H. assert (EC : concat (map (map (fun i => (addr i, v i))) parts) = map (fun i => (addr i, v i)) (concat parts)) by (symmetry; apply concat_map).
  apply par_assigns in H as [H1 H2].
  - rewrite EC in H1, H2. split.
    + intros i Hi. apply (H1 (addr i, v i)). apply in_map_iff. exists i. split; [reflexivity|]. apply (Permutation_in _ (Permutation_sym HP)), in_seq. lia.
    + intros p Hp. apply H2. rewrite map_map. cbn [fst]. intros K. apply in_map_iff in K as (i & <- & K). apply (Permutation_in _ HP), in_seq in K. apply (Hp i); [lia|reflexivity].
  - rewrite EC, map_map. cbn [fst]. apply (Permutation_NoDup (l := map addr (seq 0 n))); [apply Permutation_map, Permutation_sym, HP|].
    clear -Inj. assert (G : forall l, (forall i, In i l -> i < n) -> NoDup l -> NoDup (map addr l)).
    { induction l as [|i l IH]; intros Hl N; [constructor|]. inversion N as [|? ? N1 N2]; subst. cbn. constructor; [|apply IH; [intros j Hj; apply Hl; right; exact Hj|exact N2]].
      intros K. apply in_map_iff in K as (j & Ej & Hj). apply N1. rewrite <- (Inj j i); [exact Hj| | |exact Ej]; apply Hl; [right; exact Hj|left; reflexivity]. }
    apply G; [intros i Hi; apply in_seq in Hi; lia|apply seq_NoDup].
Qed.
Lemma omp_for_exists n body y : exists y', omp_for n body y y'.
Proof. destruct (par_exists (threads (map (flat_map body) [seq 0 n])) y) as [y' H]. exists y', [seq 0 n]. split; [cbn; rewrite app_nil_r; apply Permutation_refl|exact H]. Qed.

(* ---- merge path ---- *)
Section Merge.
Variables (n nnz : nat) (ro : nat -> nat).
Hypothesis R0 : ro 0 = 0.
Hypothesis RM : forall i j, i <= j -> j <= n -> ro i <= ro j.
Hypothesis RN : ro n = nnz.
Let re i := ro (S i).

Definition on_path (d x : nat) : Prop := x <= Nat.min d n /\ d - nnz <= x /\ (forall i, i < x -> ro (S i) <= d - i - 1) /\ (forall i, x <= i -> i < Nat.min d n -> d - i - 1 < ro (S i)).
Lemma search_loop fuel d : d <= n + nnz -> forall lo hi, lo <= hi -> hi <= Nat.min d n -> hi - lo < fuel -> d - nnz <= lo ->
  (forall i, i < lo -> ro (S i) <= d - i - 1) -> (forall i, hi <= i -> i < Nat.min d n -> d - i - 1 < ro (S i)) ->
  exists x, merge_path_loop fuel d re lo hi = Some x /\ on_path d x.
Proof.
  intros Hd. induction fuel as [|fuel IH]; intros lo hi H1 H2 H3 H4 H5 H6; [lia|]. cbn [merge_path_loop]. destruct (Nat.ltb_spec lo hi) as [Hlt|Hge].
  - cbv zeta. assert (P : lo <= (lo + hi) / 2 < hi) by (split; [apply Nat.div_le_lower_bound|apply Nat.div_lt_upper_bound]; lia).
    set (pv := (lo + hi) / 2) in *. clearbody pv. unfold re at 1. destruct (Nat.leb_spec (ro (S pv)) (d - pv - 1)) as [Hle|Hgt].
    + apply IH; try lia; [|exact H6]. intros i Hi. assert (ro (S i) <= ro (S pv)) by (apply RM; lia). lia.
    + apply IH; try lia; [exact H5|]. intros i Hi Hi'. assert (ro (S pv) <= ro (S i)) by (apply RM; lia). lia.
  - exists lo. split; [reflexivity|]. unfold on_path. assert (lo = hi) by lia. subst hi. auto.
Qed.
Lemma search_spec d : d <= n + nnz -> exists x, merge_path_search d n nnz re = Some (x, d - x) /\ on_path d x.
Proof.
  intros Hd. unfold merge_path_search. destruct (search_loop (S (Nat.min d n)) d Hd (d - nnz) (Nat.min d n)) as (x & E & P); try lia.
  - intros i Hi. assert (ro (S i) <= nnz) by (rewrite <- RN; apply RM; lia). lia.
  - exists x. rewrite E. split; [|exact P]. destruct P as (P & _). repeat f_equal. lia.
Qed.
Lemma path_lower d x : on_path d x -> ro x <= d - x.
Proof. intros (P1 & P2 & P3 & P4). destruct x as [|x]; [lia|]. specialize (P3 x). lia. Qed.
Lemma path_upper d x : on_path d x -> x < n -> d - x <= ro (S x).
Proof. intros (P1 & P2 & P3 & P4) Hx. destruct (Nat.eq_dec x d); [lia|]. specialize (P4 x). lia. Qed.
Lemma path_mono d d' x x' : d <= d' -> on_path d x -> on_path d' x' -> x <= x' /\ d - x <= d' - x'.
Proof.
  intros Hd H H'. assert (X : x <= x').
  { destruct (le_lt_dec x x') as [|K]; [assumption|]. destruct H as (P1 & P2 & P3 & P4), H' as (Q1 & Q2 & Q3 & Q4). specialize (P3 x' K). specialize (Q4 x'). lia. }
  split; [exact X|]. destruct (Nat.eq_dec x x') as [-> |Hne]; [lia|]. specialize (path_lower d' x' H'). intros L. specialize (path_upper d x H). intros U.
  assert (ro (S x) <= ro x') by (destruct H' as (Q1 & _); apply RM; lia). destruct H' as (Q1 & _). lia.
Qed.
Lemma path_end x : on_path (n + nnz) x -> x = n.
Proof. intros (P1 & P2 & _). lia. Qed.
Lemma path_start x : on_path 0 x -> x = 0.
Proof. intros (P1 & _). lia. Qed.

Variables (Aj : nat -> nat) (Ax : nat -> C) (xs : Z) (xv : mem).
Definition term (k : nat) : C := (Ax k * xv (Zn (Aj k) * xs)%Z)%C.
Definition seg (u v : nat) : C := Csum (seq u (v - u)) term.
Definition cum (k : nat) : C := Csum (seq 0 k) term.
Lemma seg_cum u v : u <= v -> seg u v = (cum v - cum u)%C.
Proof. intros H. unfold seg, cum. replace v with (u + (v - u)) at 2 by lia. rewrite seq_app, Csum_app. cbn [Nat.add]. ring. Qed.
Lemma loop_seg u v : loop u v (fun k s => (s + Ax k * xv (Zn (Aj k) * xs)%Z)%C) C0 = seg u v.
Proof. rewrite (loop_sum u v term). unfold seg. ring. Qed.

Lemma merge_rows_spec ov a ys cnt : forall x k, ro x <= k -> x + cnt <= n ->
  merge_rows ov re Aj Ax a xs xv ys cnt x k = (assigns ov (map (fun r => ((Zn r * ys)%Z, (a * seg (Nat.max k (ro r)) (ro (S r)))%C)) (seq x cnt)), Nat.max k (ro (x + cnt))).
Proof.
  induction cnt as [|cnt IH]; intros x k Hk Hx.
  - cbn. f_equal. rewrite Nat.add_0_r. lia.
  - cbn [merge_rows]. rewrite IH by (unfold re; lia). rewrite loop_seg. cbn [seq map]. unfold assigns at 2. cbn [flat_map fst snd]. f_equal.
    + f_equal; [f_equal; f_equal; f_equal; lia|]. unfold assigns. f_equal. apply map_ext_in. intros r Hr. apply in_seq in Hr. f_equal. f_equal. f_equal.
      unfold re. assert (ro (S x) <= ro r) by (apply RM; lia). lia.
    + replace (x + S cnt) with (S x + cnt) by lia. unfold re. assert (ro (S x) <= ro (S x + cnt)) by (apply RM; lia). lia.
Qed.

(* one thread *)
Variables (T : nat).
Hypothesis HT : 0 < T.
Definition per := (n + nnz + T - 1) / T.
Definition dg (t : nat) := Nat.min (per * t) (n + nnz).
Lemma dg_T : dg T = n + nnz.
Proof. unfold dg, per. assert (n + nnz <= (n + nnz + T - 1) / T * T); [|lia]. pose proof (Nat.div_mod (n + nnz + T - 1) T ltac:(lia)). pose proof (Nat.mod_upper_bound (n + nnz + T - 1) T ltac:(lia)). lia. Qed.
Lemma dg_mono t t' : t <= t' -> dg t <= dg t'.
Proof. intros H. unfold dg. assert (per * t <= per * t') by (apply Nat.mul_le_mono_l, H). lia. Qed.
Lemma dg_le t : dg t <= n + nnz. Proof. unfold dg. lia. Qed.
Lemma dg_S t : Nat.min (dg t + per) (n + nnz) = dg (S t).
Proof. unfold dg. lia. Qed.

Definition coords (X : nat -> nat) : Prop := forall t, on_path (dg t) (X t).
Lemma coords_exist : exists X, coords X /\ forall t, merge_path_search (dg t) n nnz re = Some (X t, dg t - X t).
Proof.
  exists (fun t => match merge_path_search (dg t) n nnz re with Some (x, _) => x | None => 0 end).
  split; intros t; destruct (search_spec (dg t) (dg_le t)) as (x & E & P); rewrite E; auto.
Qed.
Section Coords.
Variable X : nat -> nat.
Hypothesis HX : coords X.
Definition K (t : nat) := dg t - X t.
Lemma X_mono t t' : t <= t' -> X t <= X t' /\ K t <= K t'.
Proof. intros H. apply (path_mono (dg t) (dg t')); [apply dg_mono, H|apply HX|apply HX]. Qed.
Lemma X_0 : X 0 = 0.
Proof. apply path_start. generalize (HX 0). unfold dg. rewrite Nat.mul_0_r. exact (fun H => H). Qed.
Lemma X_T : X T = n.
Proof. apply path_end. rewrite <- dg_T. apply HX. Qed.
Lemma X_le t : X t <= n.
Proof. destruct (HX t) as (P & _). lia. Qed.
Lemma K_lower t : ro (X t) <= K t. Proof. apply path_lower, HX. Qed.
Lemma K_upper t : X t < n -> K t <= ro (S (X t)). Proof. apply path_upper, HX. Qed.
Definition row_list (t : nat) (a : C) (ys : Z) : list (Z * C) := map (fun r => ((Zn r * ys)%Z, (a * seg (Nat.max (K t) (ro r)) (ro (S r)))%C)) (seq (X t) (X (S t) - X t)).
Definition carry (t : nat) : C := seg (Nat.max (K t) (ro (X (S t)))) (K (S t)).
Lemma thread_spec ov a ys t : (forall t, merge_path_search (dg t) n nnz re = Some (X t, dg t - X t)) ->
  merge_thread ov n ro Aj Ax a xs xv ys T t = Some (assigns ov (row_list t a ys), X (S t), carry t).
Proof.
  intros HS. unfold merge_thread. rewrite RN. fold per. fold (dg t). rewrite dg_S. fold re. rewrite !HS. fold (K t) (K (S t)).
  pose proof (X_mono t (S t) ltac:(lia)) as [M1 M2]. rewrite merge_rows_spec; [|apply K_lower|specialize (X_le (S t)); lia]. rewrite loop_seg. replace (X t + (X (S t) - X t)) with (X (S t)) by lia. reflexivity.
Qed.

(* row r: what thread t adds *)
Definition clamp (t r : nat) := Nat.max (ro r) (Nat.min (K t) (ro (S r))).
Lemma contrib t r : r < n -> t < T ->
  (cum (clamp (S t) r) - cum (clamp t r))%C =
  ((if ((X t <=? r) && (r <? X (S t)))%bool then seg (Nat.max (K t) (ro r)) (ro (S r)) else C0) + (if X (S t) =? r then carry t else C0))%C.
Proof.
  intros Hr Ht. pose proof (X_mono t (S t) ltac:(lia)) as [M1 M2]. pose proof (K_lower t) as L0. pose proof (K_lower (S t)) as L1. pose proof (K_upper t) as U0. pose proof (K_upper (S t)) as U1.
  pose proof (RM r (S r) ltac:(lia) ltac:(lia)) as RR. pose proof (X_le (S t)) as XL. unfold carry, clamp.
  destruct (Nat.leb_spec (X t) r) as [A|A]; [destruct (Nat.ltb_spec r (X (S t))) as [B|B]|]; cbn [andb].
  - assert (ro (S r) <= ro (X (S t))) by (apply RM; lia). assert (K t <= ro (S r)) by (assert (ro (S (X t)) <= ro (S r)) by (apply RM; lia); lia).
    destruct (Nat.eqb_spec (X (S t)) r); [lia|]. rewrite seg_cum by lia. replace (Nat.max (ro r) (Nat.min (K (S t)) (ro (S r)))) with (ro (S r)) by lia.
    replace (Nat.max (ro r) (Nat.min (K t) (ro (S r)))) with (Nat.max (K t) (ro r)) by lia. ring.
  - destruct (Nat.eqb_spec (X (S t)) r) as [E|E].
    + subst r. rewrite seg_cum by lia. replace (Nat.max (ro (X (S t))) (Nat.min (K (S t)) (ro (S (X (S t)))))) with (K (S t)) by lia.
      assert (K t <= ro (S (X (S t)))) by lia. replace (Nat.max (ro (X (S t))) (Nat.min (K t) (ro (S (X (S t)))))) with (Nat.max (K t) (ro (X (S t)))) by lia. ring.
    + assert (ro (S (X (S t))) <= ro r) by (apply RM; lia). replace (Nat.max (ro r) (Nat.min (K (S t)) (ro (S r)))) with (ro r) by lia. replace (Nat.max (ro r) (Nat.min (K t) (ro (S r)))) with (ro r) by lia. ring.
  - assert (ro (S r) <= ro (X t)) by (apply RM; lia). destruct (Nat.eqb_spec (X (S t)) r); [lia|]. replace (Nat.max (ro r) (Nat.min (K (S t)) (ro (S r)))) with (ro (S r)) by lia.
    replace (Nat.max (ro r) (Nat.min (K t) (ro (S r)))) with (ro (S r)) by lia. ring.
Qed.
Lemma telescope (f : nat -> C) m : Csum (seq 0 m) (fun t => f (S t) - f t)%C = (f m - f 0)%C.
Proof. induction m as [|m IH]; [cbn [seq]; rewrite Csum_nil; ring|]. rewrite seq_S, Csum_app, IH, Csum_cons, Csum_nil. cbn [Nat.add]. ring. Qed.
Lemma total r : r < n -> Csum (seq 0 T) (fun t => (if ((X t <=? r) && (r <? X (S t)))%bool then seg (Nat.max (K t) (ro r)) (ro (S r)) else C0) + (if X (S t) =? r then carry t else C0))%C = seg (ro r) (ro (S r)).
Proof.
  intros Hr. rewrite (Csum_ext _ _ (fun t => cum (clamp (S t) r) - cum (clamp t r))%C); [|intros t Ht; apply in_seq in Ht; symmetry; apply contrib; lia].
  rewrite (telescope (fun t => cum (clamp t r))), seg_cum by (apply RM; lia). pose proof (RM r (S r) ltac:(lia) ltac:(lia)). f_equal.
  - f_equal. unfold clamp, K. rewrite X_T, dg_T. assert (ro (S r) <= nnz) by (rewrite <- RN; apply RM; lia). lia.
  - f_equal. f_equal. unfold clamp, K. rewrite X_0. unfold dg. lia.
Qed.
Lemma row_thread r : r < n -> exists t, t < T /\ X t <= r < X (S t).
Proof.
  intros Hr. assert (G : forall m, r < X m -> exists t, t < m /\ X t <= r < X (S t)).
  { induction m as [|m IH]; intros H; [rewrite X_0 in H; lia|]. destruct (le_lt_dec (X m) r) as [L|L]; [exists m; lia|]. destruct (IH L) as (t & Ht & B). exists t. lia. }
  apply G. rewrite X_T. exact Hr.
Qed.
Lemma row_thread_unique r t t' : X t <= r < X (S t) -> X t' <= r < X (S t') -> t = t'.
Proof.
  intros H H'. destruct (lt_eq_lt_dec t t') as [[L|E]|L]; [|exact E|].
  - pose proof (X_mono (S t) t' ltac:(lia)) as [M _]. lia.
  - pose proof (X_mono (S t') t ltac:(lia)) as [M _]. lia.
Qed.
Lemma rows_concat m : concat (map (fun t => seq (X t) (X (S t) - X t)) (seq 0 m)) = seq 0 (X m).
Proof.
  induction m as [|m IH]; [rewrite X_0; reflexivity|]. rewrite seq_S, map_app, concat_app, IH. cbn [Nat.add map concat]. rewrite app_nil_r.
  pose proof (X_mono m (S m) ltac:(lia)) as [M _]. replace (X (S m)) with (X m + (X (S m) - X m)) at 2 by lia. rewrite seq_app. reflexivity.
Qed.

Lemma merge_ok ov a ys y y1 (HS : forall t, merge_path_search (dg t) n nnz re = Some (X t, dg t - X t)) : ys <> 0%Z ->
  par (threads (map (fun t => assigns ov (row_list t a ys)) (seq 0 T))) y y1 ->
  let y' := fix_up n a ys (map (fun t => (X (S t), carry t)) (seq 0 T)) y1 in
  (forall r, r < n -> y' (Zn r * ys)%Z = (base ov y (Zn r * ys) + a * seg (ro r) (ro (S r)))%C) /\ (forall p, (forall r, r < n -> p <> (Zn r * ys)%Z) -> y' p = y p).
Proof.
  intros Hs H y'. set (parts := map (fun t => row_list t a ys) (seq 0 T)).
  assert (EM : map (fun t => assigns ov (row_list t a ys)) (seq 0 T) = map (assigns ov) parts) by (unfold parts; rewrite map_map; reflexivity). rewrite EM in H.
  assert (EF : map fst (concat parts) = map (fun r => (Zn r * ys)%Z) (seq 0 n)).
  { rewrite <- X_T, <- (rows_concat T). unfold parts. rewrite !concat_map, !map_map. f_equal. apply map_ext. intros t. unfold row_list. rewrite map_map. reflexivity. }
  destruct (par_assigns ov parts y y1) as [H1 H2].
  { rewrite EF. apply FinFun.Injective_map_NoDup; [intros i j E; nia|apply seq_NoDup]. }
  { exact H. }
  assert (FU : forall p, y' p = (y1 p + Csum (seq 0 T) (fun t => if (X (S t) <? n) && (Zn (X (S t)) * ys =? p)%Z then a * carry t else C0)%bool)%C).
  { intros p. unfold y', fix_up. rewrite map_length, seq_length, firstn_map.
    assert (ES : seq 0 T = seq 0 (T - 1) ++ [T - 1]) by (replace T with (S (T - 1)) at 1 by lia; apply seq_S).
    rewrite ES, firstn_app, seq_length, Nat.sub_diag. cbn [firstn]. rewrite app_nil_r, firstn_all2 by (rewrite seq_length; lia).
    rewrite Csum_app, Csum_cons, Csum_nil. replace (S (T - 1)) with T by lia. rewrite X_T, Nat.ltb_irrefl. cbn [andb].
    generalize (seq 0 (T - 1)). intros l. clear. revert y1. induction l as [|t l IH]; intros y1; cbn [map fold_left fst snd]; [rewrite Csum_nil; ring|]. rewrite IH, Csum_cons.
    destruct (X (S t) <? n); cbn [andb]; [|ring]. unfold acc, upd. rewrite (Z.eqb_sym p). destruct (Z.eqb_spec (Zn (X (S t)) * ys) p); [subst p; ring|ring]. }
  split.
  - intros r Hr. destruct (row_thread r Hr) as (t & Ht & B).
    assert (M : y1 (Zn r * ys)%Z = (base ov y (Zn r * ys) + a * seg (Nat.max (K t) (ro r)) (ro (S r)))%C).
    { apply (H1 ((Zn r * ys)%Z, (a * seg (Nat.max (K t) (ro r)) (ro (S r)))%C)).
      apply in_concat. exists (row_list t a ys). split; [apply in_map_iff; exists t; split; [reflexivity|apply in_seq; lia]|]. apply in_map_iff. exists r. split; [reflexivity|apply in_seq; lia]. }
    rewrite FU, M.
    rewrite <- (total r Hr), Csum_add.
    rewrite (Csum_single (seq 0 T) (fun t => if ((X t <=? r) && (r <? X (S t)))%bool then seg (Nat.max (K t) (ro r)) (ro (S r)) else C0) t); [|apply seq_NoDup|apply in_seq; lia|].
    + destruct (Nat.leb_spec (X t) r); [|lia]. destruct (Nat.ltb_spec r (X (S t))); [|lia]. cbn [andb].
      rewrite (Csum_ext (seq 0 T) _ (fun t => a * (if X (S t) =? r then carry t else C0))%C), Csum_mul_l; [ring|].
      intros t' _. destruct (Nat.eqb_spec (X (S t')) r) as [E|E].
      * subst r. destruct (Nat.ltb_spec (X (S t')) n); [|lia]. cbn [andb]. rewrite Z.eqb_refl. reflexivity.
      * destruct (Z.eqb_spec (Zn (X (S t')) * ys) (Zn r * ys)); [nia|]. rewrite andb_false_r. ring.
    + intros t' _ Hne. destruct (Nat.leb_spec (X t') r); [|reflexivity]. destruct (Nat.ltb_spec r (X (S t'))); [|reflexivity]. elim Hne. apply (row_thread_unique r); lia.
  - intros p Hp. rewrite FU, H2.
    + rewrite Csum_zero; [ring|]. intros t _. destruct (Nat.ltb_spec (X (S t)) n) as [L|]; [|reflexivity]. cbn [andb]. destruct (Z.eqb_spec (Zn (X (S t)) * ys) p) as [E|]; [|reflexivity]. elim (Hp _ L). congruence.
    + rewrite EF. intros I. apply in_map_iff in I as (r & E & I). apply in_seq in I. apply (Hp r); [lia|congruence].
Qed.
End Coords.
End Merge.
