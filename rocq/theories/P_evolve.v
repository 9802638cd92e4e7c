From Verif Require Import AuxN SpecC SpecExpm SpecSparse SpecEvolve M_sparse P_sparse P_sparse2 P_sparse4 M_evolve.
From Coq Require Import FunctionalExtensionality.
Local Open Scope nat_scope.

Lemma kernel_self M : kernel_for M M = Some M. Proof. destruct M; reflexivity. Qed.
Definition dia_fits (n : nat) (M : matrix) : Prop := match M with Dia _ L _ _ => L <= n | _ => True end.
Lemma cast_real real K a : (real = true -> snd a = 0%R) -> cast real K a = a.
Proof. intros H. unfold cast. destruct K; try reflexivity; (destruct real; [|reflexivity]); specialize (H eq_refl); destruct a; cbn in *; subst; reflexivity. Qed.
Lemma cast_opp real K a : cast real K (- a)%C = (- cast real K a)%C.
Proof. unfold cast. destruct K; try reflexivity; destruct real; try reflexivity; apply C_eq; cbn; ring. Qed.

Section RHS.
Variables (T n : nat) (shp : option nat).
Hypothesis HT : 0 < T.
Notation k := (columns shp).
Definition inside (p : Z) : Prop := (0 <= p < Z.of_nat n * Z.of_nat k)%Z.
Lemma inside_addr i m : i < n -> m < k -> inside (Z.of_nat i * Z.of_nat k + Z.of_nat m)%Z. Proof. unfold inside. intros. nia. Qed.

Lemma prod_ok real outr M ov a ac V y y' : valid_matrix n n M -> prod T n shp real outr M ov a ac V y y' ->
  (forall i m, i < n -> m < k -> at2 k y' i m = ((if ov then C0 else at2 k y i m) + cast real M a * Csum (seq 0 n) (fun j => entries M i j * at2 k V j m))%C) /\
  (forall p, ~ inside p -> y' p = y p).
Proof.
  intros HV (K & EK & _ & H). rewrite kernel_self in EK. injection EK as <-. unfold at2. assert (IA := inside_addr). revert H IA. unfold inside. destruct shp as [c|]; cbn [columns]; intros H IA.
  - subst y'. destruct (dotn_ok M n n c ov (cast real M a) (Z.of_nat c) 1 V (Z.of_nat c) 1 y HV (c_order n c)) as [P1 P2].
    { destruct M; try exact I. destruct (le_lt_dec c 1) as [L|L]; [right; right; exact L|left; lia]. }
    split.
    + intros i m Hi Hm. specialize (P1 i m Hi Hm). cbn beta in P1. rewrite Z.mul_1_r in P1. exact P1.
    + intros p Np. apply P2. intros i m Hi Hm E. apply Np. rewrite E, Z.mul_1_r. apply IA; assumption.
  - destruct (dot1_ok T M n n ov (cast real M a) 1 V 1 y y' HT HV ltac:(discriminate) H) as [P1 P2].
    split.
    + intros i m Hi Hm. assert (m = 0) by lia. subst m. specialize (P1 i Hi). cbn beta in P1. change (Z.of_nat 0) with 0%Z. change (Z.of_nat 1) with 1%Z. rewrite !Z.add_0_r. rewrite P1. f_equal. f_equal.
      apply Csum_ext. intros j _. rewrite Z.add_0_r. reflexivity.
    + intros p Np. apply P2. intros i Hi E. apply Np. rewrite E. lia.
Qed.
Lemma prod_runs real outr M ov a ac V y : valid_matrix n n M -> rejected outr M ac = false -> exists y', prod T n shp real outr M ov a ac V y y'.
Proof.
  intros HV HR. unfold prod. destruct shp as [c|].
  - eexists. exists M. split; [apply kernel_self|]. split; [exact HR|reflexivity].
  - destruct (dot1_runs T M n n ov (cast real M a) 1 V 1 y HT HV) as [y' H]. exists y', M. split; [apply kernel_self|]. split; [exact HR|exact H].
Qed.
Lemma dyn_ok real outr t V ds : forall y y', (forall d, In d ds -> valid_matrix n n (mat d)) -> dyn_prods T n shp real outr ds t V y y' ->
  (forall i m, i < n -> m < k -> at2 k y' i m = (at2 k y i m + Csum ds (fun d => cast real (mat d) (coef d t) * Csum (seq 0 n) (fun j => entries (mat d) i j * at2 k V j m)))%C) /\
  (forall p, ~ inside p -> y' p = y p).
Proof.
  induction ds as [|d ds IH]; intros y y' HV H; cbn [dyn_prods] in H.
  - subst. split; [|reflexivity]. intros. rewrite Csum_nil. ring.
  - destruct H as (y1 & P & R). destruct (prod_ok _ _ _ _ _ _ _ _ _ (HV d (or_introl eq_refl)) P) as [P1 P2].
    destruct (IH y1 y' (fun e I => HV e (or_intror I)) R) as [Q1 Q2]. split.
    + intros i m Hi Hm. rewrite Q1, P1 by assumption. rewrite Csum_cons. ring.
    + intros p Np. rewrite Q2, P2 by assumption. reflexivity.
Qed.
Lemma dyn_runs real outr t V ds : forall y, (forall d, In d ds -> valid_matrix n n (mat d) /\ rejected outr (mat d) (is_complex d) = false) -> exists y', dyn_prods T n shp real outr ds t V y y'.
Proof.
  induction ds as [|d ds IH]; intros y H; [exists y; reflexivity|]. destruct (H d (or_introl eq_refl)) as [HV HR].
  destruct (prod_runs real outr (mat d) false (coef d t) (is_complex d) V y HV HR) as [y1 P]. destruct (IH y1 (fun e I => H e (or_intror I))) as [y' Q].
  exists y', y1. split; assumption.
Qed.
Lemma op_at_sum H t i (V : nat -> C) : Csum (seq 0 n) (fun j => op_at H t i j * V j)%C =
  (Csum (seq 0 n) (fun j => entries (static H) i j * V j) + Csum (dynamic H) (fun d => coef d t * Csum (seq 0 n) (fun j => entries (mat d) i j * V j)))%C.
Proof.
  unfold op_at. rewrite (Csum_ext (seq 0 n) _ (fun j => entries (static H) i j * V j + Csum (dynamic H) (fun d => coef d t * entries (mat d) i j * V j))%C).
  - rewrite Csum_add. f_equal. rewrite (Csum_swap (seq 0 n) (dynamic H)). apply Csum_ext. intros d _. rewrite <- Csum_mul_l. apply Csum_ext. intros j _. ring.
  - intros j _. rewrite Csum_mul_r. ring.
Qed.
Lemma scale_in c y i m : i < n -> m < k -> at2 k (scale n shp c y) i m = (c * at2 k y i m)%C.
Proof.
  intros Hi Hm. unfold at2, scale. assert (I := inside_addr i m Hi Hm). unfold inside in I.
  destruct ((0 <=? _) && _)%Z eqn:E; [reflexivity|]. apply andb_false_iff in E. destruct E as [E|E]; [apply Z.leb_gt in E|apply Z.ltb_ge in E]; lia.
Qed.
(* without the assumption on the drive *)
Definition cast_at (H : op) (t : R) (i j : nat) : C :=
  (entries (static H) i j + Csum (dynamic H) (fun d => cast (real_dtype H) (mat d) (coef d t) * entries (mat d) i j))%C.
Lemma cast_at_real H t i j : real_drive H t -> cast_at H t i j = op_at H t i j.
Proof. intros R. unfold cast_at, op_at. f_equal. apply Csum_ext. intros d I. rewrite cast_real; [reflexivity|]. intros E. apply R; assumption. Qed.
Lemma all_ok outr H t V out y0 y1 : valid_op n H ->
  prod T n shp (real_dtype H) outr (static H) true C1 false V out y0 -> dyn_prods T n shp (real_dtype H) outr (dynamic H) t V y0 y1 -> real_drive H t ->
  forall i m, i < n -> m < k -> at2 k y1 i m = Csum (seq 0 n) (fun j => op_at H t i j * at2 k V j m)%C.
Proof.
  intros [VS VD] P D R i m Hi Hm. destruct (prod_ok _ _ _ _ _ _ _ _ _ VS P) as [P1 _]. destruct (dyn_ok _ _ _ _ _ _ _ VD D) as [D1 _].
  rewrite D1, P1 by assumption. rewrite op_at_sum. rewrite cast_real by reflexivity. rewrite (Csum_ext (dynamic H) _ (fun d => coef d t * Csum (seq 0 n) (fun j => entries (mat d) i j * at2 k V j m))%C).
  - ring.
  - intros d I. rewrite cast_real; [reflexivity|]. intros E. apply R; assumption.
Qed.
Lemma all_runs outr H t V out : valid_op n H -> (outr = true -> forall d, In d (dynamic H) -> is_complex d = false) ->
  exists y0 y1, prod T n shp (real_dtype H) outr (static H) true C1 false V out y0 /\ dyn_prods T n shp (real_dtype H) outr (dynamic H) t V y0 y1.
Proof.
  intros [VS VD] HC. destruct (prod_runs (real_dtype H) outr (static H) true C1 false V out VS) as [y0 P]; [unfold rejected; destruct (static H); try reflexivity; apply andb_false_r|].
  destruct (dyn_runs (real_dtype H) outr t V (dynamic H) y0) as [y1 D].
  - intros d I. split; [apply VD, I|]. unfold rejected. destruct (mat d); try reflexivity. destruct outr; [rewrite (HC eq_refl d I); reflexivity|reflexivity].
  - exists y0, y1. split; assumption.
Qed.

(* windows *)
Lemma window_at r y i m : at2 k (window shp r y) i m = at2 k y (r + i) m.
Proof. unfold at2, window. f_equal. rewrite Nat2Z.inj_add. ring. Qed.
Definition inside_w (r : nat) (p : Z) : Prop := inside (p - Z.of_nat r * Z.of_nat k).
Lemma prod_w_ok real M rx ry ov a ac V y y' : valid_matrix n n M -> prod_w T n shp real M rx ry ov a ac V y y' ->
  (forall i m, i < n -> m < k -> at2 k y' (ry + i) m = ((if ov then C0 else at2 k y (ry + i) m) + cast real M a * Csum (seq 0 n) (fun j => entries M i j * at2 k V (rx + j) m))%C) /\
  (forall p, ~ inside_w ry p -> y' p = y p).
Proof.
  intros HV P. destruct (prod_ok _ _ _ _ _ _ _ _ _ HV P) as [P1 P2]. split.
  - intros i m Hi Hm. specialize (P1 i m Hi Hm). rewrite !window_at in P1. rewrite P1. f_equal. f_equal. apply Csum_ext. intros j _. rewrite window_at. reflexivity.
  - intros p Np. specialize (P2 _ Np). unfold window in P2. replace (p - Z.of_nat ry * Z.of_nat k + Z.of_nat ry * Z.of_nat k)%Z with p in P2 by lia. exact P2.
Qed.
Lemma outside_w r r' i m : i < n -> m < k -> (r' + n <= r \/ r + n <= r') -> ~ inside_w r (Z.of_nat (r' + i) * Z.of_nat k + Z.of_nat m)%Z.
Proof. unfold inside_w, inside. intros Hi Hm [L|L] [A B]; nia. Qed.
Lemma prod_w_frame real M rx ry ov a ac V y y' r' i m : valid_matrix n n M -> prod_w T n shp real M rx ry ov a ac V y y' -> i < n -> m < k -> (r' + n <= ry \/ ry + n <= r') -> at2 k y' (r' + i) m = at2 k y (r' + i) m.
Proof. intros HV P Hi Hm L. apply (proj2 (prod_w_ok _ _ _ _ _ _ _ _ _ _ HV P)). apply outside_w; assumption. Qed.
Lemma prod_w_runs real M rx ry ov a ac V y : valid_matrix n n M -> rejected true M ac = false -> exists y', prod_w T n shp real M rx ry ov a ac V y y'.
Proof.
  intros HV HR. destruct (prod_runs real true M ov a ac (window shp rx V) (window shp ry y) HV HR) as [y' P].
  exists (fun p => y' (p - Z.of_nat ry * Z.of_nat k)%Z). unfold prod_w.
  assert (E : window shp ry (fun p => y' (p - Z.of_nat ry * Z.of_nat k)%Z) = y') by (unfold window; extensionality p; f_equal; ring). rewrite E. exact P.
Qed.
Lemma dyn_real_ok real t V ds : forall y y', (forall d, In d ds -> valid_matrix n n (mat d)) -> dyn_prods_real T n shp real ds t V y y' ->
  forall i m, i < n -> m < k ->
  at2 k y' i m = (at2 k y i m + Csum ds (fun d => cast real (mat d) (coef d t) * Csum (seq 0 n) (fun j => entries (mat d) i j * at2 k V (n + j) m)))%C /\
  at2 k y' (n + i) m = (at2 k y (n + i) m - Csum ds (fun d => cast real (mat d) (coef d t) * Csum (seq 0 n) (fun j => entries (mat d) i j * at2 k V j m)))%C.
Proof.
  induction ds as [|d ds IH]; intros y y' HV H i m Hi Hm; cbn [dyn_prods_real] in H.
  - subst. rewrite !Csum_nil. split; ring.
  - destruct H as (y1 & y2 & P & Q & R). assert (Vd := HV d (or_introl eq_refl)). destruct (IH y2 y' (fun e I => HV e (or_intror I)) R i m Hi Hm) as [I1 I2]. rewrite I1, I2, !Csum_cons.
    assert (A1 := proj1 (prod_w_ok _ _ _ _ _ _ _ _ _ _ Vd P) i m Hi Hm). assert (B1 := proj1 (prod_w_ok _ _ _ _ _ _ _ _ _ _ Vd Q) i m Hi Hm).
    assert (A2 := prod_w_frame _ _ _ _ _ _ _ _ _ _ n i m Vd P Hi Hm (or_intror (le_n _))). assert (B2 := prod_w_frame _ _ _ _ _ _ _ _ _ _ 0 i m Vd Q Hi Hm (or_introl (le_n _))).
    cbn [Nat.add] in A1, B2. rewrite B2, A1, B1, A2, cast_opp. cbn [Nat.add]. split; ring.
Qed.
Lemma dyn_real_runs real t V ds : forall y, (forall d, In d ds -> valid_matrix n n (mat d) /\ is_complex d = false) -> exists y', dyn_prods_real T n shp real ds t V y y'.
Proof.
  induction ds as [|d ds IH]; intros y H; [exists y; reflexivity|]. destruct (H d (or_introl eq_refl)) as [HV HC].
  assert (HR : rejected true (mat d) (is_complex d) = false) by (rewrite HC; destruct (mat d); reflexivity).
  destruct (prod_w_runs real (mat d) n 0 false (coef d t) (is_complex d) V y HV HR) as [y1 P].
  destruct (prod_w_runs real (mat d) 0 n false (- coef d t)%C (is_complex d) V y1 HV HR) as [y2 Q].
  destruct (IH y2 (fun e I => H e (or_intror I))) as [y' R]. exists y', y1, y2. repeat split; assumption.
Qed.
End RHS.

(* the Liouville equation *)
Section LvN.
Variable n : nat.
(* the matrix that multiplies rho from the right *)
Definition right_factor (M : matrix) (j m : nat) : C := match M with Csr _ _ _ | Csc _ _ _ => entries M m j | _ => entries M j m end.
Lemma dia_T_entry nd L off d i j : L <= n -> i < n -> j < n -> entries (transposed n (Dia nd L off d)) i j = entries (Dia nd L off d) j i.
Proof.
  intros HL Hi Hj. cbn [transposed entries]. unfold dia_entry. apply Csum_ext. intros q _.
  destruct (Z.eqb_spec (Z.of_nat i - Z.of_nat j) (off q)) as [E|E].
  - replace (Z.of_nat j - Z.of_nat i =? - off q)%Z with true by (symmetry; apply Z.eqb_eq; lia).
    replace (j <? n) with true by (symmetry; apply Nat.ltb_lt; assumption). cbn [andb]. unfold dia_T_data.
    replace ((Z.of_nat q * Z.of_nat n + Z.of_nat j) / Z.of_nat n)%Z with (Z.of_nat q) by (symmetry; rewrite Z.add_comm, Z.div_add, Z.div_small by lia; lia).
    replace ((Z.of_nat q * Z.of_nat n + Z.of_nat j) mod Z.of_nat n)%Z with (Z.of_nat j) by (symmetry; rewrite Z.add_comm, Z.mod_add, Z.mod_small by lia; lia).
    rewrite Nat2Z.id, <- E.
    assert (ES : (let e := (Z.of_nat j - (- (Z.of_nat i - Z.of_nat j)) mod Z.of_nat n)%Z in if (e <? 0)%Z then (e + Z.max (Z.of_nat n) (Z.of_nat L))%Z else e) = Z.of_nat i).
    { cbn zeta. destruct (le_lt_dec i j) as [A|A].
      - rewrite Z.mod_small by lia. destruct (Z.ltb_spec (Z.of_nat j - - (Z.of_nat i - Z.of_nat j)) 0); lia.
      - assert (EM : ((- (Z.of_nat i - Z.of_nat j)) mod Z.of_nat n = Z.of_nat j - Z.of_nat i + Z.of_nat n)%Z).
        { symmetry. apply (Z.mod_unique _ _ (-1)); lia. }
        rewrite EM. destruct (Z.ltb_spec (Z.of_nat j - (Z.of_nat j - Z.of_nat i + Z.of_nat n)) 0); lia. }
    cbn zeta in ES. rewrite ES. destruct (Nat.ltb_spec i L) as [A|A]; [replace (Z.of_nat i <? Z.of_nat L)%Z with true by (symmetry; apply Z.ltb_lt; lia); reflexivity|
      replace (Z.of_nat i <? Z.of_nat L)%Z with false by (symmetry; apply Z.ltb_ge; lia); reflexivity].
  - replace (Z.of_nat j - Z.of_nat i =? - off q)%Z with false by (symmetry; apply Z.eqb_neq; lia). reflexivity.
Qed.
Lemma prod_T_row real M ov a rho y : valid_matrix n n M -> exists y', prod_T n real M M ov a (Z.of_nat n) 1 rho y = Some y' /\
  forall i m, i < n -> m < n -> at2 n y' i m = ((if ov then C0 else at2 n y i m) + cast real M a * Csum (seq 0 n) (fun j => entries M i j * at2 n rho j m))%C.
Proof.
  intros HV. unfold prod_T. rewrite kernel_self. eexists. split; [reflexivity|].
  destruct (dotn_ok M n n n ov (cast real M a) (Z.of_nat n) 1 rho (Z.of_nat n) 1 y HV (c_order n n)) as [P1 _].
  { destruct M; try exact I. destruct (le_lt_dec n 1) as [L|L]; [right; right; exact L|left; lia]. }
  intros i m Hi Hm. specialize (P1 i m Hi Hm). cbn beta in P1. rewrite Z.mul_1_r in P1. exact P1.
Qed.
Lemma prod_T_col real M a rho y : valid_matrix n n M -> dia_fits n M -> exists y', prod_T n real M (transposed n M) false a 1 (Z.of_nat n) rho y = Some y' /\
  forall i m, i < n -> m < n -> at2 n y' i m = (at2 n y i m + cast real M a * Csum (seq 0 n) (fun j => at2 n rho i j * right_factor M j m))%C.
Proof.
  intros HV HD. unfold prod_T.
  assert (EK : exists K, kernel_for M (transposed n M) = Some K /\ valid_matrix n n K /\ cast real K a = cast real M a /\ (forall j m, j < n -> m < n -> entries K m j = right_factor M j m) /\
    match K with Csr _ _ _ => True | _ => True end).
  { destruct M as [Ap Aj Ax|Ap Ai Ax|nd L off d|A]; eexists; (split; [reflexivity|]); (split; [exact HV|]); (split; [reflexivity|]); (split; [|exact I]); intros j m Hj Hm; try reflexivity.
    apply (dia_T_entry nd L off d m j); assumption. }
  destruct EK as (K & -> & HVK & EC & EE & _). eexists. split; [reflexivity|].
  assert (DA : distinct_addresses n n (fun i m => Z.of_nat i * 1 + Z.of_nat m * Z.of_nat n)%Z) by (intros i m i' m' H1 H2 H3 H4 E; destruct (c_order n n m i m' i' H2 H1 H4 H3) as [-> ->]; [lia|split; reflexivity]).
  destruct (dotn_ok K n n n false (cast real K a) 1 (Z.of_nat n) rho 1 (Z.of_nat n) y HVK DA) as [P1 _].
  { destruct K; try exact I. right; left. lia. }
  intros i m Hi Hm. specialize (P1 m i Hm Hi). cbn beta in P1. unfold at2. replace (Z.of_nat i * Z.of_nat n + Z.of_nat m)%Z with (Z.of_nat m * 1 + Z.of_nat i * Z.of_nat n)%Z by ring.
  rewrite P1, EC. f_equal. f_equal. apply Csum_ext. intros j Hj. apply in_seq in Hj. rewrite EE by lia. replace (Z.of_nat j * 1 + Z.of_nat i * Z.of_nat n)%Z with (Z.of_nat i * Z.of_nat n + Z.of_nat j)%Z by ring. ring.
Qed.
Definition one_term (M : matrix) (rho : Z -> C) (i m : nat) : C :=
  (Csum (seq 0 n) (fun j => entries M i j * at2 n rho j m) - Csum (seq 0 n) (fun j => at2 n rho i j * right_factor M j m))%C.
Lemma both_ok real M ov a rho y : valid_matrix n n M -> dia_fits n M -> exists y', both n real M ov a rho y = Some y' /\
  forall i m, i < n -> m < n -> at2 n y' i m = ((if ov then C0 else at2 n y i m) + cast real M a * one_term M rho i m)%C.
Proof.
  intros HV HD. unfold both. destruct (prod_T_row real M ov a rho y HV) as (y1 & -> & P). destruct (prod_T_col real M (- a)%C rho y1 HV HD) as (y2 & -> & Q).
  exists y2. split; [reflexivity|]. intros i m Hi Hm. rewrite Q, P by assumption. rewrite cast_opp. unfold one_term. ring.
Qed.
Lemma dyn_both_ok real t rho ds : forall y, (forall d, In d ds -> valid_matrix n n (mat d) /\ dia_fits n (mat d)) -> exists y', dyn_both n real ds t rho y = Some y' /\
  forall i m, i < n -> m < n -> at2 n y' i m = (at2 n y i m + Csum ds (fun d => cast real (mat d) (coef d t) * one_term (mat d) rho i m))%C.
Proof.
  induction ds as [|d ds IH]; intros y H; cbn [dyn_both].
  - exists y. split; [reflexivity|]. intros. rewrite Csum_nil. ring.
  - destruct (H d (or_introl eq_refl)) as [HV HD]. destruct (both_ok real (mat d) false (coef d t) rho y HV HD) as (y1 & -> & P).
    destruct (IH y1 (fun e I => H e (or_intror I))) as (y2 & -> & Q). exists y2. split; [reflexivity|]. intros i m Hi Hm. rewrite Q, P by assumption. rewrite Csum_cons. ring.
Qed.
Lemma LO_ok H t rho out : valid_op n H -> dia_fits n (static H) -> (forall d, In d (dynamic H) -> dia_fits n (mat d)) -> real_drive H t ->
  exists res, LO n H t rho out = Some res /\ forall i m, i < n -> m < n ->
    at2 n res i m = (- Ci * (one_term (static H) rho i m + Csum (dynamic H) (fun d => coef d t * one_term (mat d) rho i m)))%C.
Proof.
  intros [VS VD] DS DD R. unfold LO. destruct (both_ok (real_dtype H) (static H) true C1 rho out VS DS) as (y0 & -> & P).
  destruct (dyn_both_ok (real_dtype H) t rho (dynamic H) y0) as (y1 & -> & Q); [intros d I; split; auto|].
  eexists. split; [reflexivity|]. intros i m Hi Hm. assert (SC := scale_in 1 n (Some n) ltac:(lia) (- Ci)%C y1 i m Hi Hm). cbn [columns] in SC. rewrite SC, Q, P by assumption. rewrite cast_real by reflexivity.
  rewrite (Csum_ext (dynamic H) _ (fun d => coef d t * one_term (mat d) rho i m)%C); [ring|]. intros d I. rewrite cast_real; [reflexivity|]. intros E. apply R; assumption.
Qed.
End LvN.
