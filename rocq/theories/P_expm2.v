(* The loop over the terms, the outer loop, and determinism of the result. *)
From Coq Require Import FunctionalExtensionality.
From Verif Require Import AuxN SpecC SpecSparse SpecExpm M_sparse M_expm P_sparse P_sparse3 P_sparse4 P_expm.
Local Open Scope nat_scope.

(* ---- the bodies ---- *)
Ltac body_mem := intros; cbn [seqrun exec fst snd r2 r1 rf rb rc rd]; unfold aupd;
  match goal with |- context [(?p =? Zn ?k)%Z] => destruct (Z.eqb_spec p (Zn k)) as [-> |?] end;
  try match goal with x : arr |- _ => destruct x end; cbn; rewrite ?Z.eqb_refl; try reflexivity.
Definition G_init (x : arr) (f b1 b2 : C) : C := match x with AF => f | AB1 => f | AB2 => b2 end.
Lemma init_mem k m r x p : fst (seqrun (init_body k) m r) x p = if (p =? Zn k)%Z then G_init x (m AF p) (m AB1 p) (m AB2 p) else m x p.
Proof. unfold init_body. body_mem. Qed.
Lemma init_addr k i : In i (init_body k) -> snd (addr i) = Zn k.
Proof. cbn. intros [<- |[<- |[]]]; reflexivity. Qed.
Definition G_term (b : C) (x : arr) (f b1 b2 : C) : C := match x with AF => (f + (b2 - b * b1))%C | AB1 => (b2 - b * b1)%C | AB2 => b2 end.
Lemma term_mem b k m r x p : fst (seqrun (term_body b k) m r) x p = if (p =? Zn k)%Z then G_term b x (m AF p) (m AB1 p) (m AB2 p) else m x p.
Proof. unfold term_body. body_mem. Qed.
Lemma term_rc b k m r : rc (snd (seqrun (term_body b k) m r)) = compare_abs (rc r) (m AB2 (Zn k) - b * m AB1 (Zn k))%C.
Proof. reflexivity. Qed.
Lemma term_rd b k m r : rd (snd (seqrun (term_body b k) m r)) = compare_abs (rd r) (m AF (Zn k) + (m AB2 (Zn k) - b * m AB1 (Zn k)))%C.
Proof. reflexivity. Qed.
Lemma term_addr b k i : In i (term_body b k) -> snd (addr i) = Zn k.
Proof. cbn. intros [<- |[<- |[<- |[<- |[<- |[]]]]]]; reflexivity. Qed.
Definition G_end (eta : C) (x : arr) (f b1 b2 : C) : C := match x with AF => (f * eta)%C | AB1 => (f * eta)%C | AB2 => b2 end.
Lemma end_mem eta k m r x p : fst (seqrun (end_body eta k) m r) x p = if (p =? Zn k)%Z then G_end eta x (m AF p) (m AB1 p) (m AB2 p) else m x p.
Proof. unfold end_body. body_mem. Qed.
Lemma end_addr eta k i : In i (end_body eta k) -> snd (addr i) = Zn k.
Proof. cbn. intros [<- |[<- |[<- |[]]]]; reflexivity. Qed.

Lemma init_phase T n m r' m' : 0 < T -> phase T T n init_body m r' m' -> forall k, k < n -> m' AF (Zn k) = m AF (Zn k) /\ m' AB1 (Zn k) = m AF (Zn k).
Proof.
  intros HT R. destruct (phase_ok T n init_body G_init (fun c f _ _ => compare_abs c f) (fun c _ _ _ => c) HT init_mem (fun _ _ _ => eq_refl) (fun _ _ _ => eq_refl) init_addr m r' m' R) as [X _].
  intros k Hk. rewrite !X by assumption. split; reflexivity.
Qed.
Lemma max_stored T r f old v n : 0 < T -> (forall t, t < T -> r t = fold_left (fun c k => compare_abs c (v k)) (chunk n T t) 0%R) ->
  f = stored T r old -> max_element T f = inf_norm n v.
Proof.
  intros HT H ->. rewrite <- (max_chunks n T v HT).
  assert (X : forall N (g h : nat -> R), (forall t, t < N -> g t = h t) -> max_element N g = max_element N h).
  { induction N as [|N IH]; intros g h E; [reflexivity|]. destruct N as [|N]; [apply E; lia|].
    change (Rmax (max_element (S N) g) (g (S N)) = Rmax (max_element (S N) h) (h (S N))). rewrite (IH g h) by (intros; apply E; lia). rewrite E by lia. reflexivity. }
  apply X. intros t Ht. unfold stored. rewrite (proj2 (Nat.ltb_lt t T) Ht). apply H. assumption.
Qed.
Lemma end_phase T n eta m r' m' old : 0 < T -> phase T T n (end_body eta) m r' m' ->
  (forall k, k < n -> m' AF (Zn k) = (m AF (Zn k) * eta)%C /\ m' AB1 (Zn k) = (m AF (Zn k) * eta)%C) /\
  max_element T (stored T (fun t => rc (r' t)) old) = inf_norm n (fun k => m AF (Zn k) * eta)%C.
Proof.
  intros HT R. destruct (phase_ok T n (end_body eta) (G_end eta) (fun c f _ _ => compare_abs c (f * eta)%C) (fun c _ _ _ => c) HT (end_mem eta) (fun _ _ _ => eq_refl) (fun _ _ _ => eq_refl) (end_addr eta) m r' m' R) as [X Y].
  split; [intros k Hk; rewrite !X by assumption; split; reflexivity|].
  apply (max_stored T (fun t => rc (r' t)) _ old _ n HT); [|reflexivity]. intros t Ht. apply (Y t Ht).
Qed.

(* ---- the terms ---- *)
Lemma shifted_ext n A mu v w : (forall k, k < n -> v k = w k) -> forall k, k < n -> shifted n A mu v k = shifted n A mu w k.
Proof. intros H k Hk. unfold shifted. rewrite (H k Hk). f_equal. apply Csum_ext. intros j Hj. apply in_seq in Hj. rewrite H by lia. reflexivity. Qed.
Lemma shifted_scale n A mu c v k : shifted n A mu (fun i => c * v i)%C k = (c * shifted n A mu v k)%C.
Proof.
  unfold shifted. rewrite (Csum_ext _ _ (fun j => c * (A k j * v j))%C) by (intros; ring). rewrite Csum_mul_l. ring.
Qed.
Lemma shifted_pow_ext n A mu v w j : (forall k, k < n -> v k = w k) -> forall k, k < n -> shifted_pow n A mu j v k = shifted_pow n A mu j w k.
Proof. intros H. induction j as [|j IH]; [exact H|]. cbn [shifted_pow]. apply shifted_ext. exact IH. Qed.
Lemma taylor_term_ext n A mu z v w j : (forall k, k < n -> v k = w k) -> forall k, k < n -> taylor_term n A mu z j v k = taylor_term n A mu z j w k.
Proof. intros H k Hk. unfold taylor_term. rewrite (shifted_pow_ext n A mu v w j H k Hk). reflexivity. Qed.
Lemma taylor_sum_ext n A mu z v w J : (forall k, k < n -> v k = w k) -> forall k, k < n -> taylor_sum n A mu z J v k = taylor_sum n A mu z J w k.
Proof. intros H k Hk. unfold taylor_sum. apply Csum_ext. intros j _. apply taylor_term_ext; assumption. Qed.
Lemma taylor_0 n A mu z v k : taylor_term n A mu z 0 v k = v k.
Proof. unfold taylor_term. cbn. rewrite Rinv_1. change (RtoC 1) with C1. ring. Qed.
Lemma over_mul z i j : over z (i * j) = over (over z j) i.
Proof. unfold over. rewrite mult_INR, Rinv_mult, RtoC_mul. ring. Qed.
Lemma taylor_S n A mu z j v k :
  taylor_term n A mu z (S j) v k = (over z (S j) * shifted n A mu (taylor_term n A mu z j v) k)%C.
Proof.
  unfold taylor_term at 2. rewrite shifted_scale. unfold taylor_term, over. cbn [Cpow shifted_pow].
  rewrite fact_simpl, mult_INR, Rinv_mult, RtoC_mul. ring.
Qed.
Lemma taylor_sum_S n A mu z J v k : taylor_sum n A mu z (S J) v k = (taylor_sum n A mu z J v k + taylor_term n A mu z (S J) v k)%C.
Proof. unfold taylor_sum. rewrite (seq_S (S J)), Csum_app, Csum_cons, Csum_nil. cbn [Nat.add]. ring. Qed.

Lemma stop_order_ext m p q J : (forall j, 1 <= j -> p j <-> q j) -> stop_order m p J -> stop_order m q J.
Proof.
  intros E [H1 [H2 H3]]. split; [assumption|]. split; [intros j Hj Q; apply (H2 j Hj), E; [lia|assumption]|].
  intros H. destruct (H3 H) as [Hj P]. split; [assumption|]. apply E; assumption.
Qed.

Section Runs.
Variables (T n : nat) (Ap Aj : nat -> nat) (Ax : nat -> C) (s m_star : nat) (tol : R) (mu a : C).
Hypothesis V : valid_ptr n n Ap Aj.
Hypothesis HT : 0 < T.
Notation A := (csr_entry Ap Aj Ax).
Notation z := (over a s).
Definition Inv (v : vec) (j : nat) (m : amem) : Prop :=
  forall k, k < n -> m AB1 (Zn k) = taylor_term n A mu z j v k /\ m AF (Zn k) = taylor_sum n A mu z j v k.

Lemma term_step v j m c1 m' c1' ex : Inv v j m -> exp_term T T n Ap Aj Ax s tol mu a (S j) m c1 m' c1' ex ->
  Inv v (S j) m' /\ c1' = inf_norm n (taylor_term n A mu z (S j) v) /\
  (ex = true <-> (c1 + c1' <= tol * inf_norm n (taylor_sum n A mu z (S j) v))%R).
Proof.
  intros I (y & r' & old2 & old3 & HM & HP & _ & Hex & ->).
  pose proof (csrmv_merge_ok n n Ap Aj Ax T V HT true (over a (S j * s)) 1 (m AB1) 1 (m AB2) y ltac:(lia) HM) as [HY _].
  set (b := over (a * mu)%C (S j * s)) in *. set (m0 := fun x => match x with AB2 => y | _ => m x end) in *.
  assert (Eb : forall k, k < n -> (m0 AB2 (Zn k) - b * m0 AB1 (Zn k))%C = taylor_term n A mu z (S j) v k).
  { intros k Hk. unfold m0. specialize (HY k Hk). rewrite Z.mul_1_r in HY. rewrite HY, taylor_S. unfold b. rewrite !over_mul.
    unfold shifted. rewrite (Csum_ext _ _ (fun i => A k i * taylor_term n A mu z j v i)%C).
    - destruct (I k Hk) as [-> _]. unfold over. ring.
    - intros i Hi. apply in_seq in Hi. rewrite Z.mul_1_r. destruct (I i ltac:(lia)) as [-> _]. reflexivity. }
  assert (Ef : forall k, k < n -> (m0 AF (Zn k) + (m0 AB2 (Zn k) - b * m0 AB1 (Zn k)))%C = taylor_sum n A mu z (S j) v k).
  { intros k Hk. rewrite (Eb k Hk), taylor_sum_S. f_equal. apply (I k Hk). }
  destruct (phase_ok T n (term_body b) (G_term b) (fun c f b1 b2 => compare_abs c (b2 - b * b1)%C) (fun c f b1 b2 => compare_abs c (f + (b2 - b * b1))%C) HT
    (term_mem b) (term_rc b) (term_rd b) (term_addr b) m0 r' m' HP) as [X Y].
  assert (E2 : max_element T (stored T (fun t => rc (r' t)) old2) = inf_norm n (taylor_term n A mu z (S j) v)).
  { rewrite <- (inf_norm_ext n _ _ Eb). apply (max_stored T (fun t => rc (r' t)) _ old2 _ n HT); [|reflexivity]. intros t Ht. apply (Y t Ht). }
  assert (E3 : max_element T (stored T (fun t => rd (r' t)) old3) = inf_norm n (taylor_sum n A mu z (S j) v)).
  { rewrite <- (inf_norm_ext n _ _ Ef). apply (max_stored T (fun t => rd (r' t)) _ old3 _ n HT); [|reflexivity]. intros t Ht. apply (Y t Ht). }
  split; [|split].
  - intros k Hk. rewrite !X by assumption. unfold G_term. rewrite Ef, Eb by assumption. split; reflexivity.
  - exact E2.
  - rewrite Hex, E2, E3. match goal with |- context [Rle_dec ?u ?w] => destruct (Rle_dec u w) end; split; intros; first [assumption | reflexivity | contradiction | discriminate].
Qed.

(* condition at which the loop is left, when it is entered with c1 = c0 *)
Definition stop_c (c0 : R) (v : vec) (J : nat) : Prop :=
  ((if J =? 1 then c0 else inf_norm n (taylor_term n A mu z (J - 1) v)) + inf_norm n (taylor_term n A mu z J v) <= tol * inf_norm n (taylor_sum n A mu z J v))%R.
Lemma terms_ok v c0 cnt : forall j m c1 m' c1', Inv v j m -> c1 = (if j =? 0 then c0 else inf_norm n (taylor_term n A mu z j v)) ->
  (forall i, 1 <= i <= j -> ~ stop_c c0 v i) -> exp_terms T T n Ap Aj Ax s tol mu a cnt (S j) m c1 m' c1' ->
  exists J, stop_order (j + cnt) (stop_c c0 v) J /\ Inv v J m'.
Proof.
  induction cnt as [|cnt IH]; intros j m c1 m' c1' I E N R; inversion R; subst.
  - exists j. split; [|assumption]. split; [lia|]. split; [intros i Hi; apply N; lia|lia].
  - match goal with H : exp_term _ _ _ _ _ _ _ _ _ _ _ _ _ _ _ _ |- _ => destruct (term_step v j m _ m' c1' true I H) as [I' [E' X]] end.
    exists (S j). split; [|assumption]. split; [lia|]. split; [intros i Hi; apply N; lia|]. intros _. split; [lia|].
    unfold stop_c. cbn [Nat.eqb]. replace (S j - 1) with j by lia. rewrite E' in X. apply X. reflexivity.
  - match goal with H : exp_term _ _ _ _ _ _ _ _ _ _ _ _ _ _ _ _ |- _ => destruct (term_step v j m _ _ _ false I H) as [I' [E' X]] end.
    replace (j + S cnt) with (S j + cnt) by lia. eapply IH; [exact I'|exact E'| |eassumption].
    intros i Hi. destruct (Nat.eq_dec i (S j)) as [-> |Ni]; [|apply N; lia]. unfold stop_c. cbn [Nat.eqb]. intros Hs. rewrite E' in X.
    replace (S j - 1) with j in Hs by lia. destruct X as [_ X]. discriminate (X Hs).
Qed.
Lemma outer_ok v c1 m m' c1' : (forall k, k < n -> m AF (Zn k) = v k /\ m AB1 (Zn k) = v k) -> outer T T n Ap Aj Ax s m_star tol mu a m c1 m' c1' ->
  exists J, stop_order m_star (stop_c c1 v) J /\
    let w := fun k => (Cexp (a * over mu s) * taylor_sum n A mu z J v k)%C in
    (forall k, k < n -> m' AF (Zn k) = w k /\ m' AB1 (Zn k) = w k) /\ c1' = inf_norm n w.
Proof.
  intros H (m1 & c & r' & old1 & R & HP & _ & ->).
  assert (I0 : Inv v 0 m).
  { intros k Hk. destruct (H k Hk) as [Hf Hb]. unfold taylor_sum. cbn [seq]. rewrite Csum_cons, Csum_nil, taylor_0, Hf, Hb. split; [reflexivity|ring]. }
  destruct (terms_ok v c1 m_star 0 m c1 m1 c I0 eq_refl ltac:(lia) R) as [J [HJ I]].
  exists J. split; [exact HJ|]. destruct (end_phase T n _ m1 r' m' old1 HT HP) as [X Y]. cbv zeta. split.
  - intros k Hk. destruct (X k Hk) as [-> ->]. destruct (I k Hk) as [_ ->]. split; ring.
  - rewrite Y. apply inf_norm_ext. intros k Hk. destruct (I k Hk) as [_ ->]. ring.
Qed.

Definition stop_in (i : nat) : vec -> nat -> Prop := if i =? 0 then small_terms_first n A mu z tol else small_terms n A mu z tol.
Lemma stop_c_norm v j : 1 <= j -> stop_c (inf_norm n v) v j <-> small_terms n A mu z tol v j.
Proof.
  intros Hj. unfold stop_c, small_terms. destruct (Nat.eqb_spec j 1) as [-> |N]; [|reflexivity].
  cbn [Nat.sub]. rewrite (inf_norm_ext n v (taylor_term n A mu z 0 v)) by (intros; symmetry; apply taylor_0). reflexivity.
Qed.
Lemma outers_ok i0 : forall v m m' c1 c1', 0 < i0 -> (forall k, k < n -> m AF (Zn k) = v k /\ m AB1 (Zn k) = v k) ->
  outers T T n Ap Aj Ax s m_star tol mu a i0 m c1 m' c1' ->
  truncated_exp n A mu z (Cexp (a * over mu s)) i0 m_star (fun i v => if i =? 0 then stop_c c1 v else small_terms n A mu z tol v) v (fun k => m' AF (Zn k)).
Proof.
  induction i0 as [|i0 IH]; intros v m m' c1 c1' Hi H R; [lia|].
  inversion R as [|? ? ? m1 c ? ? HO HR]; subst. destruct (outer_ok v c1 m m1 c H HO) as [J [HJ [Hw Ec]]]. cbv zeta in Hw, Ec.
  set (w := fun k => (Cexp (a * over mu s) * taylor_sum n A mu z J v k)%C) in *.
  destruct i0 as [|i0].
  - inversion HR; subst. exists (fun i => match i with 0 => v | _ => w end), (fun _ => J). split; [reflexivity|]. split; [intros k Hk; apply (Hw k Hk)|].
    intros i Hi'. replace i with 0 by lia. split; [exact HJ|reflexivity].
  - destruct (IH w m1 m' c c1' ltac:(lia) Hw HR) as [vs [Js [E0 [Ew Es]]]].
    exists (fun i => match i with 0 => v | S i' => vs i' end), (fun i => match i with 0 => J | S i' => Js i' end).
    split; [reflexivity|]. split; [exact Ew|]. intros i Hi'. destruct i as [|i].
    + split; [exact HJ|]. intros k Hk. apply E0. assumption.
    + destruct (Es i ltac:(lia)) as [Es1 Es2]. split; [|exact Es2]. cbn [Nat.eqb]. destruct i as [|i]; [|exact Es1]. cbn [Nat.eqb] in Es1.
      eapply stop_order_ext; [|exact Es1]. intros j Hj. rewrite Ec, (inf_norm_ext n w (vs 0)) by (intros; symmetry; apply E0; assumption). apply stop_c_norm. assumption.
Qed.
Lemma max_zero N : max_element N (fun _ => 0%R) = 0%R.
Proof.
  induction N as [|N IH]; [reflexivity|]. destruct N as [|N]; [reflexivity|].
  change (Rmax (max_element (S N) (fun _ => 0%R)) 0 = 0%R). rewrite IH. apply Rmax_left, Rle_refl.
Qed.
Lemma expm_ok m m' : 0 < s -> expm_multiply T T n Ap Aj Ax s m_star tol mu a m m' ->
  truncated_exp n A mu z (Cexp (a * over mu s)) s m_star stop_in (fun k => m AF (Zn k)) (fun k => m' AF (Zn k)).
Proof.
  intros Hs (m1 & r' & c1' & HP & HR). rewrite max_zero in HR. pose proof (init_phase T n m r' m1 HT HP) as X.
  destruct (outers_ok s (fun k => m AF (Zn k)) m1 m' 0%R c1' Hs X HR) as [vs [J [E0 [Ew Es]]]]. exists vs, J. split; [exact E0|]. split; [exact Ew|].
  intros i Hi. destruct (Es i Hi) as [Es1 Es2]. split; [|exact Es2]. unfold stop_in. destruct (i =? 0); exact Es1.
Qed.

(* runs exist *)
Lemma term_runs j m c1 : exists m' c1' ex, exp_term T T n Ap Aj Ax s tol mu a j m c1 m' c1' ex.
Proof.
  destruct (csrmv_merge_runs n n Ap Aj Ax T V HT true (over a (j * s)) 1 (m AB1) 1 (m AB2)) as [y HY].
  destruct (run_exists T (fun t => (flat_map (term_body (over (a * mu)%C (j * s))) (chunk n T t), r_init)) (fun x => match x with AB2 => y | _ => m x end)) as [r' [m' HR]].
  eexists m', _, _. exists y, r', (fun _ => 0%R), (fun _ => 0%R). split; [exact HY|]. split; [exact HR|]. split; [intros; split; reflexivity|]. split; reflexivity.
Qed.
Lemma terms_runs cnt : forall j m c1, exists m' c1', exp_terms T T n Ap Aj Ax s tol mu a cnt j m c1 m' c1'.
Proof.
  induction cnt as [|cnt IH]; intros j m c1; [eexists _, _; apply terms_end|].
  destruct (term_runs j m c1) as [m1 [c2 [[|] H]]]; [eexists _, _; eapply terms_exit; exact H|].
  destruct (IH (S j) m1 c2) as [m' [c1' H2]]. eexists _, _. eapply terms_go; eassumption.
Qed.
Lemma outers_runs i : forall m c1, exists m' c1', outers T T n Ap Aj Ax s m_star tol mu a i m c1 m' c1'.
Proof.
  induction i as [|i IH]; intros m c1; [eexists _, _; apply outers_end|].
  destruct (terms_runs m_star 1 m c1) as [m1 [c H]].
  destruct (run_exists T (fun t => (flat_map (end_body (Cexp (a * over mu s))) (chunk n T t), r_init)) m1) as [r' [m2 HR]].
  destruct (IH m2 (max_element T (stored T (fun t => rc (r' t)) (fun _ => 0%R)))) as [m' [c1' H2]].
  eexists _, _. eapply outers_step; [|exact H2]. exists m1, c, r', (fun _ => 0%R). repeat (split; [eassumption || reflexivity|]). reflexivity.
Qed.
Lemma expm_runs m : exists m', expm_multiply T T n Ap Aj Ax s m_star tol mu a m m'.
Proof.
  destruct (run_exists T (fun t => (flat_map init_body (chunk n T t), r_init)) m) as [r' [m1 HR]].
  destruct (outers_runs s m1 (max_element T (fun _ => 0%R))) as [m' [c1' H]]. exists m', m1, r', c1'. split; assumption.
Qed.
End Runs.

(* ---- determinism ---- *)
Lemma stop_order_unique m p J J' : stop_order m p J -> stop_order m p J' -> J = J'.
Proof.
  intros [A1 [A2 A3]] [B1 [B2 B3]]. destruct (lt_eq_lt_dec J J') as [[L| ->]|L]; [|reflexivity|]; exfalso.
  - destruct (A3 ltac:(lia)) as [H1 H2]. apply (B2 J); [lia|assumption].
  - destruct (B3 ltac:(lia)) as [H1 H2]. apply (A2 J'); [lia|assumption].
Qed.
Lemma truncated_unique n A mu z eta s m stop v v' w w' :
  (forall i x y j, (forall k, k < n -> x k = y k) -> stop i x j <-> stop i y j) ->
  (forall k, k < n -> v k = v' k) -> truncated_exp n A mu z eta s m stop v w -> truncated_exp n A mu z eta s m stop v' w' -> forall k, k < n -> w k = w' k.
Proof.
  intros St Ev (vs & J & E0 & Ew & Es) (vs' & J' & E0' & Ew' & Es') k Hk. rewrite Ew, Ew' by assumption.
  assert (X : forall i, i <= s -> forall k, k < n -> vs i k = vs' i k).
  { induction i as [|i IH]; intros Hi k0 Hk0; [rewrite E0, E0' by assumption; apply Ev; assumption|].
    destruct (Es i ltac:(lia)) as [SJ X1]. destruct (Es' i ltac:(lia)) as [SJ' X2]. rewrite X1, X2 by assumption.
    assert (EJ : J i = J' i). { eapply stop_order_unique; [|exact SJ']. eapply stop_order_ext; [|exact SJ]. intros j _. apply St. apply IH. lia. }
    rewrite EJ. f_equal. apply taylor_sum_ext; [apply IH; lia|assumption]. }
  apply X; [lia|assumption].
Qed.
Lemma stop_in_ext n Ap Aj Ax s tol mu a i x y j : (forall k, k < n -> x k = y k) -> stop_in n Ap Aj Ax s tol mu a i x j <-> stop_in n Ap Aj Ax s tol mu a i y j.
Proof.
  intros H. set (A := csr_entry Ap Aj Ax). set (z := over a s).
  assert (N : forall J, inf_norm n (taylor_term n A mu z J x) = inf_norm n (taylor_term n A mu z J y)) by (intros J; apply inf_norm_ext, taylor_term_ext, H).
  assert (M : forall J, inf_norm n (taylor_sum n A mu z J x) = inf_norm n (taylor_sum n A mu z J y)) by (intros J; apply inf_norm_ext, taylor_sum_ext, H).
  unfold stop_in. destruct (i =? 0); [unfold small_terms_first|unfold small_terms]; fold A z; rewrite !N, !M; reflexivity.
Qed.
