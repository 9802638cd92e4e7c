(* Proofs about tensor bases. *)
From Coq Require Import Ascii.
From Verif Require Import AuxN SpecC SpecTensor M_opstr M_tensor.
Local Open Scope nat_scope.

(* ---- positions ---- *)
Lemma position_cons d ds i is : position (d :: ds) (i :: is) = i * size ds + position ds is. Proof. reflexivity. Qed.
Lemma position_lt dims : forall idx, multi dims idx -> position dims idx < size dims.
Proof.
  induction dims as [|d ds IH]; intros idx H; inversion H; subst; cbn [position size fold_right]; [lia|].
  match goal with H : Forall2 _ ds _ |- _ => specialize (IH _ H) end. unfold size in *. nia.
Qed.
Lemma position_inj dims : forall idx idx', multi dims idx -> multi dims idx' -> position dims idx = position dims idx' -> idx = idx'.
Proof.
  induction dims as [|d ds IH]; intros idx idx' H H' E; inversion H; inversion H'; subst; [reflexivity|]. cbn [position] in E.
  match goal with H1 : Forall2 _ ds ?l, H2 : Forall2 _ ds ?l' |- ?y :: _ = ?y0 :: _ =>
    pose proof (position_lt _ _ H1) as B1; pose proof (position_lt _ _ H2) as B2; assert (y = y0) by nia; subst; f_equal; apply IH; try assumption; lia end.
Qed.
Lemma position_surj dims : forall p, p < size dims -> exists idx, multi dims idx /\ position dims idx = p.
Proof.
  induction dims as [|d ds IH]; intros p Hp; cbn [size fold_right] in Hp; [exists []; split; [constructor|cbn; lia]|].
  change (fold_right Nat.mul 1 ds) with (size ds) in Hp. assert (0 < size ds) by nia.
  destruct (IH (p mod size ds)) as (idx & Hm & E); [apply Nat.mod_upper_bound; lia|].
  exists (p / size ds :: idx). split.
  - constructor; [apply Nat.div_lt_upper_bound; nia|exact Hm].
  - cbn [position]. rewrite E. pose proof (Nat.div_mod p (size ds)). lia.
Qed.
Lemma div_pos n i j : j < n -> (i * n + j) / n = i.
Proof. intros H. rewrite Nat.div_add_l by lia. rewrite Nat.div_small by lia. lia. Qed.
Lemma mod_pos n i j : j < n -> (i * n + j) mod n = j.
Proof. intros H. rewrite Nat.add_comm, Nat.mod_add by lia. apply Nat.mod_small. lia. Qed.

(* ---- sums over products ---- *)
Lemma Csum_flat_map {X Y} (h : X -> list Y) (f : Y -> C) l : Csum (flat_map h l) f = Csum l (fun x => Csum (h x) f).
Proof. induction l as [|x l IH]; [reflexivity|]. cbn [flat_map]. rewrite Csum_app, Csum_cons, IH. reflexivity. Qed.
Lemma Csum_prod {X Y} (l : list X) (k : list Y) f g : Csum l (fun x => Csum k (fun y => f x * g y)%C) = (Csum l f * Csum k g)%C.
Proof. rewrite <- Csum_mul_r. apply Csum_ext. intros x _. apply Csum_mul_l. Qed.
Lemma seq_split m n : seq 0 (m * n) = flat_map (fun i => map (fun j => i * n + j) (seq 0 n)) (seq 0 m).
Proof.
  induction m as [|m IH]; [reflexivity|]. rewrite seq_S, flat_map_app, <- IH. cbn [flat_map]. rewrite app_nil_r.
  replace (S m * n) with (m * n + n) by lia. rewrite seq_app. f_equal. rewrite Nat.add_0_l.
  assert (X : forall a s, seq (a + s) n = map (fun j => a + j) (seq s n)).
  { clear. intros a. induction n as [|n IHn]; intros s; [reflexivity|]. cbn [seq map]. f_equal. rewrite <- IHn. f_equal. lia. }
  rewrite <- X. f_equal. lia.
Qed.
Lemma Csum_seq_prod m n f : Csum (seq 0 (m * n)) f = Csum (seq 0 m) (fun i => Csum (seq 0 n) (fun j => f (i * n + j))).
Proof. rewrite seq_split, Csum_flat_map. apply Csum_ext. intros i _. apply Csum_map. Qed.

(* ---- machine integers ---- *)
Lemma store_id Ns x : (0 <= x < Z.of_nat Ns)%Z -> store (index_bits Ns) x = x.
Proof.
  intros H. unfold index_bits. repeat match goal with |- context [if (?a <=? ?b)%Z then _ else _] => destruct (Z.leb_spec a b) end; cbn [store]; try reflexivity;
  match goal with |- context [(2 ^ ?b)%Z] => idtac end; rewrite Z.mod_small; cbn in *; lia.
Qed.

(* ---- Op ---- *)
Definition in_range (Ns : nat) (l : triples) : Prop := Forall (fun t => let '(_, r, c) := t in (0 <= r < Z.of_nat Ns)%Z /\ (0 <= c < Z.of_nat Ns)%Z) l.
(* what Op of a factor is relied on for: indices in range and proportional to the coupling *)
Record good_Op (b : basis) : Prop := {
  g_pos : 0 < b_Ns b;
  g_range : forall s I J l, b_Op b s I J = Some l -> in_range (b_Ns b) l;
  g_linear : forall s I J l, b_Op b s I C1 = Some l -> exists l', b_Op b s I J = Some l' /\ forall i j, entry l' i j = (J * entry l i j)%C }.

Lemma eqb_pos (r1 r2 : Z) n i1 i2 : (0 <= r2 < Z.of_nat n)%Z -> i2 < n ->
  (r1 * Z.of_nat n + r2 =? Z.of_nat (i1 * n + i2))%Z = ((r1 =? Z.of_nat i1) && (r2 =? Z.of_nat i2))%Z.
Proof.
  intros H Hi. rewrite Nat2Z.inj_add, Nat2Z.inj_mul. apply eq_true_iff_eq. rewrite Bool.andb_true_iff, !Z.eqb_eq. split; [|intros [-> ->]; reflexivity].
  intros E. assert (r1 = Z.of_nat i1) by nia. subst. split; [reflexivity|lia].
Qed.
Section Kron.
Variables (m n : nat) (tl tr : triples).
Hypothesis Hl : in_range m tl.
Hypothesis Hr : in_range n tr.
Lemma idx_val (x y : Z) : (0 <= x < Z.of_nat m)%Z -> (0 <= y < Z.of_nat n)%Z ->
  let b := index_bits (m * n) in store b (store b (store b x * Z.of_nat n) + store b y) = (x * Z.of_nat n + y)%Z.
Proof. clear tl tr Hl Hr. intros Hx Hy b. unfold b. rewrite (store_id (m * n) x) by nia. rewrite (store_id (m * n) y) by nia. rewrite (store_id (m * n) (x * Z.of_nat n)) by nia. apply store_id. nia. Qed.
Lemma kron_range : in_range (m * n) (kron_triples (index_bits (m * n)) n tl tr).
Proof.
  unfold in_range, kron_triples. apply Forall_forall. intros t Ht. apply in_flat_map in Ht. destruct Ht as ([[v1 r1] c1] & H1 & H2).
  apply in_map_iff in H2. destruct H2 as ([[v2 r2] c2] & E & H2). subst t.
  pose proof (proj1 (Forall_forall _ _) Hl _ H1) as [A1 A2]. pose proof (proj1 (Forall_forall _ _) Hr _ H2) as [B1 B2].
  split; rewrite idx_val by assumption; nia.
Qed.
Lemma kron_entry2 i1 i2 j1 j2 : i2 < n -> j2 < n ->
  entry (kron_triples (index_bits (m * n)) n tl tr) (i1 * n + i2) (j1 * n + j2) = (entry tl i1 j1 * entry tr i2 j2)%C.
Proof.
  intros Hi Hj. unfold entry, kron_triples. rewrite Csum_flat_map, <- Csum_prod. apply Csum_ext. intros [[v1 r1] c1] H1.
  rewrite Csum_map. apply Csum_ext. intros [[v2 r2] c2] H2.
  pose proof (proj1 (Forall_forall _ _) Hl _ H1) as [A1 A2]. pose proof (proj1 (Forall_forall _ _) Hr _ H2) as [B1 B2]. cbn beta iota.
  rewrite !idx_val by assumption.
  rewrite !eqb_pos by assumption.
  destruct (r1 =? _)%Z, (r2 =? _)%Z, (c1 =? _)%Z, (c2 =? _)%Z; cbn; ring.
Qed.
End Kron.

Lemma entry_nil i j : entry [] i j = C0. Proof. reflexivity. Qed.
Lemma out_entry n l i j : in_range n l -> n <= i \/ n <= j -> entry l i j = C0.
Proof.
  intros H Ho. apply Csum_zero. intros [[v r] c] Ht. pose proof (proj1 (Forall_forall _ _) H _ Ht) as [A B].
  destruct (Z.eqb_spec r (Z.of_nat i)), (Z.eqb_spec c (Z.of_nat j)); cbn; try reflexivity. lia.
Qed.

Lemma split_app s r : count_bar s = 0 -> split_bar (s ++ bar :: r) = Some (s, r).
Proof.
  induction s as [|c s IH]; intros H; cbn; [reflexivity|]. unfold count_bar in H. cbn in H. unfold count_bar in IH.
  destruct (c =? bar)%char eqn:E; [discriminate|]. rewrite IH by assumption. reflexivity.
Qed.
Lemma split_none s : split_bar s = None <-> count_bar s = 0.
Proof.
  unfold count_bar. induction s as [|c s IH]; cbn; [tauto|]. destruct (c =? bar)%char; cbn; [split; discriminate|].
  destruct (split_bar s) as [[l r]|]; split; intros H; try discriminate; try tauto. exfalso. apply IH in H. discriminate.
Qed.
Lemma split_spec s l r : split_bar s = Some (l, r) -> s = l ++ bar :: r /\ count_bar l = 0.
Proof.
  revert l r. induction s as [|c s IH]; intros l r H; [discriminate|]. cbn in H. destruct (c =? bar)%char eqn:E.
  - injection H as <- <-. apply Ascii.eqb_eq in E. subst. split; reflexivity.
  - destruct (split_bar s) as [[l' r']|]; [|discriminate]. injection H as <- <-. destruct (IH _ _ eq_refl) as [-> H]. split; [reflexivity|].
    unfold count_bar in *. cbn. rewrite E. exact H.
Qed.
Lemma count_app a b : count_bar (a ++ b) = count_bar a + count_bar b.
Proof. unfold count_bar. rewrite filter_app, app_length. reflexivity. Qed.
Lemma count_le a : count_bar a <= length a.
Proof. unfold count_bar. induction a as [|c a IH]; cbn; [lia|]. destruct (_ =? _)%char; cbn; lia. Qed.

Section Two.
Variables L R : basis.
Hypothesis HL : good_Op L.
Hypothesis HR : good_Op R.
Lemma tensor_range s I J l : tensor_Op L R s I J = Some l -> in_range (b_Ns L * b_Ns R) l.
Proof.
  unfold tensor_Op. destruct (negb _); [discriminate|]. destruct (split_bar s) as [[sl sr]|]; [|discriminate].
  set (q := if b_Ns L <? b_Ns R then (J, C1) else (C1, J)). destruct q as [Jl Jr].
  destruct (b_Op L _ _ _) as [tl|] eqn:El; [|discriminate]. destruct (b_Op R _ _ _) as [tr|] eqn:Er; [|discriminate].
  destruct (_ && _)%bool; intros H; injection H as <-; [|constructor].
  apply kron_range; [exact (g_range _ HL _ _ _ _ El)|exact (g_range _ HR _ _ _ _ Er)].
Qed.
(* the product of the two matrices, whatever the couplings are *)
Lemma tensor_split s sl sr I J : split_bar s = Some (sl, sr) -> length s - count_bar s = length I ->
  let i := length sl in
  forall Al Ar, b_Op L sl (firstn i I) C1 = Some Al -> b_Op R sr (skipn i I) C1 = Some Ar ->
  exists l, tensor_Op L R s I J = Some l /\ forall i1 i2 j1 j2, i2 < b_Ns R -> j2 < b_Ns R ->
    entry l (i1 * b_Ns R + i2) (j1 * b_Ns R + j2) = (J * (entry Al i1 j1 * entry Ar i2 j2))%C.
Proof.
  intros Es En i Al Ar EA EB. unfold tensor_Op. rewrite (proj2 (Nat.eqb_eq _ _) En), Es. cbn [negb]. fold i.
  destruct (b_Ns L <? b_Ns R).
  - destruct (g_linear _ HL _ _ J _ EA) as (l' & E' & H'). rewrite E', EB.
    destruct (_ && _)%bool eqn:Ec.
    + eexists. split; [reflexivity|]. intros i1 i2 j1 j2 Hi Hj.
      rewrite (kron_entry2 _ _ _ _ (g_range _ HL _ _ _ _ E') (g_range _ HR _ _ _ _ EB)) by assumption. rewrite H'. ring.
    + eexists. split; [reflexivity|]. intros i1 i2 j1 j2 Hi Hj. rewrite entry_nil. apply Bool.andb_false_iff in Ec. destruct Ec as [Ec|Ec]; apply Nat.ltb_ge in Ec.
      * assert (l' = []) by (destruct l'; [reflexivity|cbn in Ec; lia]). subst. specialize (H' i1 j1). rewrite entry_nil in H'. 
        transitivity ((J * entry Al i1 j1) * entry Ar i2 j2)%C; [rewrite <- H'|]; ring.
      * assert (Ar = []) by (destruct Ar; [reflexivity|cbn in Ec; lia]). subst. rewrite entry_nil. ring.
  - destruct (g_linear _ HR _ _ J _ EB) as (l' & E' & H'). rewrite E', EA.
    destruct (_ && _)%bool eqn:Ec.
    + eexists. split; [reflexivity|]. intros i1 i2 j1 j2 Hi Hj.
      rewrite (kron_entry2 _ _ _ _ (g_range _ HL _ _ _ _ EA) (g_range _ HR _ _ _ _ E')) by assumption. rewrite H'. ring.
    + eexists. split; [reflexivity|]. intros i1 i2 j1 j2 Hi Hj. rewrite entry_nil. apply Bool.andb_false_iff in Ec. destruct Ec as [Ec|Ec]; apply Nat.ltb_ge in Ec.
      * assert (Al = []) by (destruct Al; [reflexivity|cbn in Ec; lia]). subst. rewrite entry_nil. ring.
      * assert (l' = []) by (destruct l'; [reflexivity|cbn in Ec; lia]). subst. specialize (H' i2 j2). rewrite entry_nil in H'.
        transitivity (entry Al i1 j1 * (J * entry Ar i2 j2))%C; [rewrite <- H'|]; ring.
Qed.
End Two.

Lemma tensor2_good svd L R : good_Op L -> good_Op R -> good_Op (tensor2 svd L R).
Proof.
  intros HL HR. constructor.
  - cbn. pose proof (g_pos _ HL). pose proof (g_pos _ HR). nia.
  - intros s I J l. apply tensor_range; assumption.
  - intros s I J l E. cbn [b_Op tensor2] in *. assert (E0 := E). unfold tensor_Op in E0. destruct (length s - count_bar s =? length I) eqn:En; [|discriminate]. cbn [negb] in E0.
    destruct (split_bar s) as [[sl sr]|] eqn:Es; [|discriminate].
    assert (X : (if b_Ns L <? b_Ns R then (C1, C1) else (C1, C1)) = (C1, C1)) by (destruct (_ <? _); reflexivity). rewrite X in E0. clear X.
    destruct (b_Op L _ _ _) as [tl|] eqn:El; [|discriminate]. destruct (b_Op R _ _ _) as [tr|] eqn:Er; [|discriminate]. clear E0.
    apply Nat.eqb_eq in En.
    destruct (tensor_split L R HL HR s sl sr I J Es En _ _ El Er) as (l' & E' & H').
    destruct (tensor_split L R HL HR s sl sr I C1 Es En _ _ El Er) as (l1 & E1 & H1).
    rewrite E in E1. injection E1 as <-. exists l'. split; [exact E'|]. intros i j.
    pose proof (g_pos _ HR) as Hp.
    rewrite (Nat.div_mod i (b_Ns R)) by lia. rewrite (Nat.div_mod j (b_Ns R)) by lia. rewrite !(Nat.mul_comm (b_Ns R)).
    rewrite H', H1 by (apply Nat.mod_upper_bound; lia). ring.
Qed.

(* ---- any number of factors ---- *)
Lemma tensor_ind (svd : nat -> nat -> (nat -> nat -> C) -> svd_result) (P : list basis -> basis -> Prop) :
  (forall a b, P [a; b] (tensor2 svd a b)) ->
  (forall a bs r, tensor_basis svd bs = Some r -> P bs r -> P (a :: bs) (tensor2 svd a r)) ->
  forall bs b, tensor_basis svd bs = Some b -> P bs b.
Proof.
  intros H2 HS bs. induction bs as [|a bs IH]; intros b E; [discriminate|]. cbn in E. destruct bs as [|c rest]; [discriminate|].
  destruct rest as [|d rest]; [injection E as <-; apply H2|].
  destruct (tensor_basis svd (c :: d :: rest)) as [r|] eqn:Er; [|discriminate]. injection E as <-. apply HS; [exact Er|apply IH; reflexivity].
Qed.
Lemma tensor_cons svd a c d bs : tensor_basis svd (a :: c :: d :: bs) = match tensor_basis svd (c :: d :: bs) with Some r => Some (tensor2 svd a r) | None => None end.
Proof. reflexivity. Qed.
Lemma size_one d : size [d] = d. Proof. cbn. lia. Qed.
Lemma tensor_sizes svd bs b : tensor_basis svd bs = Some b -> b_Ns b = size (map b_Ns bs) /\ b_full b = size (map b_full bs).
Proof.
  revert bs b. apply tensor_ind; [intros a b; cbn; split; lia|]. intros a bs r _ [H1 H2]. cbn [b_Ns b_full tensor2 map]. rewrite H1, H2. split; reflexivity.
Qed.
Lemma tensor_good svd bs b : tensor_basis svd bs = Some b -> Forall good_Op bs -> good_Op b.
Proof.
  revert bs b. apply (tensor_ind svd (fun bs b => Forall good_Op bs -> good_Op b)).
  - intros a b H. inversion H as [|? ? Ha H']. inversion H'. apply tensor2_good; assumption.
  - intros a bs r _ IH H. inversion H. apply tensor2_good; auto.
Qed.

Record piece := { p_basis : basis; p_op : list ascii; p_sites : list nat; p_elements : triples }.
(* the piece of one factor: Op of the factor with coupling 1 gives the elements *)
Definition piece_ok (p : piece) : Prop :=
  good_Op (p_basis p) /\ b_Op (p_basis p) (p_op p) (p_sites p) C1 = Some (p_elements p) /\ length (p_op p) - count_bar (p_op p) = length (p_sites p).
(* only the last factor may use the bar in its own strings *)
Definition no_bars (ps : list piece) : Prop := Forall (fun p => count_bar (p_op p) = 0) (removelast ps).

Lemma join_two (a b : list ascii) : join bar [a; b] = a ++ bar :: b. Proof. reflexivity. Qed.
Lemma join_cons (a : list ascii) ss : ss <> [] -> join bar (a :: ss) = a ++ bar :: join bar ss.
Proof. destruct ss; [congruence|reflexivity]. Qed.
Lemma count_zero_len s : count_bar s = 0 -> length s - count_bar s = length s. Proof. lia. Qed.
Lemma firstn_len {X} (a b : list X) n : length a = n -> firstn n (a ++ b) = a.
Proof. intros <-. rewrite firstn_app, Nat.sub_diag, firstn_all. cbn. apply app_nil_r. Qed.
Lemma skipn_len {X} (a b : list X) n : length a = n -> skipn n (a ++ b) = b.
Proof. intros <-. rewrite skipn_app, Nat.sub_diag, skipn_all. reflexivity. Qed.

Lemma join_len ps : Forall piece_ok ps -> no_bars ps -> ps <> [] ->
  length (join bar (map p_op ps)) - count_bar (join bar (map p_op ps)) = length (concat (map p_sites ps)).
Proof.
  induction ps as [|p ps IH]; intros H HN Hne; [congruence|]. inversion H as [|? ? (_ & _ & E) H']. subst. destruct ps as [|q ps].
  - cbn. rewrite app_nil_r. exact E.
  - cbn [map concat]. rewrite join_cons by discriminate. unfold no_bars in HN. cbn [removelast] in HN. inversion HN as [|? ? Z0 HN']. subst.
    specialize (IH H' HN' ltac:(discriminate)). cbn [map concat] in IH |- *. rewrite !app_length in *. rewrite count_app. cbn [length].
    pose proof (count_le (join bar (p_op q :: map p_op ps))) as CL. set (js := join bar (p_op q :: map p_op ps)) in *.
    replace (count_bar (bar :: js)) with (S (count_bar js)) by reflexivity. clearbody js. lia.
Qed.

Lemma ops_entry svd ps : forall b J, tensor_basis svd (map p_basis ps) = Some b -> Forall piece_ok ps -> no_bars ps ->
  exists l, b_Op b (join bar (map p_op ps)) (concat (map p_sites ps)) J = Some l /\
    forall is js, multi (map (fun p => b_Ns (p_basis p)) ps) is -> multi (map (fun p => b_Ns (p_basis p)) ps) js ->
    entry l (position (map (fun p => b_Ns (p_basis p)) ps) is) (position (map (fun p => b_Ns (p_basis p)) ps) js)
      = (J * kron_entry (map (fun p => entry (p_elements p)) ps) is js)%C.
Proof.
  induction ps as [|p ps IH]; intros b J E H HN; [discriminate|]. destruct ps as [|q ps]; [discriminate|].
  inversion H as [|? ? Hp H']. subst. destruct Hp as (Gp & Ep & Lp). unfold no_bars in HN. cbn [removelast] in HN. inversion HN as [|? ? Z0 HN']. subst.
  assert (Lp' : length (p_op p) = length (p_sites p)) by lia.
  assert (X : exists r Ar, b = tensor2 svd (p_basis p) r /\ good_Op r /\ b_Ns r = size (map (fun p => b_Ns (p_basis p)) (q :: ps)) /\
     b_Op r (join bar (map p_op (q :: ps))) (concat (map p_sites (q :: ps))) C1 = Some Ar /\
     forall is js, multi (map (fun p => b_Ns (p_basis p)) (q :: ps)) is -> multi (map (fun p => b_Ns (p_basis p)) (q :: ps)) js ->
       entry Ar (position (map (fun p => b_Ns (p_basis p)) (q :: ps)) is) (position (map (fun p => b_Ns (p_basis p)) (q :: ps)) js)
       = kron_entry (map (fun p => entry (p_elements p)) (q :: ps)) is js).
  { destruct ps as [|q' ps].
    - inversion H' as [|? ? Hq _]. subst. destruct Hq as (Gq & Eq & Lq). cbn in E. injection E as <-. exists (p_basis q), (p_elements q).
      split; [reflexivity|]. split; [exact Gq|]. split; [cbn; lia|]. split; [cbn [map join concat]; rewrite app_nil_r; exact Eq|].
      intros is js Hi Hj. inversion Hi as [|? i0 ? is0 Hi0 Hi1]. inversion Hj as [|? j0 ? js0 Hj0 Hj1]. subst. inversion Hi1. inversion Hj1. subst.
      cbn. rewrite !Nat.mul_1_r, !Nat.add_0_r. ring.
    - cbn [map] in E. rewrite tensor_cons in E. destruct (tensor_basis svd (p_basis q :: p_basis q' :: map p_basis ps)) as [r|] eqn:Er; [|discriminate].
      injection E as <-. destruct (IH r C1 Er H' HN') as (Ar & EA & HA). exists r, Ar. split; [reflexivity|].
      split; [apply (tensor_good svd (map p_basis (q :: q' :: ps)) r Er); apply Forall_map; eapply Forall_impl; [|exact H']; intros x Hx; apply Hx|].
      split; [rewrite (proj1 (tensor_sizes svd (map p_basis (q :: q' :: ps)) r Er)), map_map; reflexivity|].
      split; [exact EA|]. intros is js Hi Hj. rewrite (HA is js Hi Hj). ring. }
  destruct X as (r & Ar & -> & Gr & Nr & EA & HA).
  pose proof (tensor_split (p_basis p) r Gp Gr (join bar (map p_op (p :: q :: ps))) (p_op p) (join bar (map p_op (q :: ps))) (concat (map p_sites (p :: q :: ps))) J) as TS.
  assert (S1 : split_bar (join bar (map p_op (p :: q :: ps))) = Some (p_op p, join bar (map p_op (q :: ps)))).
  { cbn [map]. rewrite join_cons by discriminate. apply split_app. exact Z0. }
  specialize (TS S1). specialize (TS (join_len _ H HN ltac:(discriminate))). cbv zeta in TS.
  specialize (TS (p_elements p) Ar). rewrite Lp' in TS. cbn [map concat] in TS. rewrite firstn_len, skipn_len in TS by reflexivity.
  destruct (TS Ep EA) as (l & El & Hl). exists l. split; [exact El|]. intros is js Hi Hj.
  inversion Hi as [|? i0 ? is0 Hi0 Hi1]. inversion Hj as [|? j0 ? js0 Hj0 Hj1]. subst.
  cbn [map]. cbn [map] in Nr. rewrite (position_cons _ _ i0 is0), (position_cons _ _ j0 js0). rewrite <- Nr.
  pose proof (position_lt _ _ Hi1) as B1. pose proof (position_lt _ _ Hj1) as B2. rewrite <- Nr in B1, B2. rewrite Hl by assumption.
  pose proof (HA is0 js0 Hi1 Hj1) as HA'. cbn [map] in HA'. rewrite HA'. reflexivity.
Qed.

(* ---- index ---- *)
(* index of a factor takes one state and answers with a position *)
Definition good_index (b : basis) : Prop := forall states i, b_index b states = Some i -> length states = 1 /\ i < b_Ns b.
Lemma index_position svd bs : forall b states is, tensor_basis svd bs = Some b -> length states = length bs ->
  Forall2 (fun x i => b_index (fst x) [snd x] = Some i) (combine bs states) is ->
  b_index b states = Some (position (map b_Ns bs) is).
Proof.
  induction bs as [|a bs IH]; intros b states is E Hl H; [discriminate|]. destruct bs as [|c bs]; [discriminate|].
  destruct states as [|s [|s' states]]; try discriminate. cbn [combine] in H. inversion H as [|? i0 ? is0 Ha H']. subst. cbn [fst snd] in Ha.
  assert (X : exists r, b = tensor2 svd a r /\ b_Ns r = size (map b_Ns (c :: bs)) /\ b_index r (s' :: states) = Some (position (map b_Ns (c :: bs)) is0)).
  { destruct bs as [|d bs].
    - cbn in E. injection E as <-. exists c. split; [reflexivity|]. split; [cbn; lia|]. destruct states; [|cbn in Hl; lia].
      cbn [combine] in H'. inversion H' as [|? i1 ? is1 Hb H'']. subst. inversion H''. subst. cbn in Hb |- *. rewrite Nat.mul_1_r, Nat.add_0_r. exact Hb.
    - rewrite tensor_cons in E. destruct (tensor_basis svd (c :: d :: bs)) as [r|] eqn:Er; [|discriminate].
      injection E as <-. exists r. split; [reflexivity|]. split; [exact (proj1 (tensor_sizes svd (c :: d :: bs) r Er))|]. apply (IH r (s' :: states) is0 eq_refl); [cbn in *; lia|exact H']. }
  destruct X as (r & -> & Nr & Ei). cbn [b_index tensor2 tensor_index tl]. rewrite Ha, Ei. cbn [map]. rewrite (position_cons _ _ i0 is0). cbn [map] in Nr. rewrite <- Nr. f_equal. lia.
Qed.
Lemma index_arity svd bs b states : tensor_basis svd bs = Some b -> Forall good_index bs -> length states <> length bs -> b_index b states = None.
Proof.
  intros E. revert states. pattern bs, b. revert bs b E. apply tensor_ind.
  - intros a b states H Hl. cbn [b_index tensor2]. destruct states as [|s [|s' states]]; try reflexivity. cbn [tensor_index tl].
    destruct (b_index a [s]); [|reflexivity]. destruct (b_index b (s' :: states)) eqn:E; [|reflexivity]. inversion H as [|? ? _ H']. inversion H' as [|? ? Hb _]. subst.
    destruct (Hb _ _ E) as [Hx _]. cbn in *. lia.
  - intros a bs r Er IH states H Hl. cbn [b_index tensor2]. destruct states as [|s [|s' states]]; try reflexivity. cbn [tensor_index tl].
    inversion H. subst. rewrite (IH (s' :: states)); [destruct (b_index a [s]); reflexivity|assumption|cbn in *; lia].
Qed.

(* ---- projectors ---- *)
Lemma proj_kron svd bs : forall b is js, tensor_basis svd bs = Some b -> multi (map b_full bs) is -> multi (map b_Ns bs) js ->
  b_proj b (position (map b_full bs) is) (position (map b_Ns bs) js) = kron_entry (map b_proj bs) is js.
Proof.
  induction bs as [|a bs IH]; intros b is js E Hi Hj; [discriminate|]. destruct bs as [|c bs]; [discriminate|].
  inversion Hi as [|? i0 ? is0 Hi0 Hi1]. inversion Hj as [|? j0 ? js0 Hj0 Hj1]. subst.
  assert (X : exists r, b = tensor2 svd a r /\ b_Ns r = size (map b_Ns (c :: bs)) /\ b_full r = size (map b_full (c :: bs)) /\
    b_proj r (position (map b_full (c :: bs)) is0) (position (map b_Ns (c :: bs)) js0) = kron_entry (map b_proj (c :: bs)) is0 js0).
  { destruct bs as [|d bs].
    - cbn in E. injection E as <-. exists c. split; [reflexivity|]. split; [cbn; lia|]. split; [cbn; lia|].
      inversion Hi1 as [|? i1 ? is1 Hi2 Hi3]. inversion Hj1 as [|? j1 ? js1 Hj2 Hj3]. subst. inversion Hi3. inversion Hj3. subst.
      cbn. rewrite !Nat.mul_1_r, !Nat.add_0_r. ring.
    - rewrite tensor_cons in E. destruct (tensor_basis svd (c :: d :: bs)) as [r|] eqn:Er; [|discriminate].
      injection E as <-. exists r. split; [reflexivity|]. destruct (tensor_sizes svd (c :: d :: bs) r Er) as [S1 S2]. repeat split; try assumption. apply (IH r is0 js0 eq_refl); assumption. }
  destruct X as (r & -> & Nr & Fr & Ep). cbn [b_proj tensor2]. unfold tensor_proj, kron_matrix. cbn [map]. rewrite (position_cons _ _ i0 is0), (position_cons _ _ j0 js0). cbn [map] in Nr, Fr. rewrite <- Nr, <- Fr.
  pose proof (position_lt _ _ Hi1) as B1. pose proof (position_lt _ _ Hj1) as B2. cbn [map] in B1, B2. rewrite <- Fr in B1. rewrite <- Nr in B2.
  rewrite !div_pos, !mod_pos by assumption. cbn [map] in Ep. rewrite Ep. reflexivity.
Qed.
Lemma kron_isometry m1 n1 m2 n2 P1 P2 : isometry m1 n1 P1 -> isometry m2 n2 P2 -> isometry (m1 * m2) (n1 * n2) (kron_matrix m2 n2 P1 P2).
Proof.
  intros H1 H2 j k Hj Hk. assert (0 < n2) by nia. rewrite Csum_seq_prod.
  transitivity (Csum (seq 0 m1) (fun i => Csum (seq 0 m2) (fun i2 => (Cconj (P1 i (j / n2)) * P1 i (k / n2)) * (Cconj (P2 i2 (j mod n2)) * P2 i2 (k mod n2))))%C).
  - apply Csum_ext. intros i _. apply Csum_ext. intros i2 Hi2. apply in_seq in Hi2. unfold kron_matrix. rewrite div_pos, mod_pos by lia. rewrite Cconj_mul. ring.
  - rewrite (Csum_prod (seq 0 m1) (seq 0 m2) (fun i => Cconj (P1 i (j / n2)) * P1 i (k / n2))%C (fun i2 => Cconj (P2 i2 (j mod n2)) * P2 i2 (k mod n2))%C).
    rewrite H1 by (apply Nat.div_lt_upper_bound; nia). rewrite H2 by (apply Nat.mod_upper_bound; lia).
    destruct (Nat.eqb_spec j k) as [->|Hne]; [rewrite !Nat.eqb_refl; ring|].
    destruct (Nat.eqb_spec (j / n2) (k / n2)) as [E1|]; [|ring]. destruct (Nat.eqb_spec (j mod n2) (k mod n2)) as [E2|]; [|ring].
    exfalso. apply Hne. rewrite (Nat.div_mod j n2), (Nat.div_mod k n2) by lia. rewrite E1, E2. reflexivity.
Qed.
Lemma tensor_isometry svd bs b : tensor_basis svd bs = Some b -> Forall (fun b => isometry (b_full b) (b_Ns b) (b_proj b)) bs -> isometry (b_full b) (b_Ns b) (b_proj b).
Proof.
  intros E. pattern bs, b. revert bs b E. apply tensor_ind.
  - intros a b H. inversion H as [|? ? Ha H']. inversion H' as [|? ? Hb _]. subst. apply kron_isometry; assumption.
  - intros a bs r _ IH H. inversion H. subst. apply kron_isometry; auto.
Qed.

(* ---- project_from ---- *)
(* the product of the three results of svd is the matrix *)
Definition svd_ok (svd : nat -> nat -> (nat -> nat -> C) -> svd_result) : Prop := forall m n A,
  let '(V1, s, V2) := svd m n A in forall i j, i < m -> j < n -> A i j = Csum (seq 0 (Nat.min m n)) (fun k => V1 i k * RtoC (s k) * V2 k j)%C.
(* project_from of a basis applies its projector *)
Definition good_project (b : basis) : Prop := 0 < b_full b /\ 0 < b_Ns b /\
  forall v i, i < b_full b -> b_project b v i = Csum (seq 0 (b_Ns b)) (fun j => b_proj b i j * v j)%C.
Lemma fold_sum (f : nat -> nat -> C) n : forall a i, fold_left (fun acc k i => acc i + f k i)%C n a i = (a i + Csum n (fun k => f k i))%C.
Proof. induction n as [|x n IH]; intros a i; cbn [fold_left]; [rewrite Csum_nil; ring|]. rewrite IH, Csum_cons. ring. Qed.
Lemma combine_spec svd (Hs : svd_ok svd) (fl fr : bool) L R v i : good_project L -> good_project R ->
  let nL := if fl then b_full L else b_Ns L in let nR := if fr then b_full R else b_Ns R in i < nL * nR ->
  combine_project svd fl fr L R v i = Csum (seq 0 (b_Ns L * b_Ns R)) (fun j => (tensor_proj fl fr L R i j * v j)%C).
Proof.
  intros (FL & NL & HL) (FR & NR & HR) nL nR Hi. unfold combine_project. pose proof (Hs (b_Ns L) (b_Ns R) (fun i j => v (i * b_Ns R + j))) as HS.
  destruct (svd (b_Ns L) (b_Ns R) (fun i j => v (i * b_Ns R + j))) as [[V1 s] V2]. fold nR.
  set (m := Nat.min (b_Ns L) (b_Ns R)) in *. assert (Hm : m = S (m - 1)) by lia.
  rewrite (fold_sum (fun k i => RtoC (s k) * ((if fl then b_project L (fun i => V1 i k) else (fun i => V1 i k)) (i / nR) * (if fr then b_project R (fun j => V2 k j) else (fun j => V2 k j)) (i mod nR)))%C).
  assert (HnR : 0 < nR) by (unfold nR; destruct fr; assumption). assert (B1 : i / nR < nL) by (apply Nat.div_lt_upper_bound; nia).
  assert (B2 : i mod nR < nR) by (apply Nat.mod_upper_bound; lia).
  set (P1 := if fl then b_proj L else identity). set (P2 := if fr then b_proj R else identity).
  assert (E1 : forall w : nat -> C, (if fl then b_project L w else w) (i / nR) = Csum (seq 0 (b_Ns L)) (fun j => P1 (i / nR) j * w j)%C).
  { intros w. unfold P1, nL in *. destruct fl; [apply HL; exact B1|]. symmetry. unfold identity.
    rewrite (Csum_single _ _ (i / nR) (seq_NoDup _ _)); [rewrite Nat.eqb_refl; ring|apply in_seq; split; [apply Nat.le_0_l|exact B1]|]. intros x _ Hx. rewrite (proj2 (Nat.eqb_neq _ _)) by congruence. ring. }
  assert (E2 : forall w : nat -> C, (if fr then b_project R w else w) (i mod nR) = Csum (seq 0 (b_Ns R)) (fun j => P2 (i mod nR) j * w j)%C).
  { intros w. unfold P2. clear E1 B1. subst nR. destruct fr; [apply HR; exact B2|]. symmetry. unfold identity.
    rewrite (Csum_single _ _ (i mod b_Ns R) (seq_NoDup _ _)); [rewrite Nat.eqb_refl; ring|apply in_seq; split; [apply Nat.le_0_l|exact B2]|]. intros x _ Hx. rewrite (proj2 (Nat.eqb_neq _ _)) by congruence. ring. }
  transitivity (Csum (seq 0 m) (fun k => RtoC (s k) * (Csum (seq 0 (b_Ns L)) (fun j => P1 (i / nR) j * V1 j k) * Csum (seq 0 (b_Ns R)) (fun j => P2 (i mod nR) j * V2 k j)))%C).
  { rewrite Hm, seq_S, Csum_app, Csum_cons, Csum_nil, <- Hm. cbn [Nat.add]. rewrite !E1, !E2.
    rewrite (Csum_ext (seq 0 (m - 1)) _ (fun k => RtoC (s k) * (Csum (seq 0 (b_Ns L)) (fun j => P1 (i / nR) j * V1 j k) * Csum (seq 0 (b_Ns R)) (fun j => P2 (i mod nR) j * V2 k j)))%C);
      [ring|]. intros k _. rewrite E1, E2. reflexivity. }
  rewrite Csum_seq_prod.
  transitivity (Csum (seq 0 m) (fun k => Csum (seq 0 (b_Ns L)) (fun a => Csum (seq 0 (b_Ns R)) (fun c => P1 (i / nR) a * P2 (i mod nR) c * (V1 a k * RtoC (s k) * V2 k c))))%C).
  { apply Csum_ext. intros k _. rewrite <- Csum_prod, <- Csum_mul_l. apply Csum_ext. intros a _. rewrite <- Csum_mul_l. apply Csum_ext. intros c _. ring. }
  rewrite (Csum_swap (seq 0 m) (seq 0 (b_Ns L)) (fun k a => Csum (seq 0 (b_Ns R)) (fun c => P1 (i / nR) a * P2 (i mod nR) c * (V1 a k * RtoC (s k) * V2 k c))%C)).
  apply Csum_ext. intros a Ha. apply in_seq in Ha.
  rewrite (Csum_swap (seq 0 m) (seq 0 (b_Ns R)) (fun k c => P1 (i / nR) a * P2 (i mod nR) c * (V1 a k * RtoC (s k) * V2 k c))%C).
  apply Csum_ext. intros c Hc. apply in_seq in Hc. rewrite Csum_mul_l, <- HS by lia. unfold tensor_proj, kron_matrix. fold P1 P2 nR. rewrite div_pos, mod_pos by lia. reflexivity.
Qed.
Lemma tensor_project svd (Hs : svd_ok svd) bs b : tensor_basis svd bs = Some b -> Forall good_project bs -> good_project b.
Proof.
  assert (T : forall a b, good_project a -> good_project b -> good_project (tensor2 svd a b)).
  { intros a c Ha Hb. pose proof Ha as (F1 & N1 & _). pose proof Hb as (F2 & N2 & _). split; [cbn; nia|]. split; [cbn; nia|]. intros v i Hi. exact (combine_spec svd Hs true true a c v i Ha Hb Hi). }
  intros E. pattern bs, b. revert bs b E. apply tensor_ind.
  - intros a b H. inversion H as [|? ? Ha H']. inversion H' as [|? ? Hb _]. subst. apply T; assumption.
  - intros a bs r _ IH H. inversion H. subst. apply T; auto.
Qed.
