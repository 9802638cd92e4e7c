(* C29: a tensor basis is the product of its factors: states, index, operators 'a|b', projections and partial traces. *)
From Coq Require Import Ascii.
From Verif Require Import AuxN SpecC SpecTensor SpecOps M_index M_ops M_opstr M_symop M_tensor P_opinst P_opstr P_listcex P_tensor P_tensor2.
Local Open Scope nat_scope.

(* A piece is a factor with its part of the operator string, the sites of that part and the matrix elements the factor's own
   Op gives for coupling 1.  good_Op: the factor's Op has indices in range and is proportional to the coupling.
   The operator written with bars is J times the Kronecker product, for any number of factors and any sizes (the index
   arrays of the code have the smallest integer type that holds Ns). *)
Theorem C29_op : forall svd ps b J, tensor_basis svd (map p_basis ps) = Some b -> Forall piece_ok ps -> no_bars ps ->
  let dims := map (fun p => b_Ns (p_basis p)) ps in
  b_Ns b = size dims /\
  exists l, b_Op b (join bar (map p_op ps)) (concat (map p_sites ps)) J = Some l /\ in_range (size dims) l /\
    forall is js, multi dims is -> multi dims js ->
      entry l (position dims is) (position dims js) = (J * kron_entry (map (fun p => entry (p_elements p)) ps) is js)%C.
Proof.
  intros svd ps b J E H HN dims. destruct (ops_entry svd ps b J E H HN) as (l & El & Hl).
  assert (N : b_Ns b = size dims) by (rewrite (proj1 (tensor_sizes _ _ _ E)), map_map; reflexivity).
  split; [exact N|]. exists l. split; [exact El|]. split; [|exact Hl]. rewrite <- N.
  refine (g_range _ (tensor_good svd _ b E _) _ _ _ _ El). apply Forall_map. eapply Forall_impl; [|exact H]. intros p Hp. apply Hp.
Qed.
Print Assumptions C29_op.

(* every multi-index is one position, and every position below Ns is one multi-index *)
Theorem C29_positions : forall dims,
  (forall is, multi dims is -> position dims is < size dims) /\
  (forall is js, multi dims is -> multi dims js -> position dims is = position dims js -> is = js) /\
  (forall p, p < size dims -> exists is, multi dims is /\ position dims is = p).
Proof. intros dims. split; [apply position_lt|]. split; [apply position_inj|apply position_surj]. Qed.
Print Assumptions C29_positions.

(* index(s_1, ..., s_n) is the position of the factors' indices; another number of states is an error *)
Theorem C29_index : forall svd bs b, tensor_basis svd bs = Some b ->
  (forall states is, length states = length bs -> Forall2 (fun x i => b_index (fst x) [snd x] = Some i) (combine bs states) is ->
     b_index b states = Some (position (map b_Ns bs) is)) /\
  (Forall good_index bs -> forall states, length states <> length bs -> b_index b states = None).
Proof. intros svd bs b E. split; [intros states is; apply (index_position svd); exact E|intros H states; apply (index_arity svd bs b states E H)]. Qed.
Print Assumptions C29_index.

(* get_proj is the Kronecker product; it is an isometry when the factors' projectors are *)
Theorem C29_projector : forall svd bs b, tensor_basis svd bs = Some b ->
  b_full b = size (map b_full bs) /\
  (forall is js, multi (map b_full bs) is -> multi (map b_Ns bs) js ->
     b_proj b (position (map b_full bs) is) (position (map b_Ns bs) js) = kron_entry (map b_proj bs) is js) /\
  (Forall (fun b => isometry (b_full b) (b_Ns b) (b_proj b)) bs -> isometry (b_full b) (b_Ns b) (b_proj b)).
Proof.
  intros svd bs b E. split; [exact (proj2 (tensor_sizes svd bs b E))|]. split; [intros is js; apply (proj_kron svd); exact E|apply (tensor_isometry svd bs b E)].
Qed.
Print Assumptions C29_projector.

(* project_from of a dense column applies that projector, for every correct singular value decomposition, any number of factors
   (tensor2 with full_left, full_right: both values) *)
Theorem C29_project_from : forall svd, svd_ok svd ->
  (forall bs b, tensor_basis svd bs = Some b -> Forall good_project bs ->
     forall v i, i < b_full b -> b_project b v i = Csum (seq 0 (b_Ns b)) (fun j => b_proj b i j * v j)%C) /\
  (forall (full_left full_right : bool) L R v i, good_project L -> good_project R ->
     i < (if full_left then b_full L else b_Ns L) * (if full_right then b_full R else b_Ns R) ->
     combine_project svd full_left full_right L R v i = Csum (seq 0 (b_Ns L * b_Ns R)) (fun j => (tensor_proj full_left full_right L R i j * v j)%C)).
Proof.
  intros svd Hs. split; [intros bs b E H; apply (tensor_project svd Hs bs b E H)|]. intros fl fr L R v i HL HR Hi. exact (combine_spec svd Hs fl fr L R v i HL HR Hi).
Qed.
Print Assumptions C29_project_from.

(* the bases of C13-C17 (spin-1/2, fermions, bosons, higher spins; with or without symmetries) are such factors *)
Theorem C29_factors : forall sf bas qs pers nt n allowed sc index full proj project bytes sps,
  (forall r j g sg, snd sf r = Some (j, g, sg) -> (j < Z.of_nat (length bas))%Z) -> bas <> [] ->
  let factor op := lattice_factor (Op false sf bas qs pers nt n allowed sc op) (length bas) index full proj project in
  good_Op (factor (hcb_op n)) /\ good_Op (factor (fermion_op bytes n)) /\ good_Op (factor (boson_op sps n)) /\ good_Op (factor (higher_spin_op sps n)).
Proof.
  intros sf bas qs pers nt n allowed sc index full proj project bytes sps Hsf Hne factor.
  repeat (match goal with |- _ /\ _ => split end); apply lattice_good; try assumption; intros l;
    [apply hcb_scales|apply fermion_scales|apply diag_scales|apply diag_scales].
Qed.
Print Assumptions C29_factors.

(* reduced matrices of A = "left" and A = "right"; the dense, the sparse and the density matrix routines *)
Theorem C29_partial_trace_A : forall Nl Nr,
  (forall psi i k, fst (tensor_trace_pure true Nl Nr psi) i k = reduced_left Nr psi i k /\ fst (tensor_trace_pure false Nl Nr psi) i k = reduced_right Nl Nr psi i k) /\
  (forall rho i k, fst (tensor_trace_mixed true Nl Nr rho) i k = traced_left Nr rho i k /\ fst (tensor_trace_mixed false Nl Nr rho) i k = traced_right Nl Nr rho i k) /\
  (forall psi row i k, (forall p, Csum row (fun t => if fst t =? p then snd t else C0) = psi p) -> Forall (fun t => fst t < Nl * Nr) row ->
     (i < Nl -> k < Nl -> fst (tensor_sparse_pure true Nl Nr row) i k = reduced_left Nr psi i k) /\
     (i < Nr -> k < Nr -> fst (tensor_sparse_pure false Nl Nr row) i k = reduced_right Nl Nr psi i k)).
Proof.
  intros Nl Nr. split; [intros psi i k; split; reflexivity|]. split; [intros rho i k; split; reflexivity|].
  intros psi row i k Hp Hr.
  assert (X : forall a c, a < Nl -> c < Nr -> Csum row (fun t => if (((fst t) / Nr =? a) && ((fst t) mod Nr =? c))%bool then snd t else C0) = psi (a * Nr + c)).
  { intros a c Ha Hc. rewrite <- Hp. apply Csum_ext. intros [p v] Ht. cbn [fst snd]. pose proof (Nat.div_mod p Nr ltac:(lia)) as D. pose proof (Nat.mod_upper_bound p Nr ltac:(lia)) as B.
    destruct (Nat.eqb_spec p (a * Nr + c)) as [->|Hne]; [rewrite div_pos, mod_pos, !Nat.eqb_refl by lia; reflexivity|].
    destruct (Nat.eqb_spec (p / Nr) a), (Nat.eqb_spec (p mod Nr) c); cbn; try reflexivity. exfalso. apply Hne. subst. rewrite D at 1. lia. }
  split; intros Hi Hk; unfold tensor_sparse_pure, sparse_entry; cbn [fst]; apply Csum_ext; intros j Hj; apply in_seq in Hj; rewrite !Csum_map; cbn beta.
  - f_equal; [|f_equal]; rewrite <- X by lia; apply Csum_ext; intros [p v] _; reflexivity.
  - f_equal; [|f_equal]; rewrite <- X by lia; apply Csum_ext; intros [p v] _; cbn [fst snd]; rewrite andb_comm; reflexivity.
Qed.
Print Assumptions C29_partial_trace_A.

(* the matrix of the other part comes out complex conjugated (as in C28) *)
Theorem C29_partial_trace_B_conjugated : forall Nl Nr psi rho i k,
  snd (tensor_trace_pure true Nl Nr psi) i k = Cconj (reduced_right Nl Nr psi i k) /\ snd (tensor_trace_pure false Nl Nr psi) i k = Cconj (reduced_left Nr psi i k) /\
  snd (tensor_trace_mixed true Nl Nr rho) i k = Cconj (traced_right Nl Nr rho i k) /\ snd (tensor_trace_mixed false Nl Nr rho) i k = Cconj (traced_left Nr rho i k).
Proof.
  intros Nl Nr psi rho i k. repeat (match goal with |- _ /\ _ => split end); unfold reduced_left, reduced_right, traced_left, traced_right; rewrite Csum_conj; cbn [snd tensor_trace_pure tensor_trace_mixed];
  apply Csum_ext; intros j _; rewrite ?Cconj_mul, ?Cconj_invol; reflexivity.
Qed.
Print Assumptions C29_partial_trace_B_conjugated.
(* (|0> |0> + i |0> |1>) / sqrt 2 up to the norm *)
Theorem C29_partial_trace_B_refuted : exists psi, snd (tensor_trace_pure true 2 2 psi) 0 1 <> reduced_right 2 2 psi 0 1.
Proof.
  exists (fun p => if p =? 0 then C1 else if p =? 1 then Ci else C0). intros H. apply (f_equal snd) in H. cbn in H. lra.
Qed.
Print Assumptions C29_partial_trace_B_refuted.

(* partial_trace(psi, sparse=True) of a one-dimensional array does not return the reduced matrix: it treats every amplitude
   as a state and returns Ns matrices, for every tensor basis with more than one state *)
Theorem C29_sparse_vector_refuted : forall left Nl Nr psi, 1 < Nl * Nr ->
  length (partial_trace_vector_sparse left Nl Nr psi) = Nl * Nr /\
  forall p, p < Nl * Nr -> forall i k, fst (nth p (partial_trace_vector_sparse left Nl Nr psi) (fun _ _ => C0, fun _ _ => C0)) i k =
    if ((i =? 0) && (k =? 0))%bool then (psi p * Cconj (psi p))%C else C0.
Proof.
  intros left Nl Nr psi H. unfold partial_trace_vector_sparse. rewrite (proj2 (Nat.eqb_neq _ 1)) by lia. split; [rewrite map_length, seq_length; reflexivity|].
  intros p Hp i k. rewrite (nth_indep _ _ (tensor_sparse_pure left Nl Nr [(0, psi 0)])) by (rewrite map_length, seq_length; lia).
  rewrite (map_nth (fun i => tensor_sparse_pure left Nl Nr [(0, psi i)]) (seq 0 (Nl * Nr)) 0 p), seq_nth by lia. cbn [Nat.add].
  assert (HN : 0 < Nl /\ 0 < Nr) by nia. unfold tensor_sparse_pure, sparse_entry. cbn [map]. rewrite Nat.div_0_l, Nat.mod_0_l by lia.
  assert (G : forall n, 0 < n -> Csum (seq 0 n) (fun j => Csum [(0, 0, psi p)] (fun t => let '(r, c, v) := t in if ((r =? i) && (c =? j))%bool then v else C0) *
       Cconj (Csum [(0, 0, psi p)] (fun t => let '(r, c, v) := t in if ((r =? k) && (c =? j))%bool then v else C0)))%C = if ((i =? 0) && (k =? 0))%bool then (psi p * Cconj (psi p))%C else C0).
  { intros n Hn. rewrite (Csum_single _ _ 0 (seq_NoDup _ _)).
    - rewrite !Csum_cons, !Csum_nil, !andb_true_r. rewrite (Nat.eqb_sym 0 i), (Nat.eqb_sym 0 k). destruct (i =? 0), (k =? 0); cbn [andb]; apply C_eq; cbn; ring.
    - apply in_seq. lia.
    - intros x _ Hx. rewrite !Csum_cons, !Csum_nil. rewrite (proj2 (Nat.eqb_neq 0 x)) by lia. rewrite !andb_false_r. apply C_eq; cbn; ring. }
  destruct left; cbn [fst]; apply G; lia.
Qed.
Print Assumptions C29_sparse_vector_refuted.

(* a factor whose own strings need the bar (another tensor basis, spinful fermions) cannot be the first one: every operator
   string raises *)
Theorem C29_first_factor_refuted : forall L R, (forall s I J, count_bar s = 0 -> b_Op L s I J = None) ->
  forall s I J, tensor_Op L R s I J = None.
Proof.
  intros L R H s I J. unfold tensor_Op. destruct (negb _); [reflexivity|]. destruct (split_bar s) as [[sl sr]|] eqn:E; [|reflexivity].
  destruct (split_spec _ _ _ E) as [_ Hs]. destruct (if b_Ns L <? b_Ns R then (J, C1) else (C1, J)) as [Jl Jr]. rewrite H by exact Hs. reflexivity.
Qed.
Print Assumptions C29_first_factor_refuted.
Theorem C29_nested_left_refuted : forall svd a b c s I J, b_Op (tensor2 svd (tensor2 svd a b) c) s I J = None /\ forall states, b_index (tensor2 svd (tensor2 svd a b) c) states = None.
Proof.
  intros svd a b c s I J. split.
  - apply C29_first_factor_refuted. intros s' I' J' H. cbn [b_Op tensor2]. unfold tensor_Op. rewrite (proj2 (split_none s') H). destruct (negb _); reflexivity.
  - intros states. cbn [b_index tensor2]. destruct states as [|x [|y states]]; reflexivity.
Qed.
Print Assumptions C29_nested_left_refuted.

(* The h.c. of a string of a tensor basis is the adjoint of the product of the two parts, whenever the h.c. of either part is the adjoint in its
   factor (C16): dimL, dimR are the dimensions, a product has the entries a_ij b_kl. *)
Theorem C29_adjoint_string : forall opL opR hcL hcR dimL dimR l r J,
  (forall K, meq dimL (term_matrix opL (hcL (l, K))) (madj (term_matrix opL (l, K)))) ->
  (forall K, meq dimR (term_matrix opR (hcR (r, K))) (madj (term_matrix opR (r, K)))) ->
  let product t i k j m := (snd t * (op_matrix (opL (fst (fst t))) i j * op_matrix (opR (snd (fst t))) k m))%C in
  forall i j k m, N.to_nat i < dimL -> N.to_nat j < dimL -> N.to_nat k < dimR -> N.to_nat m < dimR ->
  product (tensor_hc hcL hcR (l, r, J)) i k j m = Cconj (product (l, r, J) j m i k).
Proof.
  intros opL opR hcL hcR dimL dimR l r J HL HR product i j k m Hi Hj Hk Hm. specialize (HL J i j). specialize (HR C1 k m).
  unfold product, tensor_hc. destruct (hcL (l, J)) as [a x], (hcR (r, C1)) as [b y]. cbn [fst snd] in *.
  unfold term_matrix, mscale, madj in HL, HR. cbn [fst snd] in *. rewrite !Cconj_mul in *.
  transitivity ((x * op_matrix (opL a) i j) * (y * op_matrix (opR b) k m))%C; [ring|]. rewrite HL, HR by lia. rewrite Cconj_C1. ring.
Qed.
Print Assumptions C29_adjoint_string.

(* _sort_opstr of a tensor basis forgets the sign of the reordering of fermions: c1^+ c0 - c0^+ c1 (times anything on the other
   factor) passes check_hermitian, and is anti-Hermitian; c1^+ c0 + c0^+ c1, which is Hermitian, is rejected *)
Definition hopping (a : C) : list (opl * opl * C) := [([("+", 1); ("-", 0)]%char, [], C1); ([("+", 0); ("-", 1)]%char, [], a)].
Definition left_terms (l : list (opl * opl * C)) : list term := map (fun t => (fst (fst t), snd t)) l.
Lemma Czero_C1 : Czero C1 = false.
Proof. destruct (Czero C1) eqn:E; [|reflexivity]. apply Czero_spec in E. apply (f_equal fst) in E. cbn in E. lra. Qed.
Lemma Czero_C0 : Czero C0 = true. Proof. apply Czero_spec. reflexivity. Qed.
Lemma hop_entry : op_matrix (fermion_op 4 2 [("+", 1); ("-", 0)]%char) 1%N 2%N = C1 /\ op_matrix (fermion_op 4 2 [("+", 0); ("-", 1)]%char) 2%N 1%N = C1 /\
  op_matrix (fermion_op 4 2 [("+", 1); ("-", 0)]%char) 2%N 1%N = C0 /\ op_matrix (fermion_op 4 2 [("+", 0); ("-", 1)]%char) 1%N 2%N = C0.
Proof.
  assert (E1 : fermion_local 4 2 "-" 0 2 = Some (0%N, C1)) by reflexivity. assert (E2 : fermion_local 4 2 "+" 1 0 = Some (1%N, C1)) by reflexivity.
  assert (E3 : fermion_local 4 2 "-" 1 1 = Some (0%N, C1)) by reflexivity. assert (E4 : fermion_local 4 2 "+" 0 0 = Some (2%N, C1)) by reflexivity.
  assert (E5 : fermion_local 4 2 "-" 0 1 = Some (3%N, C0)) by reflexivity. assert (E6 : fermion_local 4 2 "-" 1 2 = Some (3%N, C0)) by reflexivity.
  assert (M1 : (C1 * C1)%C = C1) by ring. assert (M0 : (C1 * C0)%C = C0) by ring.
  unfold op_matrix, fermion_op. cbn [rev app op_loop].
  rewrite E1, E3, E5, E6, !M1, !M0, !Czero_C1, !Czero_C0, E2, E4, !M1, !Czero_C1. cbn. auto.
Qed.
Lemma opl_term (t u : opl * opl * C) : fst t = fst u -> snd t = snd u -> t = u. Proof. destruct t, u. cbn. intros -> ->. reflexivity. Qed.
Theorem C29_fermion_sign_refuted :
  let check := tensor_check_hermitian (tensor_sort fermion_sort sort_opstr) (tensor_hc fermion_hc hc_opstr) in
  let H a := terms_matrix (fermion_op 4 2) (left_terms (hopping a)) in
  (check (hopping (Copp C1)) /\ ~ meq 4 (madj (H (Copp C1))) (H (Copp C1))) /\ (~ check (hopping C1) /\ meq 4 (madj (H C1)) (H C1)).
Proof.
  intros check H.
  assert (S1 : tensor_sort fermion_sort sort_opstr ([("+", 1); ("-", 0)]%char, [], C1) = ([("-", 0); ("+", 1)]%char, [], C1)) by reflexivity.
  assert (S2 : forall a, tensor_sort fermion_sort sort_opstr ([("+", 0); ("-", 1)]%char, [], a) = ([("+", 0); ("-", 1)]%char, [], a)) by reflexivity.
  assert (H1 : tensor_hc fermion_hc hc_opstr ([("-", 0); ("+", 1)]%char, [], C1) = ([("+", 0); ("-", 1)]%char, [], Copp C1)) by (apply opl_term; [reflexivity|apply C_eq; cbn; ring]).
  assert (H2 : forall a, tensor_hc fermion_hc hc_opstr ([("+", 0); ("-", 1)]%char, [], a) = ([("-", 0); ("+", 1)]%char, [], Copp (Cconj a))) by (intros a; apply opl_term; [reflexivity|apply C_eq; cbn; ring]).
  assert (E1 : Copp (Cconj (Copp C1)) = C1) by (apply C_eq; cbn; ring).
  destruct hop_entry as (M1 & M2 & M3 & M4). split; split.
  - unfold check, tensor_check_hermitian, hopping. cbn [map]. rewrite S1, S2, H1, H2, E1. intros t [<-|[<-|[]]]; cbn [In]; auto.
  - intros X. specialize (X 2%N 1%N ltac:(cbn; lia) ltac:(cbn; lia)). unfold H, left_terms, hopping, madj, terms_matrix, term_matrix, madd, mscale, mzero in X. cbn [map fold_right fst snd] in X.
    rewrite M1, M2, M3, M4 in X. apply (f_equal fst) in X. cbn in X. lra.
  - unfold check, tensor_check_hermitian, hopping. cbn [map]. rewrite S1, S2, H1, H2. intros X. specialize (X _ (or_introl eq_refl)).
    cbn [In] in X. destruct X as [X|[X|[]]]; [discriminate|]. injection X as X. lra.
  - assert (G := fermion_good 4 2 ltac:(cbn; lia) ltac:(lia)). change (N.to_nat (2 ^ N.of_nat 2)) with 4 in G.
    assert (Q : forall i j, i < 2 -> j < 2 -> meq 4 (op_matrix (fermion_op 4 2 (hc_list [("+", i); ("-", j)]%char))) (madj (op_matrix (fermion_op 4 2 [("+", i); ("-", j)]%char)))).
    { intros i j Hi Hj. apply (go_hc _ _ _ _ _ G). constructor; [|constructor; [|constructor]]; (split; [unfold P_fermion.fermion_known; cbn; tauto|assumption]). }
    intros r c Hr Hc. unfold H, left_terms, hopping, madj, terms_matrix, term_matrix, madd, mscale, mzero. cbn [map fold_right fst snd].
    rewrite !Cconj_add, !Cconj_mul, Cconj_C1.
    pose proof (Q 1 0 ltac:(lia) ltac:(lia) r c Hr Hc) as Q1. pose proof (Q 0 1 ltac:(lia) ltac:(lia) r c Hr Hc) as Q2. unfold madj in Q1, Q2. cbn [hc_list map rev app fst snd swap_pm] in Q1, Q2.
    change (swap_pm "+") with "-"%char in *. change (swap_pm "-") with "+"%char in *. rewrite <- Q1, <- Q2. apply C_eq; cbn; ring.
Qed.
Print Assumptions C29_fermion_sign_refuted.

Lemma op_loop_total local s rl : Forall (fun oi => forall r, exists x, local (fst oi) (snd oi) r = Some x) rl -> forall r m, exists x, op_loop local s rl r m = Some x.
Proof.
  induction rl as [|[o i] rl IH]; intros H r m; [eexists; reflexivity|]. inversion H as [|? ? H1 H2]. subst. cbn [op_loop]. destruct (H1 r) as ([r' f] & E). cbn [fst snd] in E. rewrite E.
  cbv zeta. destruct (Czero _); [eexists; reflexivity|]. apply IH. exact H2.
Qed.
Lemma existsb_false {X} (f : X -> bool) l : existsb f l = false <-> forall x, In x l -> f x = false.
Proof.
  induction l as [|x l IH]; cbn [existsb In]; [split; [intros _ ? []|reflexivity]|]. rewrite Bool.orb_false_iff, IH. split; [intros [? ?] y [<-|Hy]; auto|intros H; split; [apply H; auto|intros y Hy; apply H; auto]].
Qed.
Lemma all_some_total {X} (l : list (option X)) : Forall (fun x => exists y, x = Some y) l -> exists r, all_some l = Some r.
Proof. induction 1 as [|x l (y & ->) H (r & IH)]; [eexists; reflexivity|]. cbn [all_some]. rewrite IH. eexists. reflexivity. Qed.
(* a correct decomposition exists, and three spin-1/2 factors of 1, 2 and 1 sites meet the hypotheses *)
Definition trivial_svd (m n : nat) (A : nat -> nat -> C) : svd_result :=
  if m <=? n then (identity, fun _ => 1%R, A) else (A, fun _ => 1%R, identity).
Definition spin_factor (n : nat) (bas : list (N * Z)) : basis :=
  lattice_factor (Op false (false, fun r => Some (index_full (Z.of_nat (length bas)) r, [], 1%Z)) bas [] [] 0 n ["z"; "+"; "-"]%char (fun _ => 1%R) (hcb_op n)) (length bas)
    (fun states => match states with [_] => Some 0 | _ => None end) (length bas) identity (fun v => v).
Definition site1 := spin_factor 1 [(1%N, 1%Z); (0%N, 1%Z)].
Definition site2 := spin_factor 2 [(3%N, 1%Z); (2%N, 1%Z); (1%N, 1%Z); (0%N, 1%Z)].
Example C29_hyps : svd_ok trivial_svd /\ (good_Op site1 /\ good_Op site2) /\ (good_project site1 /\ good_index site1 /\ isometry (b_full site1) (b_Ns site1) (b_proj site1)) /\
  exists b l1 l2, tensor_basis trivial_svd [site1; site2; site1] = Some b /\ b_Ns b = 16 /\
    let ps := [{| p_basis := site1; p_op := ["z"%char]; p_sites := [0]; p_elements := l1 |}; {| p_basis := site2; p_op := ["+"; "-"]%char; p_sites := [0; 1]; p_elements := l2 |};
               {| p_basis := site1; p_op := ["z"%char]; p_sites := [0]; p_elements := l1 |}] in Forall piece_ok ps /\ no_bars ps.
Proof.
  assert (G : forall n bas, bas <> [] -> good_Op (spin_factor n bas)).
  { intros n bas Hne. apply lattice_good; [|intros l; apply hcb_scales|exact Hne]. intros r j g sg E. cbn [snd] in E. injection E as <- _ _. unfold index_full. destruct bas; [congruence|]. cbn [length]. lia. }
  split; [|split; [|split]].
  - intros m n A. unfold trivial_svd. destruct (Nat.leb_spec m n) as [Hmn|Hmn]; intros i j Hi Hj.
    + rewrite Nat.min_l by lia. rewrite (Csum_single _ _ i (seq_NoDup _ _)); [unfold identity; rewrite Nat.eqb_refl; apply C_eq; cbn; ring|apply in_seq; lia|].
      intros x _ Hx. unfold identity. rewrite (proj2 (Nat.eqb_neq i x)) by congruence. ring.
    + rewrite Nat.min_r by lia. rewrite (Csum_single _ _ j (seq_NoDup _ _)); [unfold identity; rewrite Nat.eqb_refl; apply C_eq; cbn; ring|apply in_seq; lia|].
      intros x _ Hx. unfold identity. rewrite (proj2 (Nat.eqb_neq x j)) by congruence. ring.
  - split; apply G; discriminate.
  - split; [|split].
    + split; [cbn; lia|]. split; [cbn; lia|]. intros v i Hi. cbn in Hi |- *. destruct i as [|[|i]]; [| |lia]; cbn; ring.
    + intros states i. cbn. destruct states as [|s [|s' states]]; try discriminate. intros E. injection E as <-. split; [reflexivity|lia].
    + intros j k Hj Hk. cbn in Hj, Hk |- *. destruct j as [|[|j]], k as [|[|k]]; try lia; apply C_eq; cbn; ring.
  - assert (T : forall n bas s I, length s = length I -> Forall (fun oi => snd oi < n /\ In (fst oi) ["z"; "+"; "-"]%char) (combine s I) -> exists l, b_Op (spin_factor n bas) s I C1 = Some l).
    { intros n bas s I HL H. unfold spin_factor, lattice_factor. cbn [b_Op]. rewrite HL, Nat.eqb_refl. unfold Op.
      rewrite (proj2 (existsb_false _ _)), (proj2 (existsb_false _ _)).
      - destruct bas as [|x bas]; [eexists; reflexivity|].
        match goal with |- context [general_op_core ?a ?b ?c ?d ?e ?f ?g ?h] => destruct (all_some_total (map (op_cell a b c d e f g h) (seq 0 (length c)))) as (r & E) end.
        + apply Forall_map, Forall_forall. intros i _. unfold op_cell, matrix_element. cbn [snd fst].
          destruct (op_loop_total (hcb_local n) (fst (nth i (x :: bas) (0%N, 0%Z))) (rev (combine s I))) with (r := fst (nth i (x :: bas) (0%N, 0%Z))) (m := C1) as ([r m] & E).
          { apply Forall_rev. eapply Forall_impl; [|exact H]. intros [o k] (_ & Ho) r. cbn [fst snd In] in *. destruct Ho as [<-|[<-|[<-|[]]]]; eexists; reflexivity. }
          unfold hcb_op. rewrite E. cbn [fst snd]. destruct (r =? _)%N; [eexists; reflexivity|]. destruct (_ <? 0)%Z; eexists; reflexivity.
        + unfold general_op_core. rewrite E. eexists. reflexivity.
      - intros oi Hoi. rewrite Forall_forall in H. apply H in Hoi. destruct Hoi as (_ & Ho). cbn [In] in Ho. destruct Ho as [<-|[<-|[<-|[]]]]; reflexivity.
      - intros oi Hoi. rewrite Forall_forall in H. apply H in Hoi. apply Nat.leb_gt. lia. }
    destruct (T 1 [(1%N, 1%Z); (0%N, 1%Z)] ["z"%char] [0]) as (l1 & E1); [reflexivity|repeat constructor|].
    destruct (T 2 [(3%N, 1%Z); (2%N, 1%Z); (1%N, 1%Z); (0%N, 1%Z)] ["+"; "-"]%char [0; 1]) as (l2 & E2); [reflexivity| |].
    { cbn [combine]. constructor; [|constructor; [|constructor]]; (split; [cbn; lia|cbn; tauto]). }
    eexists. exists l1, l2. split; [reflexivity|]. split; [reflexivity|]. intros ps.
    split; [|repeat constructor]. repeat constructor; try (apply G; discriminate); assumption.
Qed.
