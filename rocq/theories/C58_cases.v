(* C58: calls of block_ops that fail, blocks that are counted twice, and an instance. *)
From Verif Require Import AuxN SpecC SpecExpm SpecLanczos SpecExpect SpecFloquet SpecBlock M_symop P_floquet M_block P_block C58_block C58_expm.
Local Open Scope nat_scope.

(* expm without a part of the state in the blocks *)
Theorem C58_expm_no_projection : forall ext o n psi0 te jobs bd a shift, reachable ext o -> used ext n psi0 o = [] ->
  fst (expm ext o n psi0 te false jobs bd a None None None None shift) = Raises RuntimeErr.
Proof.
  intros ext o n psi0 te jobs bd a shift HR HU. apply reachable_good in HR.
  destruct (collect_good ext n psi0 o HR) as (_ & _ & K1 & K2).
  destruct K2 as [l Hl]; [rewrite HU; intros b []|]. assert (E := K1 l Hl). subst l.
  unfold expm. cbn [grid]. destruct (collect ext n psi0 o) as [r o']. cbn [fst] in Hl. subst r. rewrite HU. cbn [map regroup length negb Nat.eqb].
  destruct bd; reflexivity.
Qed.
Print Assumptions C58_expm_no_projection.

(* evolve with block_diag=True never returns a state: block_diag_hamiltonian, which only takes block dictionaries, is called
   with Hamiltonians and raises ValueError (the next line would use the undefined name psi_list_prime). *)
Theorem C58_block_diag_refuted : forall ext o n psi0 t0 ts ws, fst (evolve ext o n psi0 t0 ts true) <> Returns ws.
Proof.
  intros ext o n psi0 t0 ts ws. unfold evolve. destruct (collect ext n psi0 o) as [[x|l] o']; [discriminate|].
  destruct l; discriminate.
Qed.
Print Assumptions C58_block_diag_refuted.

(* expm with block_diag=True and more jobs than blocks with a part of the state raises ValueError: some of the groups of
   blocks are empty. *)
Theorem C58_jobs_refuted : forall ext o n H psi0 te jobs a shift, reachable ext o -> right_blocks ext o n H ->
  used ext n psi0 o <> [] -> length (used ext n psi0 o) <= jobs ->
  fst (expm ext o n psi0 te false jobs true a None None None None shift) = Raises ValueErr.
Proof.
  intros ext o n H psi0 te jobs a shift HR HB HN HJ. apply reachable_good in HR.
  destruct (collect_good ext n psi0 o HR) as (_ & _ & K1 & K2).
  destruct K2 as [l Hl]. { intros b Hb. destruct (used_In _ _ _ _ _ Hb) as [k Hk]. apply (HB k b Hk). }
  assert (E := K1 l Hl). subst l.
  unfold expm. cbn [grid]. destruct (collect ext n psi0 o) as [r o']. cbn [fst] in Hl. subst r. unfold regroup.
  assert (HL : 0 < length (used ext n psi0 o)) by (destruct (used ext n psi0 o); [congruence|cbn; lia]).
  rewrite !map_length. destruct (Nat.eqb_spec (length (used ext n psi0 o)) 0); [lia|]. cbn [andb negb].
  rewrite groups_empty by (rewrite !map_length; lia). reflexivity.
Qed.
Print Assumptions C58_jobs_refuted.

(* update_blocks does not add the basis_kwargs of the constructor: the same block gets another basis. *)
Theorem C58_kwargs_refuted : forall ext b kwargs, 0 < Ns ext (basis_con ext b) -> 0 < Ns ext (basis_con ext (update b kwargs)) ->
  exists o o1 o2, construct ext [] kwargs true false = Returns o /\ update_blocks ext o [b] false = Returns o1 /\
    construct ext [b] kwargs true false = Returns o2 /\
    basis_dict ext o1 = [(b, basis_con ext b)] /\ basis_dict ext o2 = [(update b kwargs, basis_con ext (update b kwargs))].
Proof.
  intros ext b kwargs H1 H2. do 3 eexists. split; [reflexivity|]. split; [reflexivity|]. split; [reflexivity|]. cbn [basis_dict fold_left].
  unfold update_block, add_block. cbn [lookup find]. destruct (Nat.ltb_spec 0 (Ns ext (basis_con ext b))); [|lia].
  destruct (Nat.ltb_spec 0 (Ns ext (basis_con ext (update b kwargs)))); [|lia]. split; reflexivity.
Qed.
Print Assumptions C58_kwargs_refuted.

(* --- instance: three levels with H = diag(1, 2, 3), blocks {0, 1} and {2}; the solvers are right for diagonal matrices --- *)
Definition cexp (t : R) (z : C) : C := (RtoC (exp (t * fst z)) * cis (t * snd z))%C.
Lemma cexp_derivative z t : has_derivative (fun s => cexp s z) t (z * cexp t z)%C.
Proof.
  assert (L : forall c, derivable_pt_lim (fun s => s * c)%R t c).
  { intro c. pose proof (derivable_pt_lim_mult id (fun _ => c) t 1 0 (derivable_pt_lim_id t) (derivable_pt_lim_const c t)) as P.
    cbv beta in P. replace (1 * c + id t * 0)%R with c in P by (unfold id; ring). exact P. }
  assert (E : has_derivative (fun s => RtoC (exp (s * fst z))) t (RtoC (exp (t * fst z) * fst z))).
  { split; cbn [RtoC fst snd]; [|apply derivable_pt_lim_const].
    exact (derivable_pt_lim_comp (fun s => s * fst z)%R exp t (fst z) (exp (t * fst z)) (L _) (derivable_pt_lim_exp _)). }
  assert (S : has_derivative (fun s => cis (s * snd z)) t (- sin (t * snd z) * snd z, cos (t * snd z) * snd z)%R).
  { split; cbn [cis fst snd].
    - exact (derivable_pt_lim_comp (fun s => s * snd z)%R cos t (snd z) _ (L _) (derivable_pt_lim_cos _)).
    - exact (derivable_pt_lim_comp (fun s => s * snd z)%R sin t (snd z) _ (L _) (derivable_pt_lim_sin _)). }
  eapply hd_val; [|exact (hd_mul _ _ _ _ _ E S)]. unfold cexp. apply C_eq; cbn; ring.
Qed.
Definition diagonal (m : nat) (M : mat) : Prop := forall i j, i < m -> j < m -> i <> j -> M i j = C0.
Definition diag_exp (m : nat) (M : mat) (t : R) (v : list C) : list C := map (fun i => cexp t (M i i) * nth i v C0)%C (seq 0 m).
Lemma diag_exp_nth m M t v i : i < m -> vf (diag_exp m M t v) i = (cexp t (M i i) * nth i v C0)%C.
Proof. intro H. unfold vf, diag_exp. rewrite (nth_map _ _ i C0 0) by (rewrite seq_length; exact H). now rewrite seq_nth by exact H. Qed.
Lemma apply_diag m M v k : diagonal m M -> k < m -> apply m M v k = (M k k * v k)%C.
Proof.
  intros HD Hk. unfold apply. rewrite (Csum_single _ _ k); [reflexivity|apply seq_NoDup|apply in_seq; lia|].
  intros x Hx Hne. apply in_seq in Hx. rewrite HD by lia. ring.
Qed.
Lemma cexp_0 z : cexp 0 z = C1.
Proof. unfold cexp. rewrite !Rmult_0_l, exp_0, cis_0. apply C_eq; cbn; ring. Qed.
Lemma diag_right m M t0 t v : diagonal m M -> flows m (fun _ => M) t0 t (vf v) (vf (diag_exp m M (t - t0) v)).
Proof.
  intro HD. exists (fun s i => cexp (s - t0) (M i i) * vf v i)%C. split; [|split].
  - intros s k Hk. rewrite apply_diag by assumption.
    assert (D : has_derivative (fun u => cexp (u - t0) (M k k)) s (M k k * cexp (s - t0) (M k k))%C).
    { destruct (cexp_derivative (M k k) (s - t0)) as [D1 D2].
      assert (L : derivable_pt_lim (fun u => u - t0)%R s 1%R).
      { pose proof (derivable_pt_lim_minus id (fun _ => t0) s 1 0 (derivable_pt_lim_id s) (derivable_pt_lim_const t0 s)) as P. rewrite Rminus_0_r in P. exact P. }
      split.
      - pose proof (derivable_pt_lim_comp (fun u => u - t0)%R (fun u => fst (cexp u (M k k))) s 1 _ L D1) as P. rewrite Rmult_1_r in P. exact P.
      - pose proof (derivable_pt_lim_comp (fun u => u - t0)%R (fun u => snd (cexp u (M k k))) s 1 _ L D2) as P. rewrite Rmult_1_r in P. exact P. }
    eapply hd_val; [|exact (hd_mul _ _ _ _ _ D (hd_const (vf v k) s))]. cbv beta. ring.
  - intros k Hk. unfold Rminus. rewrite Rplus_opp_r. rewrite cexp_0. ring.
  - intros k Hk. now rewrite diag_exp_nth by exact Hk.
Qed.

Definition energy (i : nat) : C := RtoC (INR (S i)).
Definition level (i : nat) : vec := fun k => delta i k.
(* a block with the label 0 = 0: levels 0 and 1; otherwise: level 2; the order of the labels does not matter *)
Definition lower (b : blk) : bool := existsb (fun e => (fst e =? 0) && (snd e =? 0)%Z)%bool b.
Definition levels (b : bool) : list nat := if b then [0; 1] else [2].
Definition three : external :=
  {| basis := bool; basis_con := lower; Ns := fun b => length (levels b); get_proj := fun b => map level (levels b); checks_pass := fun _ => true;
     hamil := fun b _ i j => if i =? j then energy (nth i (levels b) 0) else C0;
     solve := fun m H v t0 ts => map (fun t => diag_exp m (schroedinger H t0) (t - t0) v) ts;
     expm_multiply := fun m M v => diag_exp m M 1 v;
     expm_grid := fun m M v a b num ep => map (fun k => diag_exp m M (time a b num ep k) v) (seq 0 num);
     tol := 0%R; old_scipy := false |}.
Definition H3 : R -> mat := fun _ i j => if i =? j then energy i else C0.
Definition low : blk := [(0, 0%Z); (1, 1%Z)].
Definition high : blk := [(0, 1%Z); (1, 1%Z)].
Definition three_obj : block_ops three := {| basis_dict := [(low, true); (high, false)] : list (blk * basis three); H_dict := []; P_dict := []; checked := false; save := true |}.
Example three_reachable : reachable three three_obj.
Proof. apply (r_new three [low; high] [] true false). reflexivity. Qed.
Lemma three_blocks o : right_blocks three o 3 H3.
Proof.
  intros key b _. split; [destruct b; reflexivity|]. split; [reflexivity|]. intros t k j Hk Hj.
  destruct b; cbn [three get_proj levels map length hamil] in *.
  - destruct j as [|[|j]]; [| |lia]; destruct k as [|[|[|k]]]; try lia; apply C_eq; cbn; ring.
  - destruct j as [|j]; [|lia]; destruct k as [|[|[|k]]]; try lia; apply C_eq; cbn; ring.
Qed.
Lemma three_solver o t0 ts : right_solver three o t0 ts.
Proof.
  intros key b v k _ HL Hk. cbn [three solve hamil Ns basis] in *. cbv zeta. rewrite (nth_map _ _ k [] 0%R) by exact Hk. split.
  - unfold diag_exp. now rewrite map_length, seq_length.
  - apply (diag_right (length (levels b)) (schroedinger (hamil three b) 0%R)). intros i j _ _ Hne. unfold schroedinger. cbn.
    destruct (Nat.eqb_spec i j); [congruence|ring].
Qed.
Lemma given_diagonal o psi0 te a sh M : given three o 3 psi0 te a sh M -> diagonal (fst M) (snd M).
Proof.
  induction 1 as [key b Hb| |x y _ IHx _ IHy|c x _ IH]; intros i j Hi Hj Hne.
  - cbn. destruct (Nat.eqb_spec i j); [congruence|]. destruct sh; [unfold delta; destruct (Nat.eqb_spec i j); [congruence|]|]; ring.
  - reflexivity.
  - cbn [block_diag2 fst snd] in *. destruct (Nat.ltb_spec i (fst x)), (Nat.ltb_spec j (fst x)); try reflexivity; [apply IHx|apply IHy]; lia.
  - cbn [fst snd] in *. unfold scale. rewrite IH by assumption. ring.
Qed.
Lemma three_expm o psi0 te a sh M : given three o 3 psi0 te a sh M -> right_expm1 three M /\ right_grid1 three M.
Proof.
  intro HG. apply given_diagonal in HG. split.
  - intros v HL. cbn [three expm_multiply]. split; [unfold diag_exp; now rewrite map_length, seq_length|].
    pose proof (diag_right (fst M) (snd M) 0 1 v HG) as X. rewrite Rminus_0_r in X. exact X.
  - intros v a0 b0 num ep k HL Hk. cbn [three expm_grid]. cbv zeta. rewrite (nth_map _ _ k [] 0) by (rewrite seq_length; exact Hk). rewrite seq_nth by exact Hk. cbn [Nat.add].
    split; [unfold diag_exp; now rewrite map_length, seq_length|].
    pose proof (diag_right (fst M) (snd M) 0 (time a0 b0 num ep k) v HG) as X. rewrite Rminus_0_r in X. exact X.
Qed.
(* the state (1, 1, 1) has a part in both blocks *)
Definition ones : vec := fun _ => C1.
Example three_used : used three 3 ones three_obj = [true; false].
Proof.
  unfold used. cbn [three_obj basis_dict map snd filter].
  assert (P : forall b, projects three 3 ones b = true).
  { intro b. unfold projects. destruct (Rlt_dec _ _) as [|Hn]; [reflexivity|]. exfalso. apply Hn. cbn [tol three].
    unfold norm_l. apply sqrt_lt_R0. destruct b; cbn; unfold Rsum; cbn; lra. }
  now rewrite !P.
Qed.
(* so C58_evolve and C58_expm_partial (two jobs, block_diag=True) apply to the three levels *)
Example three_evolves : exists ws, fst (evolve three three_obj 3 ones 0 [1%R; 2%R] false) = Returns ws /\
  flows 3 (schroedinger H3) 0 2 (used_part three three_obj 3 ones) (nth 1 ws z0).
Proof.
  destruct (C58_evolve three three_obj 3 H3 ones 0 [1%R; 2%R] three_reachable (three_blocks three_obj) (three_solver three_obj _ _)) as [[HU _]|(_ & ws & H1 & _ & H2)].
  - rewrite three_used in HU. discriminate.
  - exists ws. split; [exact H1|]. exact (H2 1 ltac:(cbn; lia)).
Qed.
Example three_expm_two_jobs : exists w, fst (expm three three_obj 3 ones 0 false 1 true (- Ci) None None None None None) = Returns [w] /\
  exponential 3 (affine (- Ci) C0 (H3 0)) 1 (used_part three three_obj 3 ones) w.
Proof.
  apply (C58_expm_partial three three_obj 3 H3 ones 0 false 1 true (- Ci)%C None three_reachable (three_blocks three_obj) (three_expm three_obj ones 0 (- Ci)%C None)).
  - rewrite three_used. discriminate.
  - rewrite three_used. cbn. lia.
Qed.

(* The keys of the dictionary of blocks are the printed dictionaries of labels, which show the order of insertion: a block
   that is passed to update_blocks with its labels in another order is stored a second time, and then the part of the state
   in this block is counted twice.  Here the norm of the evolved state is twice that of the initial state. *)
Theorem C58_double_refuted :
  exists ext o o' n H psi0 ts blk1 blk2,
    (forall b b', Permutation b b' -> basis_con ext b = basis_con ext b') /\ Permutation blk1 blk2 /\
    construct ext [blk1] [] true false = Returns o /\ update_blocks ext o [blk2] false = Returns o' /\
    right_blocks ext o' n H /\ right_solver ext o' 0 ts /\
    (exists ws, fst (evolve ext o n psi0 0 ts false) = Returns ws /\ forall k, k < n -> nth 0 ws z0 k = psi0 k) /\
    (exists ws, fst (evolve ext o' n psi0 0 ts false) = Returns ws /\ (forall k, k < n -> nth 0 ws z0 k = (RtoC 2 * psi0 k)%C) /\ exists k, k < n /\ psi0 k <> C0).
Proof.
  set (o := {| basis_dict := [(high, false)] : list (blk * basis three); H_dict := []; P_dict := []; checked := false; save := true |}).
  set (o' := {| basis_dict := [(high, false); (rev high, false)] : list (blk * basis three); H_dict := []; P_dict := []; checked := false; save := true |}).
  exists three, o, o', 3, H3, (level 2), [0%R], high, (rev high).
  assert (TB : forall oo, right_blocks three oo 3 H3) by (intro oo; apply three_blocks).
  assert (PR : projects three 3 (level 2) false = true).
  { unfold projects. destruct (Rlt_dec _ _) as [|Hn]; [reflexivity|]. exfalso. apply Hn. cbn [tol three]. unfold norm_l. apply sqrt_lt_R0. cbn. unfold Rsum; cbn. lra. }
  assert (R1 : reachable three o) by (apply (r_new three [high] [] true false); reflexivity).
  assert (R2 : reachable three o') by (apply (r_update three o [rev high] false); [exact R1|reflexivity]).
  assert (PT : forall k, k < 3 -> part 3 (get_proj three false) (level 2) k = level 2 k).
  { intros k Hk. destruct k as [|[|[|k]]]; try lia; apply C_eq; cbn; ring. }
  assert (F0 : forall u w, flows 3 (schroedinger H3) 0 0 u w -> forall k, k < 3 -> w k = u k).
  { intros u w (psi & _ & A & B) k Hk. now rewrite <- A, <- B by exact Hk. }
  split; [|split; [|split; [reflexivity|split; [reflexivity|split; [apply TB|split; [apply three_solver|split]]]]]].
  - intros b b' HP. cbn [basis_con three]. unfold lower. apply eq_true_iff_eq. rewrite !existsb_exists.
    split; intros (e & He & Ht); exists e; (split; [|exact Ht]); [exact (Permutation_in _ HP He)|exact (Permutation_in _ (Permutation_sym HP) He)].
  - apply Permutation_rev.
  - destruct (C58_evolve three o 3 H3 (level 2) 0 [0%R] R1 (TB o) (three_solver o _ _)) as [[HU _]|(_ & ws & W1 & _ & W2)].
    + unfold used in HU. cbn [o basis_dict map snd filter] in HU. rewrite PR in HU. discriminate.
    + exists ws. split; [exact W1|]. intros k Hk. rewrite (F0 _ _ (W2 0 ltac:(cbn; lia)) k Hk).
      unfold used_part, used, sum_vec. cbn [o basis_dict map snd filter]. rewrite PR. rewrite Csum_cons, Csum_nil, PT by exact Hk. ring.
  - destruct (C58_evolve three o' 3 H3 (level 2) 0 [0%R] R2 (TB o') (three_solver o' _ _)) as [[HU _]|(_ & ws & W1 & _ & W2)].
    + unfold used in HU. cbn [o' basis_dict map snd filter] in HU. rewrite PR in HU. discriminate.
    + exists ws. split; [exact W1|]. split.
      * intros k Hk. rewrite (F0 _ _ (W2 0 ltac:(cbn; lia)) k Hk).
        unfold used_part, used, sum_vec. cbn [o' basis_dict map snd filter]. rewrite PR. rewrite !Csum_cons, Csum_nil, PT by exact Hk. apply C_eq; cbn; ring.
      * exists 2. split; [lia|]. intro E. apply (f_equal fst) in E. cbn in E. lra.
Qed.
Print Assumptions C58_double_refuted.
