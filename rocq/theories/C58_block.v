(* C58: evolution in symmetry blocks (class block_ops). *)
From Verif Require Import AuxN SpecC SpecExpm SpecLanczos SpecExpect SpecFloquet SpecBlock M_symop P_floquet M_block P_block.
Local Open Scope nat_scope.

(* --- saved matrices: an object holds what the constructors of bases, projectors and Hamiltonians return for its keys --- *)
Section Ext.
Variable ext : external.
Notation bo := (block_ops ext).
Definition good (o : bo) : Prop :=
  (forall k b, In (k, b) (basis_dict ext o) -> b = basis_con ext k /\ 0 < Ns ext b) /\
  (forall k p, In (k, p) (P_dict ext o) -> p = get_proj ext (basis_con ext k)) /\
  (forall k H, In (k, H) (H_dict ext o) -> H = hamil ext (basis_con ext k)).

Lemma blk_eq_true x y : blk_eq x y = true -> x = y.
Proof. unfold blk_eq. destruct (list_eq_dec _ x y); [auto|discriminate]. Qed.
Lemma lookup_In {X} k (d : list (blk * X)) x : lookup k d = Some x -> In (k, x) d.
Proof.
  unfold lookup. destruct (find _ d) as [[k' x']|] eqn:E; [|discriminate]. intro H. injection H as <-.
  apply find_some in E. destruct E as [Hi He]. apply blk_eq_true in He. cbn in He. now subst k'.
Qed.
Lemma store_In {X} k (x : X) d k' x' : In (k', x') (store k x d) -> (k' = k /\ x' = x) \/ In (k', x') d.
Proof.
  unfold store. destruct (lookup k d).
  - intro H. apply in_map_iff in H. destruct H as ([a b] & E & Hi). cbn [fst] in E. destruct (blk_eq a k) eqn:EB; injection E as <- <-; auto.
  - intro H. apply in_app_or in H. destruct H as [H|[E|[]]]; [auto|]. injection E as <- <-. auto.
Qed.
Lemma make_H_right o b H : make_H ext o b = Returns H -> H = hamil ext b.
Proof. unfold make_H. destruct (checked ext o); [|destruct (checks_pass ext b)]; intro E; congruence. Qed.
Lemma get_P_good o k b : good o -> In (k, b) (basis_dict ext o) -> fst (get_P ext o k b) = get_proj ext b /\ good (snd (get_P ext o k b)) /\
  basis_dict ext (snd (get_P ext o k b)) = basis_dict ext o.
Proof.
  intros G Hi. assert (G' := G). destruct G' as (G1 & G2 & G3). destruct (G1 k b Hi) as [Hb _]. unfold get_P. destruct (lookup k (P_dict ext o)) as [p|] eqn:E; cbn.
  - apply lookup_In in E. rewrite (G2 k p E), Hb. auto.
  - split; [reflexivity|]. split; [|reflexivity]. split; [exact G1|]. split; [|exact G3]. cbn. intros k' p' Hp.
    destruct (save ext o); [|auto]. apply store_In in Hp. destruct Hp as [[-> ->]|Hp]; [now rewrite Hb|auto].
Qed.
Lemma get_H_good o k b : good o -> In (k, b) (basis_dict ext o) ->
  (forall H, fst (get_H ext o k b) = Returns H -> H = hamil ext b) /\ good (snd (get_H ext o k b)) /\
  basis_dict ext (snd (get_H ext o k b)) = basis_dict ext o /\ (checks_pass ext b = true -> exists H, fst (get_H ext o k b) = Returns H).
Proof.
  intros G Hi. assert (G' := G). destruct G' as (G1 & G2 & G3). destruct (G1 k b Hi) as [Hb _]. unfold get_H. destruct (lookup k (H_dict ext o)) as [H|] eqn:E.
  - cbn. apply lookup_In in E. rewrite (G3 k H E), Hb. split; [intros ? HE; congruence|]. split; [exact G|]. split; [reflexivity|eauto].
  - destruct (make_H ext o b) as [x|H] eqn:EM; cbn.
    + split; [discriminate|]. split; [exact G|]. split; [reflexivity|]. intro HC. unfold make_H in EM. rewrite HC in EM. destruct (checked ext o); discriminate.
    + apply make_H_right in EM. subst H. split; [congruence|]. split; [|split; [reflexivity|eauto]]. split; [exact G1|]. split; [exact G2|].
      cbn. intros k' H' Hp. destruct (save ext o); [|auto]. apply store_In in Hp. destruct Hp as [[-> ->]|Hp]; [now rewrite Hb|auto].
Qed.
Lemma compute_good : forall l o o', good o -> (forall k b, In (k, b) l -> In (k, b) (basis_dict ext o)) -> fold_left (compute_block ext) l (Returns o) = Returns o' ->
  good o' /\ basis_dict ext o' = basis_dict ext o.
Proof.
  assert (FR : forall l x, fold_left (compute_block ext) l (Raises x) = Raises x) by (induction l; intros; cbn; auto).
  induction l as [|[k b] l IH]; intros o o' G HL H; [cbn in H; injection H as <-; auto|].
  cbn [fold_left compute_block fst snd] in H.
  assert (Hi : In (k, b) (basis_dict ext o)) by (apply HL; now left). destruct (proj1 G k b Hi) as [Hb _].
  set (o1 := match lookup k (P_dict ext o) with Some _ => o | None => _ end) in H.
  assert (G1 : good o1 /\ basis_dict ext o1 = basis_dict ext o).
  { unfold o1. destruct (lookup k (P_dict ext o)); [auto|]. split; [|reflexivity]. destruct G as (A & B & D). split; [exact A|]. split; [|exact D].
    cbn. intros k' p' Hp. apply store_In in Hp. destruct Hp as [[-> ->]|Hp]; [now rewrite Hb|auto]. }
  destruct G1 as [G1 E1]. destruct (lookup k (H_dict ext o1)).
  - destruct (IH o1 o' G1) as [I1 I2]; [intros; rewrite E1; apply HL; now right|exact H|]. split; [exact I1|congruence].
  - destruct (make_H ext o1 b) as [x|M] eqn:EM; [rewrite FR in H; discriminate|]. apply make_H_right in EM. subst M.
    apply IH in H.
    + destruct H as [I1 I2]. split; [exact I1|]. rewrite I2. exact E1.
    + destruct G1 as (A & B & D). split; [exact A|]. split; [exact B|]. cbn. intros k' H' Hp. apply store_In in Hp. destruct Hp as [[-> ->]|Hp]; [now rewrite Hb|auto].
    + cbn. intros. rewrite E1. apply HL. now right.
Qed.

Variables (n : nat) (psi0 : vec).
(* the part of the state in block b is larger than the threshold *)
Definition projects (b : basis ext) : bool := if Rlt_dec (tol ext) (norm_l (map (fun c => inner n c psi0) (get_proj ext b))) then true else false.
Definition used (o : bo) : list (basis ext) := filter projects (map snd (basis_dict ext o)).
Definition mk (b : basis ext) : kept ext := {| key_basis := b; kP := get_proj ext b; kpsi := map (fun c => inner n c psi0) (get_proj ext b); kH := hamil ext b |}.
Lemma collect_good o : good o ->
  good (snd (collect ext n psi0 o)) /\ basis_dict ext (snd (collect ext n psi0 o)) = basis_dict ext o /\
  (forall l, fst (collect ext n psi0 o) = Returns l -> l = map mk (used o)) /\
  ((forall b, In b (used o) -> checks_pass ext b = true) -> exists l, fst (collect ext n psi0 o) = Returns l).
Proof.
  intro G. unfold collect, used.
  enough (HH : forall d o1 r, good o1 -> basis_dict ext o1 = basis_dict ext o -> (forall k b, In (k, b) d -> In (k, b) (basis_dict ext o)) ->
    let s := fold_left (collect1 ext n psi0) d (r, o1) in
    good (snd s) /\ basis_dict ext (snd s) = basis_dict ext o /\
    (forall l, fst s = Returns l -> exists l0, r = Returns l0 /\ l = l0 ++ map mk (filter projects (map snd d))) /\
    ((exists l0, r = Returns l0) -> (forall b, In b (filter projects (map snd d)) -> checks_pass ext b = true) -> exists l, fst s = Returns l)).
  { destruct (HH (basis_dict ext o) o (Returns []) G eq_refl ltac:(auto)) as (A & B & D & E). split; [exact A|]. split; [exact B|]. split.
    - intros l Hl. destruct (D l Hl) as (l0 & E0 & ->). injection E0 as <-. reflexivity.
    - intro HC. apply E; [eauto|exact HC]. }
  induction d as [|[k b] d IH]; intros o1 r G1 E1 HL; cbv zeta; cbn [fold_left].
  - cbn [fst snd map filter]. split; [exact G1|]. split; [exact E1|]. split; [|auto]. intros l ->. exists l. rewrite app_nil_r. auto.
  - assert (Hi : In (k, b) (basis_dict ext o1)) by (rewrite E1; apply HL; now left).
    assert (HL' : forall k b, In (k, b) d -> In (k, b) (basis_dict ext o)) by (intros; apply HL; now right).
    destruct r as [x|l0]; cbn [collect1].
    { destruct (IH o1 (Raises x) G1 E1 HL') as (A & B & D & E). split; [exact A|]. split; [exact B|]. split; [|intros [l0 HF]; discriminate].
      intros l Hl. destruct (D l Hl) as (l0 & HF & _). discriminate. }
    destruct (get_P_good o1 k b G1 Hi) as (P1 & P2 & P3). cbn [fst snd]. destruct (get_P ext o1 k b) as [p o2]. cbn [fst snd] in P1, P2, P3. subst p.
    assert (EPb : projects b = if Rlt_dec (tol ext) (norm_l (map (fun c => inner n c psi0) (get_proj ext b))) then true else false) by reflexivity.
    cbn [map snd filter]. rewrite EPb. clear EPb. destruct (Rlt_dec (tol ext) _) as [Hlt|Hn].
    + assert (Hi2 : In (k, b) (basis_dict ext o2)) by (rewrite P3; exact Hi).
      destruct (get_H_good o2 k b P2 Hi2) as (Q1 & Q2 & Q3 & Q4). destruct (get_H ext o2 k b) as [[x|H] o3]; cbn [fst snd] in *.
      * destruct (IH o3 (Raises x) Q2 ltac:(congruence) HL') as (A & B & D & E). split; [exact A|]. split; [exact B|]. split.
        -- intros l Hl. destruct (D l Hl) as (l1 & HF & _). discriminate.
        -- intros _ HC. destruct (Q4 (HC b ltac:(now left))) as [H HF]. discriminate.
      * rewrite (Q1 H eq_refl).
        destruct (IH o3 (Returns (l0 ++ [mk b])) Q2 ltac:(congruence) HL') as (A & B & D & E). split; [exact A|]. split; [exact B|]. split.
        -- intros l Hl. destruct (D l Hl) as (l1 & HF & ->). injection HF as <-. exists l0. split; [reflexivity|]. cbn [map]. now rewrite <- app_assoc.
        -- intros _ HC. apply E; [eauto|]. intros. apply HC. now right.
    + destruct (IH o2 (Returns l0) P2 ltac:(congruence) HL') as (A & B & D & E). auto.
Qed.
End Ext.

Lemma evolve_good ext o n psi0 t0 ts bd : good ext o -> good ext (snd (evolve ext o n psi0 t0 ts bd)).
Proof.
  intro G. destruct (collect_good ext n psi0 o G) as (A & _). unfold evolve. destruct (collect ext n psi0 o) as [[x|l] o']; cbn [snd] in A; [exact A|].
  destruct (_ && _)%bool; [exact A|]. destruct l; exact A.
Qed.
Lemma expm_good ext o n psi0 te it jobs bd a st sp ep num sh : good ext o -> good ext (snd (expm ext o n psi0 te it jobs bd a st sp ep num sh)).
Proof.
  intro G. destruct (collect_good ext n psi0 o G) as (A & _). unfold expm. destruct (grid _ _ _ _ _) as [x|g]; [exact G|].
  destruct (collect ext n psi0 o) as [[x|l] o']; cbn [snd] in A; [exact A|].
  destruct (regroup _ _ _) as [hs|]; [|exact A]. destruct l; [exact A|]. destruct g as [[[[a0 b0] m] e]|]; [|exact A]. destruct (_ || _)%bool; exact A.
Qed.
Lemma reachable_good ext o : reachable ext o -> good ext o.
Proof.
  induction 1 as [blocks kwargs sp c o H|o blocks c o' _ IH H|o o' _ IH H|o n psi0 t0 ts bd _ IH|o n psi0 te it jobs bd a st sp ep num sh _ IH].
  - assert (G0 : good ext {| basis_dict := fold_left (add_block ext kwargs) blocks []; H_dict := []; P_dict := []; checked := false; save := if c then true else sp |}).
    { split; [|split; intros ? ? []]. cbn [basis_dict].
      enough (HH : forall d, (forall k b, In (k, b) d -> b = basis_con ext k /\ 0 < Ns ext b) -> forall k b, In (k, b) (fold_left (add_block ext kwargs) blocks d) -> b = basis_con ext k /\ 0 < Ns ext b)
        by (apply HH; intros ? ? []).
      clear H. induction blocks as [|x l IH]; intros d Hd; [exact Hd|]. cbn [fold_left]. apply IH. unfold add_block. destruct (Nat.ltb_spec 0 (Ns ext (basis_con ext (update x kwargs)))); [|exact Hd].
      intros k b Hi. apply store_In in Hi. destruct Hi as [[-> ->]|Hi]; auto. }
    unfold construct in H. destruct c; [|injection H as <-; exact G0]. apply (compute_good ext _ _ _ G0) in H; [apply H|auto].
  - assert (G0 : good ext {| basis_dict := fold_left (update_block ext) blocks (basis_dict ext o); H_dict := H_dict ext o; P_dict := P_dict ext o; checked := checked ext o; save := save ext o |}).
    { destruct IH as (A & B & D). split; [|split; [exact B|exact D]]. cbn [basis_dict]. clear H. revert A. generalize (basis_dict ext o).
      induction blocks as [|x l IH]; intros d Hd; [exact Hd|]. cbn [fold_left]. apply IH. unfold update_block. destruct (lookup x d); [exact Hd|].
      cbv zeta. destruct (Nat.ltb_spec 0 (Ns ext (basis_con ext x))); [|exact Hd].
      intros k b Hi. apply store_In in Hi. destruct Hi as [[-> ->]|Hi]; auto. }
    unfold update_blocks in H. destruct c; [|injection H as <-; exact G0]. apply (compute_good ext _ _ _ G0) in H; [apply H|auto].
  - apply (compute_good ext _ _ _ IH) in H; [apply H|auto].
  - now apply evolve_good.
  - now apply expm_good.
Qed.

(* --- what is assumed --- *)
(* the Hamiltonian H of the whole space leaves each block invariant and the block Hamiltonian is its matrix there *)
Definition right_blocks (ext : external) (o : block_ops ext) (n : nat) (H : R -> mat) : Prop :=
  forall k b, In (k, b) (basis_dict ext o) -> length (get_proj ext b) = Ns ext b /\ checks_pass ext b = true /\
    forall t, invariant n (H t) (get_proj ext b) (hamil ext b t).
(* H.evolve solves the Schroedinger equation *)
Definition right_solver (ext : external) (o : block_ops ext) (t0 : R) (ts : list R) : Prop :=
  forall key b v k, In (key, b) (basis_dict ext o) -> length v = Ns ext b -> k < length ts -> let w := nth k (solve ext (Ns ext b) (hamil ext b) v t0 ts) [] in
    length w = Ns ext b /\ flows (Ns ext b) (schroedinger (hamil ext b)) t0 (nth k ts 0%R) (vf v) (vf w).
(* the part of the state in the blocks that are used *)
Definition used_part (ext : external) (o : block_ops ext) (n : nat) (psi0 : vec) : vec := sum_vec (used ext n psi0 o) (fun b => part n (get_proj ext b) psi0).

Lemma used_In ext n psi0 o b : In b (used ext n psi0 o) -> exists k, In (k, b) (basis_dict ext o).
Proof. intro H. apply filter_In in H. destruct H as [H _]. apply in_map_iff in H. destruct H as ([k b'] & E & Hi). cbn in E. subst b'. eauto. Qed.

Lemma nth_map {X Y} (f : X -> Y) l i d e : i < length l -> nth i (map f l) d = f (nth i l e).
Proof. intro H. rewrite (nth_indep _ _ (f e)) by (rewrite map_length; exact H). apply map_nth. Qed.
(* the states of the blocks are stacked and mapped to the whole space *)
Lemma stacked {X} (us : list X) (c : X -> list vec) (out : X -> list (list C)) m :
  (forall x k, In x us -> k < m -> length (c x) = length (nth k (out x) [])) ->
  exists ws, to_full (concat (map c us)) (stack_times m (map out us)) = Returns ws /\ length ws = m /\
    forall k j, k < m -> nth k ws z0 j = sum_vec us (fun x => pd (c x) (nth k (out x) [])) j.
Proof.
  intro H. exists (map (pd (concat (map c us))) (stack_times m (map out us))). split; [|split].
  - apply to_full_returns. intros s Hs. unfold stack_times in Hs. apply in_map_iff in Hs. destruct Hs as (k & <- & Hk). apply in_seq in Hk.
    rewrite map_map. apply len_concat. intros x Hx. apply H; [exact Hx|lia].
  - unfold stack_times. now rewrite !map_length, seq_length.
  - intros k j Hk. unfold stack_times. rewrite map_map.
    rewrite (nth_map _ _ k z0 0) by (rewrite seq_length; exact Hk). rewrite seq_nth by exact Hk. cbn [Nat.add]. rewrite map_map. apply pd_concat. intros x Hx. now apply H.
Qed.

(* Whatever happened to the object before (constructor, update_blocks, compute_all_blocks, earlier evolutions, with or without
   saved matrices): evolve raises RuntimeError if the state has no part in the blocks, and returns for each time the state
   evolved in the whole space otherwise. *)
Theorem C58_evolve : forall ext o n H psi0 t0 ts, reachable ext o -> right_blocks ext o n H -> right_solver ext o t0 ts ->
  (used ext n psi0 o = [] /\ fst (evolve ext o n psi0 t0 ts false) = Raises RuntimeErr) \/
  (used ext n psi0 o <> [] /\ exists ws, fst (evolve ext o n psi0 t0 ts false) = Returns ws /\ length ws = length ts /\
     forall k, k < length ts -> flows n (schroedinger H) t0 (nth k ts 0%R) (used_part ext o n psi0) (nth k ws z0)).
Proof.
  intros ext o n H psi0 t0 ts HR HB HS. apply reachable_good in HR.
  destruct (collect_good ext n psi0 o HR) as (_ & _ & C1 & C2).
  destruct C2 as [l Hl]. { intros b Hb. destruct (used_In _ _ _ _ _ Hb) as [k Hk]. apply (HB k b Hk). }
  assert (E := C1 l Hl). subst l. unfold evolve. destruct (collect ext n psi0 o) as [r o']. cbn [fst] in Hl. subst r. cbn [andb].
  assert (HU : forall b, In b (used ext n psi0 o) -> length (get_proj ext b) = Ns ext b /\ forall t, invariant n (H t) (get_proj ext b) (hamil ext b t)).
  { intros b Hb. destruct (used_In _ _ _ _ _ Hb) as [k Hk]. destruct (HB k b Hk) as (A & _ & B). auto. }
  unfold used_part. destruct (used ext n psi0 o) as [|u us'] eqn:EU; [left; split; reflexivity|]. right. split; [discriminate|].
  rewrite <- EU in HU |- *. set (us := used ext n psi0 o) in *.
  assert (EL : length us <> 0) by (rewrite EU; discriminate).
  assert (HW : exists ws, to_full (concat (map (fun b => get_proj ext b) us)) (stack_times (length ts) (map (fun b => solve ext (Ns ext b) (hamil ext b) (map (fun c => inner n c psi0) (get_proj ext b)) t0 ts) us)) = Returns ws /\
     length ws = length ts /\ forall k j, k < length ts -> nth k ws z0 j = sum_vec us (fun b => pd (get_proj ext b) (nth k (solve ext (Ns ext b) (hamil ext b) (map (fun c => inner n c psi0) (get_proj ext b)) t0 ts) [])) j).
  { apply stacked. intros b k Hb Hk. destruct (HU b Hb) as [HL _]. rewrite HL. symmetry. destruct (used_In _ _ _ _ _ Hb) as [key Hkey]. apply (HS key b); [exact Hkey|now rewrite map_length|exact Hk]. }
  destruct HW as (ws & HW1 & HW2 & HW3). exists ws. split; [|split; [exact HW2|]].
  - rewrite !map_map. cbn [mk kP key_basis kH kpsi]. rewrite EU at 1. cbn [map fst]. exact HW1.
  - intros k Hk. apply (flows_ext n _ _ _ (sum_vec us (fun b => part n (get_proj ext b) psi0)) (sum_vec us (fun b => pd (get_proj ext b) (nth k (solve ext (Ns ext b) (hamil ext b) (map (fun c => inner n c psi0) (get_proj ext b)) t0 ts) []))));
      [reflexivity|intros j _; symmetry; now apply HW3|].
    apply flows_sum. intros b Hb. destruct (HU b Hb) as [HL HI].
    destruct (used_In _ _ _ _ _ Hb) as [key Hkey].
    destruct (HS key b (map (fun c => inner n c psi0) (get_proj ext b)) k Hkey ltac:(now rewrite map_length) Hk) as [L1 F1].
    rewrite <- HL in F1 at 1. apply (lift n (schroedinger H) (schroedinger (hamil ext b)) (get_proj ext b)) in F1.
    + refine (flows_ext n _ _ _ _ _ _ _ _ _ F1).
      * intros j _. rewrite <- pd_pf by (now rewrite map_length). apply pd_part.
      * intros j _. rewrite <- pd_pf; [reflexivity|]. rewrite HL. symmetry. exact L1.
    + intro s. apply (inv_ext n (affine (- Ci) C0 (H s)) _ _ (affine (- Ci) C0 (hamil ext b s))); [intros; unfold affine, schroedinger; ring|intros; unfold affine, schroedinger; ring|].
      apply inv_affine. apply HI.
Qed.
Print Assumptions C58_evolve.

(* The state is used as a whole if the blocks are complete for it and the blocks left out have no part in it. *)
Theorem C58_whole_state : forall ext o n psi0,
  (forall k, k < n -> sum_vec (map snd (basis_dict ext o)) (fun b => part n (get_proj ext b) psi0) k = psi0 k) ->
  (forall b k, In b (map snd (basis_dict ext o)) -> (norm_l (map (fun c => inner n c psi0) (get_proj ext b)) <= tol ext)%R -> k < n -> part n (get_proj ext b) psi0 k = C0) ->
  forall k, k < n -> used_part ext o n psi0 k = psi0 k.
Proof.
  intros ext o n psi0 HA HB k Hk. rewrite <- HA by exact Hk. unfold used_part, used, sum_vec. rewrite Csum_filter. apply Csum_ext. intros b Hb.
  unfold projects. destruct (Rlt_dec _ _) as [|Hn]; [reflexivity|]. symmetry. apply HB; [exact Hb|lra|exact Hk].
Qed.
Print Assumptions C58_whole_state.
