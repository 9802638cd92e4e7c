(* C59: block_diag_hamiltonian. *)
From Verif Require Import AuxN SpecC SpecExpm SpecLanczos SpecExpect SpecFloquet SpecBlock SpecDriven M_symop P_floquet M_block P_block M_bdiag P_bdiag.
Local Open Scope nat_scope.

(* in basis b the terms have the matrices of the operators A x of the whole space (dimension n): A x p = p matrix_of b x *)
Definition right_bases (B : builder) (kwargs : blk) (blocks : list blk) (n : nat) (A : term B -> mat) : Prop :=
  forall block, In block blocks -> let b := con B (update block kwargs) in
    length (proj B b) = dim B b /\ forall x, invariant n (A x) (proj B b) (matrix_of B b x).
(* drive f vanishes in the block: all the entries of the sum of its terms are below the threshold *)
Definition no_entry (B : builder) (dynamic : list (term B * drive B)) (b : bas B) (f : drive B) : Prop :=
  forall i j, i < dim B b -> j < dim B b ->
    (Cabs (Csum (filter (fun e => if drive_eq B (snd e) f then true else false) dynamic) (fun e => matrix_of B b (fst e) i j)) <= atol B)%R.

Lemma vanishes_no_entry B dynamic b f : vanishes B dynamic b f = true <-> no_entry B dynamic b f.
Proof.
  unfold vanishes, almost_zero, no_entry, make_matrix, terms_of. rewrite forallb_forall. split.
  - intros H i j Hi Hj. assert (P := H i ltac:(apply in_seq; lia)). rewrite forallb_forall in P. specialize (P j ltac:(apply in_seq; lia)).
    cbv beta in P. destruct (Rle_dec _ _) as [Q|]; [|discriminate]. rewrite Csum_map in Q. exact Q.
  - intros H i Hi. apply forallb_forall. intros j Hj. apply in_seq in Hi, Hj. destruct (Rle_dec _ _) as [|Q]; [reflexivity|].
    exfalso. apply Q. rewrite Csum_map. apply H; lia.
Qed.
Lemma filter_concat B (bs : list (bas B)) : (forall b, In b bs -> length (proj B b) = dim B b) ->
  concat (map (proj B) (filter (fun b => 0 <? dim B b) bs)) = concat (map (proj B) bs).
Proof.
  induction bs as [|b bs IH]; intro H; [reflexivity|]. cbn [filter map concat]. rewrite <- IH by (intros; apply H; now right).
  destruct (Nat.ltb_spec 0 (dim B b)); [reflexivity|]. assert (E := H b (or_introl eq_refl)). destruct (proj B b); [reflexivity|cbn in E; lia].
Qed.

Lemma matrix_right B kwargs blocks static dynamic order n A rho : right_bases B kwargs blocks n A ->
  order = map rho (drives B dynamic) -> sized B dynamic (bases B kwargs blocks) ->
  forall t, let r := built B static dynamic order (bases B kwargs blocks) in H_dim B r = length (P B r) /\
    invariant n (driven A (value B) static (map (fun e => (fst e, rho (snd e))) dynamic) t) (P B r) (at_time B r t).
Proof.
  intros HR HO HS t r. set (bs := bases B kwargs blocks) in *.
  assert (HB : forall b, In b bs -> length (proj B b) = dim B b /\ forall x, invariant n (A x) (proj B b) (matrix_of B b x)).
  { intros b Hb. apply in_map_iff in Hb. destruct Hb as (block & <- & Hb). exact (HR block Hb). }
  assert (HL : forall l b, In b bs -> invariant n (fun i j => Csum l (fun x => A x i j)) (proj B b) (make_matrix B b l)).
  { intros l b Hb. unfold make_matrix. apply inv_sum1. intros x _. apply HB, Hb. }
  assert (S1 := inv_concat n (fun i j => Csum static (fun x => A x i j)) bs (proj B) (fun b => (dim B b, make_matrix B b static))
    ltac:(intros b Hb; split; [symmetry; now apply HB|apply HL, Hb])).
  destruct S1 as [S1 S2]. split.
  { cbn [r built H_dim P]. rewrite <- S1, block_dim, map_map. reflexivity. }
  unfold driven, at_time. cbn [r built H_static P H_dynamic].
  apply inv_add; [exact S2|].
  rewrite (dlist_map B dynamic order bs rho HO HS).
  set (M := fun f => snd (block_diag_of (map (fun b => (dim B b, make_matrix B b (terms_of B dynamic f))) (filter (fun b => 0 <? dim B b) bs)))).
  assert (Q : invariant n (fun i j => Csum (drives B dynamic) (fun f => value B (rho f) t * Csum (terms_of B dynamic f) (fun x => A x i j))%C) (concat (map (proj B) bs))
    (fun i j => Csum (drives B dynamic) (fun f => value B (rho f) t * M f i j)%C)).
  { apply (inv_sum n (drives B dynamic) (fun f => value B (rho f) t) (fun f i j => Csum (terms_of B dynamic f) (fun x => A x i j)) _ M).
    intros f _. rewrite <- filter_concat by (intros; now apply HB).
    apply (inv_concat n (fun i j => Csum (terms_of B dynamic f) (fun x => A x i j)) (filter (fun b => 0 <? dim B b) bs) (proj B)).
    intros b Hb. apply filter_In in Hb. destruct Hb as [Hb _]. split; [symmetry; now apply HB|apply HL, Hb]. }
  revert Q. apply inv_ext.
  - intros i j _ _. rewrite Csum_map. cbn [fst snd]. destruct (drives_spec B dynamic) as [N D].
    rewrite (by_drive B dynamic _ (drives B dynamic) N) by (intros e He; apply D, in_map, He).
    apply Csum_ext. intros f _. unfold terms_of. rewrite Csum_map, <- Csum_mul_l. apply Csum_ext. intros e He. apply filter_In in He.
    destruct He as [_ He]. destruct (drive_eq B (snd e) f) as [->|]; [reflexivity|discriminate].
  - intros i j _ _. rewrite Csum_map. reflexivity.
Qed.
Lemma rename {D} (eqd : forall f g : D, {f = g} + {f <> g}) : forall ds order : list D, NoDup ds -> length order = length ds -> exists rho, order = map rho ds.
Proof.
  induction ds as [|f ds IH]; intros [|g o] N HL; cbn in HL; try lia; [now exists (fun x => x)|]. inversion_clear N as [|? ? Hn N'].
  destruct (IH o N' ltac:(lia)) as [rho E]. exists (fun x => if eqd x f then g else rho x). cbn [map]. destruct (eqd f f); [|congruence].
  f_equal. rewrite E. apply map_ext_in. intros x Hx. destruct (eqd x f) as [->|]; [contradiction|reflexivity].
Qed.

(* A call is accepted exactly when there is a block, the checks pass for the first one, and no drive vanishes in a block that
   is not empty; then P stacks the projectors of the blocks. *)
Theorem C59_accepted : forall B blocks static dynamic kwargs order, Permutation order (drives B dynamic) ->
  ((exists r, block_diag_hamiltonian B blocks static dynamic kwargs order = Gives r) <->
   (exists first rest, blocks = first :: rest /\ passes B (con B (update first kwargs)) = true) /\
   forall block f, In block blocks -> 0 < dim B (con B (update block kwargs)) -> In f (map snd dynamic) ->
     ~ no_entry B dynamic (con B (update block kwargs)) f) /\
  (forall r, block_diag_hamiltonian B blocks static dynamic kwargs order = Gives r ->
     P B r = concat (map (fun block => proj B (con B (update block kwargs))) blocks)).
Proof.
  intros B blocks static dynamic kwargs order HO.
  assert (EQ : sized B dynamic (bases B kwargs blocks) <-> forall block f, In block blocks -> 0 < dim B (con B (update block kwargs)) -> In f (map snd dynamic) ->
     ~ no_entry B dynamic (con B (update block kwargs)) f).
  { split.
    - intros HS block f Hb Hd Hf HN. apply vanishes_no_entry in HN. rewrite (HS (con B (update block kwargs))) in HN; [discriminate|now apply (in_map (fun x => con B (update x kwargs)))|exact Hd|].
      now apply drives_spec.
    - intros H b Hb Hd f Hf. apply in_map_iff in Hb. destruct Hb as (block & <- & Hb). destruct (vanishes B dynamic (con B (update block kwargs)) f) eqn:E; [|reflexivity].
      apply vanishes_no_entry in E. exfalso. apply (H block f Hb Hd); [now apply drives_spec|exact E]. }
  destruct blocks as [|first rest]; [split; [split|]; [intros [r H]; discriminate|intros [(a & b & E & _) _]; discriminate|discriminate]|].
  destruct (passes B (con B (update first kwargs))) eqn:EP.
  - destruct (run_loop B static dynamic order HO (first :: rest) kwargs first rest eq_refl EP) as [R1 R2]. split; [split|].
    + intros [r Hr]. split; [eauto|]. apply EQ. intros b Hb Hd f Hf. destruct (vanishes B dynamic b f) eqn:EV; [|reflexivity]. exfalso.
      rewrite R2 in Hr; [discriminate|]. intro HS. rewrite (HS b Hb Hd f Hf) in EV. discriminate.
    + intros [_ H]. apply EQ in H. eauto.
    + intros r Hr. destruct (block_diag_hamiltonian B (first :: rest) static dynamic kwargs order) eqn:EB; [discriminate|]. injection Hr as ->.
      assert (HS : sized B dynamic (bases B kwargs (first :: rest))).
      { intros b Hb Hd f Hf. destruct (vanishes B dynamic b f) eqn:EV; [|reflexivity]. exfalso.
        assert (Z := R2 ltac:(intro HS; rewrite (HS b Hb Hd f Hf) in EV; discriminate)). discriminate. }
      assert (Z := R1 HS). injection Z as Zr. rewrite Zr. change (concat (map (proj B) (map (fun block => con B (update block kwargs)) (first :: rest))) = concat (map (fun block => proj B (con B (update block kwargs))) (first :: rest))). now rewrite map_map.
  - assert (F := first_fails B static dynamic order (first :: rest) kwargs first rest eq_refl EP). rewrite F.
    split; [split|]; [intros [r H]; discriminate|intros [(a & b & E & HP) _]; injection E as <- <-; congruence|discriminate].
Qed.
Print Assumptions C59_accepted.

(* When the set of drives is iterated in order of first use, an accepted call returns P and H with H_full(t) P = P H(t) at
   every time.  Missing: other orders of iteration (refuted below) and drives that vanish in a block. *)
Theorem C59_operator_partial : forall B blocks static dynamic kwargs n A r,
  right_bases B kwargs blocks n A ->
  block_diag_hamiltonian B blocks static dynamic kwargs (drives B dynamic) = Gives r ->
  H_dim B r = length (P B r) /\ forall t, invariant n (driven A (value B) static dynamic t) (P B r) (at_time B r t).
Proof.
  intros B blocks static dynamic kwargs n A r HR Hr.
  assert (HA := proj1 (C59_accepted B blocks static dynamic kwargs (drives B dynamic) (Permutation_refl _))).
  destruct (proj1 HA (ex_intro _ r Hr)) as [(first & rest & E & EP) _].
  destruct (run_loop B static dynamic (drives B dynamic) (Permutation_refl _) blocks kwargs first rest E EP) as [R1 R2].
  assert (HS : sized B dynamic (bases B kwargs blocks)).
  { intros b Hb Hd f Hf. destruct (vanishes B dynamic b f) eqn:EV; [|reflexivity]. exfalso.
    rewrite R2 in Hr; [discriminate|]. intro HS. rewrite (HS b Hb Hd f Hf) in EV. discriminate. }
  rewrite (R1 HS) in Hr. injection Hr as <-.
  assert (M := matrix_right B kwargs blocks static dynamic (drives B dynamic) n A (fun f => f) HR (eq_sym (map_id _)) HS).
  split; [exact (proj1 (M 0%R))|]. intro t. assert (Q := proj2 (M t)). revert Q. apply inv_ext; [|reflexivity].
  intros i j _ _. unfold driven. rewrite Csum_map. reflexivity.
Qed.
Print Assumptions C59_operator_partial.

(* With any other order of iteration the drives are exchanged: what is returned is the operator in which each drive is
   replaced by the one that has its place in the iteration. *)
Theorem C59_exchanged : forall B blocks static dynamic kwargs order n A r,
  Permutation order (drives B dynamic) -> right_bases B kwargs blocks n A ->
  block_diag_hamiltonian B blocks static dynamic kwargs order = Gives r ->
  exists rho, map rho (drives B dynamic) = order /\
    forall t, invariant n (driven A (value B) static (map (fun e => (fst e, rho (snd e))) dynamic) t) (P B r) (at_time B r t).
Proof.
  intros B blocks static dynamic kwargs order n A r HO HR Hr.
  destruct (rename (drive_eq B) (drives B dynamic) order (proj1 (drives_spec B dynamic)) (Permutation_length HO)) as [rho Erho].
  assert (HA := proj1 (C59_accepted B blocks static dynamic kwargs order HO)).
  destruct (proj1 HA (ex_intro _ r Hr)) as [(first & rest & E & EP) _].
  destruct (run_loop B static dynamic order HO blocks kwargs first rest E EP) as [R1 R2].
  assert (HS : sized B dynamic (bases B kwargs blocks)).
  { intros b Hb Hd f Hf. destruct (vanishes B dynamic b f) eqn:EV; [|reflexivity]. exfalso.
    rewrite R2 in Hr; [discriminate|]. intro HS. rewrite (HS b Hb Hd f Hf) in EV. discriminate. }
  rewrite (R1 HS) in Hr. injection Hr as <-. exists rho. split; [now symmetry|]. intro t.
  exact (proj2 (matrix_right B kwargs blocks static dynamic order n A rho HR Erho HS t)).
Qed.
Print Assumptions C59_exchanged.

(* --- one spin, blocks up and down; terms x = diag(1, 2) and y = diag(3, 5), drives f = 1 and g = 2 --- *)
Definition spin : builder :=
  {| bas := nat; con := fun b => match b with [] => 0 | _ :: _ => 1 end; dim := fun _ => 1; proj := fun b => [fun k => delta b k]; passes := fun _ => true;
     term := bool; drive := bool; drive_eq := Bool.bool_dec; value := fun f _ => if f then C1 else RtoC 2;
     matrix_of := fun b x _ _ => RtoC (if x then INR (S b) else (3 + 2 * INR b)%R); atol := 0%R |}.
Definition xy : bool -> mat := fun x i j => (delta i j * RtoC (if x then INR (S i) else (3 + 2 * INR i)%R))%C.
Definition two_drives : list (bool * bool) := [(true, true); (false, false)].
Definition both : list blk := [[]; [(0, 1%Z)]].
Example spin_right : right_bases spin [] both 2 xy.
Proof.
  intros block Hb b. split; [reflexivity|]. assert (E : b = 0 \/ b = 1) by (cbn in Hb; destruct Hb as [<-|[<-|[]]]; cbn; auto).
  clearbody b. intros x k j Hk Hj. cbn [spin proj length] in Hj. destruct j; [|lia]. cbn [spin proj matrix_of nth length seq Csum].
  destruct E as [-> | ->]; destruct k as [|[|k]]; try lia; destruct x; apply C_eq; cbn; unfold Rdiv; try ring; lra.
Qed.
