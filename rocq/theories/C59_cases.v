(* C59: calls of block_diag_hamiltonian that exchange drives or fail. *)
From Verif Require Import AuxN SpecC SpecExpm SpecLanczos SpecExpect SpecFloquet SpecBlock SpecDriven M_symop P_floquet M_block P_block M_bdiag P_bdiag C59_bdiag.
Local Open Scope nat_scope.

Lemma real_entry z : (0 < z)%R -> ~ (Cabs (RtoC z + C0) <= 0)%R.
Proof.
  intros Hz Hc. unfold Cabs in Hc. cbn in Hc. assert (0 < sqrt ((z + 0) * (z + 0) + (0 + 0) * (0 + 0)))%R by (apply sqrt_lt_R0; nra). lra.
Qed.
Example spin_accepted order : Permutation order (drives spin two_drives) -> exists r, block_diag_hamiltonian spin both [] two_drives [] order = Gives r.
Proof.
  intro HO. apply C59_accepted; [exact HO|]. split; [exists [], [[(0, 1%Z)]]; split; reflexivity|].
  intros block f Hb _ Hf HN. specialize (HN 0 0 Nat.lt_0_1 Nat.lt_0_1). revert HN.
  destruct Hb as [<-|[<-|[]]]; destruct f; cbn [two_drives filter spin drive_eq snd fst Bool.bool_dec]; apply real_entry; cbn; lra.
Qed.
Example spin_operator : exists r, block_diag_hamiltonian spin both [] two_drives [] [true; false] = Gives r /\
  forall t, invariant 2 (driven xy (value spin) [] two_drives t) (P spin r) (at_time spin r t).
Proof.
  destruct (spin_accepted [true; false] (Permutation_refl _)) as [r Hr]. exists r. split; [exact Hr|].
  exact (proj2 (C59_operator_partial spin both [] two_drives [] 2 xy r spin_right Hr)).
Qed.

(* Two drives, and a set that is iterated in the other order: H(t) is wrong, x is driven by g and y by f. *)
Theorem C59_order_refuted : exists B blocks static dynamic kwargs order n A r,
  Permutation order (drives B dynamic) /\ right_bases B kwargs blocks n A /\
  block_diag_hamiltonian B blocks static dynamic kwargs order = Gives r /\
  forall t, ~ invariant n (driven A (value B) static dynamic t) (P B r) (at_time B r t).
Proof.
  assert (HO : Permutation [false; true] (drives spin two_drives)) by (cbn; apply perm_swap).
  destruct (spin_accepted [false; true] HO) as [r Hr].
  exists spin, both, [], two_drives, [], [false; true], 2, xy, r. split; [exact HO|]. split; [exact spin_right|]. split; [exact Hr|].
  intros t HI. destruct (C59_exchanged spin both [] two_drives [] [false; true] 2 xy r HO spin_right Hr) as (rho & Erho & HE).
  assert (EP := proj2 (C59_accepted spin both [] two_drives [] [false; true] HO) r Hr).
  cbn [drives two_drives fold_left snd] in Erho.
  assert (Er : rho true = false /\ rho false = true).
  { assert (Q : map rho [true; false] = [false; true]) by exact Erho. cbn in Q. injection Q as Q1 Q2. auto. }
  assert (HL : length (P spin r) = 2) by (rewrite EP; reflexivity).
  assert (I1 := HI 0 0 ltac:(lia) ltac:(lia)). assert (I2 := HE t 0 0 ltac:(lia) ltac:(lia)). rewrite <- I2 in I1. clear I2.
  rewrite EP in I1. unfold driven, two_drives in I1. cbn [map fst snd] in I1. destruct Er as [Er1 Er2]. rewrite Er1, Er2 in I1. apply (f_equal fst) in I1. cbn in I1. lra.
Qed.
Print Assumptions C59_order_refuted.

(* A drive that has no entry in one of the blocks: the call raises ValueError, although every block has a Hamiltonian. *)
Theorem C59_vanishing_refuted : forall B first rest static dynamic kwargs order block f,
  Permutation order (drives B dynamic) -> passes B (con B (update first kwargs)) = true ->
  In block (first :: rest) -> 0 < dim B (con B (update block kwargs)) -> In f (map snd dynamic) -> no_entry B dynamic (con B (update block kwargs)) f ->
  block_diag_hamiltonian B (first :: rest) static dynamic kwargs order = Fails ValueError.
Proof.
  intros B first rest static dynamic kwargs order block f HO HP Hb Hd Hf HN.
  apply (run_loop B static dynamic order HO (first :: rest) kwargs first rest eq_refl HP). intro HS.
  apply vanishes_no_entry in HN. rewrite (HS (con B (update block kwargs))) in HN; [discriminate|now apply (in_map (fun x => con B (update x kwargs)))|exact Hd|].
  now apply drives_spec.
Qed.
Print Assumptions C59_vanishing_refuted.
(* a field that acts on the second of two blocks only *)
Definition field : builder :=
  {| bas := nat; con := fun b => match b with [] => 0 | _ :: _ => 1 end; dim := fun _ => 1; proj := fun b => [fun k => delta b k]; passes := fun _ => true;
     term := unit; drive := unit; drive_eq := fun x y => ltac:(decide equality); value := fun _ t => RtoC t;
     matrix_of := fun b _ _ _ => RtoC (INR b); atol := 0%R |}.
Example field_fails : block_diag_hamiltonian field both [] [(tt, tt)] [] [tt] = Fails ValueError.
Proof.
  apply (C59_vanishing_refuted field [] [[(0, 1%Z)]] [] [(tt, tt)] [] [tt] [] tt); try (cbn; auto; fail).
  intros i j _ _. cbn. unfold Cabs. cbn. replace ((0 + 0) * (0 + 0) + (0 + 0) * (0 + 0))%R with 0%R by ring. rewrite sqrt_0. lra.
Qed.
