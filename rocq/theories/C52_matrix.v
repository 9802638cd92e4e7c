(* C52: matrix elements in the blocks of the one-dimensional bases. *)
From Verif Require Import AuxN SpecC SpecOps SpecOps1d SpecProj M_bits1d SpecChain1d SpecCheck1d SpecBlock1d M_check1d
  M_ops M_ops1d M_symop M_op1d P_ops P_ops1d P_symop P_op1d P_op1d2 P_op1d3 P_op1d7 P_op1d8 P_bits1d2 P_op1d5 P_op1d6 P_semi1d3 P_semi1d4 C39_checks.
From Coq Require Import Permutation.
Local Open Scope nat_scope.

(* the states of the particle sector, each once; all states when there is no particle number *)
Definition sector (k : kind) (L : nat) (b : block) (states : list N) : Prop :=
  (forall s, In s states -> is_state k L s) /\ NoDup states /\ (b = BFull -> Permutation (all_states (Mst k L)) states).
(* the normalised symmetric state number i *)
Definition sym_state (w : btype) (k : kind) (L T kb : nat) (b : block) (basis : list entry) (i : nat) : N -> C :=
  normalised k L (block_vector w k L T b kb (e_N (nth i basis entry0)) (e_s (nth i basis entry0))).

Lemma below_of w n p : at_most w n -> p < n -> below w p.
Proof. unfold at_most, below. destruct w; cbn; lia. Qed.
Lemma op_of_acts c w L T b : block_ok w (kind_of c) L T b -> forall l, okl (sites (kind_of c) L) (letters c) l ->
  acts_as (Mst (kind_of c) L) (op_of c w L l) (string_matrix (Mst (kind_of c) L) (match c with SpinHalf _ => fun o => site_matrix 2 L (spin_half_site o) | _ => letter_matrix c (sites (kind_of c) L) end) l).
Proof.
  intros (SF & _) l Hl. unfold states_fit in SF. destruct c as [pauli|B| |B| |]; cbn [kind_of letters sites op_of] in *.
  - apply (hcp_plain_acts w L). eapply Forall_impl; [|exact Hl]. intros oi [Ho Hi]. split; [|exact Hi]. unfold spin_known. cbn [In] in *. tauto.
  - apply (spin1_op_acts B L); [apply SF|]. eapply Forall_impl; [|exact Hl]. intros oi [Ho Hi]. split; [|exact Hi]. cbn [In] in *. tauto.
  - apply (hcp_plain_acts w L). eapply Forall_impl; [|exact Hl]. intros oi [Ho Hi]. split; [|exact Hi]. unfold spin_known. cbn [In] in *. tauto.
  - apply (boson1_op_acts B L); [apply SF|]. eapply Forall_impl; [|exact Hl]. intros oi [Ho Hi]. split; [|exact Hi]. cbn [In] in *. tauto.
  - apply (hcp_fermi_acts w L); [intros p Hp; destruct SF as [_ SF]; unfold less_than in SF; unfold below; destruct w; cbn in *; lia|]. eapply Forall_impl; [|exact Hl]. intros oi [Ho Hi]. split; [|exact Hi]. cbn [In] in *. tauto.
  - apply (hcp_fermi_acts w (2 * L)); [intros p Hp; apply (below_of w (2 * L)); [apply SF|exact Hp]|]. eapply Forall_impl; [|exact Hl]. intros oi [Ho Hi]. split; [|exact Hi]. cbn [In] in *. tauto.
Qed.
Lemma scale_lattice c w L T b ts r s : block_ok w (kind_of c) L T b ->
  H_total (scale_of c) (string_matrix (Mst (kind_of c) L) (match c with SpinHalf _ => fun o => site_matrix 2 L (spin_half_site o) | _ => letter_matrix c (sites (kind_of c) L) end)) ts r s =
  lattice_operator (Mst (kind_of c) L) (letter_matrix c (sites (kind_of c) L)) ts r s.
Proof.
  intros _. unfold H_total, lattice_operator. apply Csum_ext. intros t _. destruct c as [pauli|B| |B| |]; cbn [scale_of]; try (change (RtoC 1) with C1; ring).
  pose proof (pauli_string L pauli (fst t) r s) as E. change (Mst (kind_of (SpinHalf pauli)) L) with (N.to_nat (2 ^ N.of_nat L)). change (letter_matrix (SpinHalf pauli) (sites (kind_of (SpinHalf pauli)) L)) with (fun o => site_matrix 2 L (pauli_site pauli o)). rewrite E. ring.
Qed.
Lemma applied_ext k L A B v t : (forall r s, A r s = B r s) -> applied k L A v t = applied k L B v t.
Proof. intros H. unfold applied. apply Csum_ext. intros u _. rewrite H. reflexivity. Qed.
Lemma commutes_ext w k L T b A B : (forall r s, A r s = B r s) -> commutes_with w k L T b A -> commutes_with w k L T b B.
Proof.
  intros H HA g Hg r s Hr Hs. specialize (HA g Hg r s Hr Hs). unfold mmul in *.
  rewrite (Csum_ext _ _ (fun k0 => word_matrix w k L T g r k0 * A k0 s)%C) by (intros; rewrite H; reflexivity).
  rewrite HA. apply Csum_ext. intros u _. rewrite H. reflexivity.
Qed.

(* the squared norms of the stored states, reflections with translations apart *)
Definition nn_of (L T kb : nat) (b : block) (basis : list entry) : nat -> R := if semi b then nns L T kb b basis else nnb L T kb b basis.
Section A.
Variables (w : btype) (k : kind) (L T kb : nat) (b : block) (states : list N) (es basis : list entry).
Hypothesis OK : block_ok w k L T b.
Hypothesis Hst : forall s, In s states -> is_state k L s.
Hypothesis Hcol : collect w k L T kb b states = Some es.
Hypothesis Harr : arranged es basis.
Lemma all_st i : i < length basis -> is_state k L (e_s (nth i basis entry0)).
Proof. destruct (semi b) eqn:Sm; [apply (st_ok w k L T kb b OK Sm states es basis Hst Hcol Harr)|apply (ab_st w k L T kb b OK Sm states es basis Hst Hcol Harr)]. Qed.
Lemma all_nn i : i < length basis -> (0 < nn_of L T kb b basis i)%R /\
  P_block1d.dotv (Mst k L) (Wb w k L T kb b basis i (e_s (nth i basis entry0))) (Wb w k L T kb b basis i (e_s (nth i basis entry0))) = RtoC (nn_of L T kb b basis i * nn_of L T kb b basis i).
Proof. unfold nn_of. destruct (semi b) eqn:Sm; [apply (semi_nn w k L T kb b OK Sm states es basis Hst Hcol Harr)|apply (ab_nn w k L T kb b OK Sm states es basis Hst Hcol Harr)]. Qed.
End A.

(* Entry (j, i) of the matrix that the basis builds for a list of operators that commutes with the symmetries of the block is
   <state j| H |state i>, the states being the normalised projections of the stored states on the block; complex matrices are
   always built, real ones have the same entries whenever they are.  Missing: the block of the product of parity and spin
   inversion of spinful fermions, for which the claim is false (C52_spinful_product_refuted) *)
Theorem C52_matrix_partial : forall c w L T kb b states basis ts,
  let k := kind_of c in
  block_ok w k L T b -> (c = Spinful -> forall q, b <> BPZ q) ->
  sector k L b states -> constructed w k L T kb b states basis ->
  Forall (fun t => Forall (fun oi => In (fst oi) (letters c) /\ snd oi < sites k L) (fst t)) ts ->
  let H := lattice_operator (Mst k L) (letter_matrix c (sites k L)) ts in
  commutes_with w k L T b H ->
  let OpF real := Op1d w k L T kb real b basis (sites k L) (letters c) (scale_of c) (op_of c w L) in
  (exists Mx, make_matrix (OpF false) ts = Some Mx) /\
  forall real Mx, make_matrix (OpF real) ts = Some Mx -> forall i j, i < length basis -> j < length basis ->
    Mx j i = inner1 k L (sym_state w k L T kb b basis j) (applied k L H (sym_state w k L T kb b basis i)).
Proof.
  intros c w L T kb b states basis ts k OK HPZ (Hst & Hnd & Hfull) (es & Hcol & Harr) Hts H Hcom OpF.
  assert (Pz : pz_ok k b).
  { unfold pz_ok. destruct b; try exact I. destruct c; cbn in *; try reflexivity; [|destruct (HPZ eq_refl _ eq_refl)]. destruct OK as (_ & _ & HI & _). destruct HI. }
  assert (HC : forall real, (real && needs_complex L T kb b)%bool = false -> cols_ok w k L T kb (Mst k L) b basis (Wb w k L T kb b basis) (nn_of L T kb b basis) real).
  { unfold nn_of. destruct (semi b) eqn:Sm; [intros real _; apply (cols_semi w k L T kb b OK Sm states es basis Hst Hnd Hcol Harr)|apply (ab_cols w k L T kb b OK Pz Sm states es basis Hst Hnd Hfull Hcol Harr)]. }
  destruct (block_matrix w k L T kb b OK basis (all_st w k L T kb b states es basis OK Hst Hcol Harr) (nn_of L T kb b basis) (all_nn w k L T kb b states es basis OK Hst Hcol Harr)
    HC (sites k L) (letters c) (scale_of c) (op_of c w L) _ (op_of_acts c w L T b OK) ts Hts) as [E1 E2].
  { eapply commutes_ext; [|exact Hcom]. intros r s. symmetry. apply (scale_lattice c w L T b ts r s OK). }
  split; [exact E1|]. intros real Mx HM i j Hi Hj. rewrite (E2 real Mx HM i j Hi Hj). unfold inner1. apply Csum_ext. intros t _. f_equal.
  apply applied_ext. intros r s. apply (scale_lattice c w L T b ts r s OK).
Qed.
Print Assumptions C52_matrix_partial.

(* the states are orthonormal, for every block *)
Theorem C52_orthonormal : forall w k L T kb b states basis,
  block_ok w k L T b -> sector k L b states -> constructed w k L T kb b states basis ->
  forall i j, i < length basis -> j < length basis ->
    inner1 k L (sym_state w k L T kb b basis j) (sym_state w k L T kb b basis i) = if i =? j then C1 else C0.
Proof.
  intros w k L T kb b states basis OK (Hst & Hnd & Hfull) (es & Hcol & Harr).
  apply (block_orthonormal w k L T kb b OK basis (all_st w k L T kb b states es basis OK Hst Hcol Harr) (nn_of L T kb b basis) (all_nn w k L T kb b states es basis OK Hst Hcol Harr)).
  destruct (semi b) eqn:Sm; [apply (semi_orth w k L T kb b OK Sm states es basis Hst Hnd Hcol Harr)|apply (ab_orth w k L T kb b OK Sm states es basis Hst Hnd Hcol Harr)].
Qed.
Print Assumptions C52_orthonormal.

(* for every block and sector the constructor succeeds *)
Lemma arrange es : exists basis, arranged es basis.
Proof.
  induction es as [|e es (basis & Hp & Hd)]; [exists []; split; [constructor|exact I]|].
  assert (A : forall l, descends (map e_s l) -> exists l', Permutation (e :: l) l' /\ descends (map e_s l') /\ forall t, (forall x, In x l -> (e_s x <= t)%N) -> (e_s e <= t)%N -> forall x, In x l' -> (e_s x <= t)%N).
  { clear. induction l as [|f l IH]; [intros _; exists [e]; split; [auto|]; split; [exact I|]; intros t _ H x [<-|[]]; exact H|].
    intros Hd. destruct (N.le_gt_cases (e_s f) (e_s e)) as [Hle|Hlt].
    - exists (e :: f :: l). split; [auto|]. split; [split; [exact Hle|exact Hd]|]. intros t H1 H2 x [<-|Hx]; [exact H2|apply H1, Hx].
    - assert (Hl : descends (map e_s l)) by (destruct l; [exact I|apply Hd]). destruct (IH Hl) as (l' & P1 & P2 & P3).
      assert (B : forall x, In x l -> (e_s x <= e_s f)%N).
      { clear - Hd. revert f Hd. induction l as [|g l IH]; intros f Hd x; [intros []|]. destruct Hd as [H1 H2]. intros [<-|Hx]; [exact H1|]. pose proof (IH g H2 x Hx). lia. }
      exists (f :: l'). split; [rewrite <- P1; apply perm_swap|]. split.
      + pose proof (P3 (e_s f) B ltac:(lia)) as B'. destruct l' as [|h l']; [exact I|]. split; [apply B'; left; reflexivity|exact P2].
      + intros t H1 H2 x [<-|Hx]; [apply H1; left; reflexivity|]. apply (P3 t); [intros y Hy; apply H1; right; exact Hy|exact H2|exact Hx]. }
  destruct (A basis Hd) as (l' & P1 & P2 & _). exists l'. split; [rewrite <- P1; constructor; exact Hp|exact P2].
Qed.
Theorem C52_constructed : forall w k L T kb b states,
  block_ok w k L T b -> sector k L b states -> exists basis, constructed w k L T kb b states basis.
Proof.
  intros w k L T kb b states OK (Hst & _). destruct (collect_ok w k L T kb b states) as [es He].
  - intros s Hs. destruct (semi b) eqn:Sm; [destruct (keep_semi_ok w k L T kb b OK Sm s (Hst s Hs)) as (l & E & _)|destruct (keep_ab w k L T kb b OK Sm s (Hst s Hs)) as (l & E & _)]; exists l; exact E.
  - destruct (arrange es) as [basis Hb]. exists basis, es. auto.
Qed.
Print Assumptions C52_constructed.

(* two spins, momentum 0, transverse field *)
Definition field2 : list (list (ascii * nat) * C) := [([("x"%char, 0)], C1); ([("x"%char, 1)], C1)].
Definition zero_mom : list entry := [mk 3 1 0; mk 2 2 0; mk 0 1 0].
Notation Hf := (lattice_operator 4 (letter_matrix (SpinHalf 0) 2) field2).
Lemma x_string i t s : i < 2 -> (t < 4)%N -> (s < 4)%N -> string_matrix 4 (letter_matrix (SpinHalf 0) 2) [("x"%char, i)] t s = if (t =? N.lxor s (2 ^ N.of_nat (1 - i)))%N then RtoC (1 / 2) else C0.
Proof.
  intros Hi Ht Hs. pose proof (hcb_op_acts 2 [("x"%char, i)] ltac:(constructor; [split; [unfold spin_known; cbn; tauto|exact Hi]|constructor])) as A.
  destruct (A s C1 Hs) as (r & m & E & _ & HA). change (letter_matrix (SpinHalf 0) 2) with (fun o => site_matrix 2 2 (pauli_site 0 o)).
  change 4 with (N.to_nat (2 ^ N.of_nat 2)). rewrite (pauli_string 2 0 [("x"%char, i)] t s). change (pauli_scale 0 (map fst [("x"%char, i)])) with 1%R. rewrite HA by exact Ht.
  unfold hcb_op in E. cbn [rev app op_loop hcb_local] in E. assert (Z : Czero (C1 * (1 / 2, 0)%R)%C = false) by (unfold Czero, Rzero; cbn; destruct (Req_EM_T (1 * (1 / 2) - 0 * 0) 0); [lra|reflexivity]).
  rewrite Z in E. injection E as <- <-. destruct i as [|[|?]]; [| |lia]; match goal with |- context [N.pos ?x] => let v := eval vm_compute in x in change x with v end; match goal with |- context [(2 ^ ?x)%N] => let v := eval vm_compute in (2 ^ x)%N in change (2 ^ x)%N with v end; destruct (t =? _)%N; try reflexivity; apply C_eq; cbn; ring.
Qed.
Lemma field_value t s : (t < 4)%N -> (s < 4)%N -> Hf t s = ((if (t =? N.lxor s 2)%N then RtoC (1 / 2) else C0) + (if (t =? N.lxor s 1)%N then RtoC (1 / 2) else C0))%C.
Proof. intros Ht Hs. unfold lattice_operator, field2. rewrite !Csum_cons, Csum_nil. cbn [fst snd]. rewrite (x_string 0 t s ltac:(lia) Ht Hs), (x_string 1 t s ltac:(lia) Ht Hs). change (2 ^ N.of_nat (1 - 0))%N with 2%N. change (2 ^ N.of_nat (1 - 1))%N with 1%N. ring. Qed.
Lemma field_commutes : commutes_with U32 (Hcp false) 2 1 BT Hf.
Proof.
  intros g [<-|[]] r s Hr Hs. change (Mst (Hcp false) 2) with 4 in *. unfold mmul. change (all_states 4) with [0; 1; 2; 3]%N.
  rewrite !Csum_cons, !Csum_nil. unfold word_matrix, amp.
  assert (Cs : forall x, (x < N.of_nat 4)%N -> x = 0%N \/ x = 1%N \/ x = 2%N \/ x = 3%N) by (intros; lia).
  change (run_ops (map (act U32 (Hcp false) 2 1) [LT]) (0%N, 1%Z)) with (Some (0%N, 1%Z)). change (run_ops (map (act U32 (Hcp false) 2 1) [LT]) (1%N, 1%Z)) with (Some (2%N, 1%Z)).
  change (run_ops (map (act U32 (Hcp false) 2 1) [LT]) (2%N, 1%Z)) with (Some (1%N, 1%Z)). change (run_ops (map (act U32 (Hcp false) 2 1) [LT]) (3%N, 1%Z)) with (Some (3%N, 1%Z)).
  destruct (Cs s Hs) as [-> | [-> | [-> | ->]]]; destruct (Cs r Hr) as [-> | [-> | [-> | ->]]];
  repeat match goal with |- context [run_ops ?f ?x] => let v := eval vm_compute in (run_ops f x) in change (run_ops f x) with v end;
  rewrite !field_value by reflexivity; cbn [N.eqb Pos.eqb N.lxor Pos.lxor Pos.Nsucc_double Pos.Ndouble]; change (RtoC (IZR 1)) with C1; ring.
Qed.
Example C52_matrix_met :
  block_ok U32 (Hcp false) 2 1 BT /\ sector (Hcp false) 2 BT [0; 1; 2; 3]%N /\ constructed U32 (Hcp false) 2 1 0 BT [0; 1; 2; 3]%N zero_mom /\
  exists Mx, make_matrix (Op1d U32 (Hcp false) 2 1 0 false BT zero_mom 2 (letters (SpinHalf 0)) (scale_of (SpinHalf 0)) (op_of (SpinHalf 0) U32 2)) field2 = Some Mx /\
    Mx 1 0 = inner1 (Hcp false) 2 (sym_state U32 (Hcp false) 2 1 0 BT zero_mom 1) (applied (Hcp false) 2 Hf (sym_state U32 (Hcp false) 2 1 0 BT zero_mom 0)).
Proof.
  assert (OK : block_ok U32 (Hcp false) 2 1 BT). { split; [split; [lia|cbn; lia]|]. split; [intros _|exact I]. split; [split; [split; [lia|cbn; lia]|left; cbn; lia]|]. split; [lia|exists 2; reflexivity]. }
  assert (Se : sector (Hcp false) 2 BT [0; 1; 2; 3]%N).
  { split; [|split; [|discriminate]]. - intros s Hs. cbn in Hs. cbn. lia. - repeat constructor; cbn; intuition discriminate. }
  assert (Co : constructed U32 (Hcp false) 2 1 0 BT [0; 1; 2; 3]%N zero_mom).
  { exists [mk 0 1 0; mk 2 2 0; mk 3 1 0]. split; [vm_compute; reflexivity|]. split; [|cbn; lia]. unfold zero_mom. apply (Permutation_rev [mk 0 1 0; mk 2 2 0; mk 3 1 0]). }
  split; [exact OK|]. split; [exact Se|]. split; [exact Co|].
  destruct (C52_matrix_partial (SpinHalf 0) U32 2 1 0 BT [0; 1; 2; 3]%N zero_mom field2 OK ltac:(discriminate) Se Co) as [[Mx HM] H].
  - unfold field2. constructor; [|constructor; [|constructor]]; (constructor; [split; [cbn; tauto|cbn; lia]|constructor]).
  - exact field_commutes.
  - exists Mx. split; [exact HM|]. apply (H false Mx HM 0 1); cbn; lia.
Qed.
