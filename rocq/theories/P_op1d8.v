(* From the columns of a block to the matrix in the normalised symmetric states. *)
From Verif Require Import AuxN SpecC SpecOps SpecMaps SpecFermi SpecChain M_bits1d SpecChain1d SpecCheck1d SpecBlock1d M_check1d
  P_maps P_square P_bits1d P_bits1d4 P_bits1d5 P_check1d P_check1d2 P_check1d3 P_check1d4 P_check1d5 P_block1d P_block1d2 P_block1d3 P_block1d4
  M_ops M_symop P_ops P_symop P_photon M_op1d P_op1d P_op1d2 P_op1d3 P_op1d4 P_op1d5 P_op1d6 P_op1d7 C39_checks C39_reference C39_translations.
From Coq Require Import Permutation.
Local Open Scope nat_scope.

Section S.
Variables (w : btype) (k : kind) (L T kb : nat) (b : block).
Hypothesis OK : block_ok w k L T b.
Variable basis : list entry.
Notation M := (Mst k L).
Notation Ns := (length basis).
Notation en i := (nth i basis entry0).
Notation st i := (e_s (en i)).
Hypothesis Dst : forall i, i < Ns -> is_state k L (st i).
Notation W := (Wb w k L T kb b basis).
Variable nn : nat -> R.
Hypothesis Hnn : forall i, i < Ns -> (0 < nn i)%R /\ dotv M (W i (st i)) (W i (st i)) = RtoC (nn i * nn i).
Hypothesis HC : forall real, (real && needs_complex L T kb b)%bool = false -> cols_ok w k L T kb M b basis W nn real.
Variables (n_sites : nat) (allowed : list ascii) (scale : list ascii -> R) (op : list (ascii * nat) -> N -> C -> option (N * C)).
Variable mat : list (ascii * nat) -> cmat.
Hypothesis Hop : forall l, okl n_sites allowed l -> acts_as M (op l) (mat l).
Notation OpF := (fun real => Op1d w k L T kb real b basis n_sites allowed scale op).
Notation psi i := (block_vector w k L T b kb (e_N (en i)) (st i)).

Lemma psi_W i t : i < Ns -> psi i t = W i (st i) t.
Proof. intros Hi. unfold Wb. apply block_V; [exact OK|apply Dst, Hi]. Qed.
Lemma norm_nn i : i < Ns -> norm1 k L (psi i) = nn i.
Proof.
  intros Hi. destruct (Hnn i Hi) as [Hp Hd]. unfold norm1, inner1. rewrite (Csum_ext _ _ (fun t => Cconj (W i (st i) t) * W i (st i) t)%C) by (intros t _; rewrite psi_W by exact Hi; reflexivity).
  unfold dotv in Hd. rewrite Hd. cbn [fst RtoC]. apply sqrt_square. lra.
Qed.
Lemma norm_psi i t : i < Ns -> normalised k L (psi i) t = (W i (st i) t * RtoC (/ nn i))%C.
Proof. intros Hi. unfold normalised. rewrite norm_nn, psi_W by exact Hi. reflexivity. Qed.
Lemma block_matrix ts : Forall (fun x => okl n_sites allowed (fst x)) ts -> commutes_with w k L T b (H_total scale mat ts) ->
  (exists Mx, make_matrix (OpF false) ts = Some Mx) /\
  forall real Mx, make_matrix (OpF real) ts = Some Mx -> forall i j, i < Ns -> j < Ns ->
    Mx j i = inner1 k L (normalised k L (psi j)) (applied k L (H_total scale mat ts) (normalised k L (psi i))).
Proof.
  intros Hts Hcom. pose proof (block_grp w k L T b OK) as GR.
  assert (HD : forall i, i < Ns -> (st i < N.of_nat M)%N) by (intros i Hi; apply M_st, Dst, Hi).
  destruct (make_matrix_1d w k L T kb M b basis HD W nn n_sites allowed scale op mat Hop HC ts Hts) as [E1 E2].
  { intros i t Hi Ht. unfold Wb. apply (A_V _ _ _ _ _ _ _ GR); [apply commutes_block; [exact OK|exact Hcom]|apply (cf_per w k L T kb b OK)|apply HD, Hi|exact Ht]. }
  split; [exact E1|]. intros real Mx HM i j Hi Hj. rewrite (E2 real Mx HM i j Hi Hj).
  unfold inner1, dotv. rewrite <- Csum_mul_r. apply Csum_ext. intros t _. rewrite (norm_psi j t Hj). unfold applied.
  rewrite (Csum_ext (all_states M) (fun u => H_total scale mat ts t u * normalised k L (psi i) u)%C (fun u => H_total scale mat ts t u * W i (st i) u * RtoC (/ nn i))%C) by (intros u _; rewrite (norm_psi i u Hi); ring).
  rewrite Csum_mul_r, Cconj_mul, Cconj_RtoC, RtoC_mul. ring.
Qed.
Lemma block_orthonormal : (forall i j, i < Ns -> j < Ns -> i <> j -> dotv M (W j (st j)) (W i (st i)) = C0) ->
  forall i j, i < Ns -> j < Ns -> inner1 k L (normalised k L (psi j)) (normalised k L (psi i)) = if i =? j then C1 else C0.
Proof.
  intros Ho i j Hi Hj. unfold inner1. rewrite (Csum_ext _ _ (fun t => RtoC (/ nn j * / nn i) * (Cconj (W j (st j) t) * W i (st i) t))%C).
  2:{ intros t _. rewrite (norm_psi i t Hi), (norm_psi j t Hj), Cconj_mul, Cconj_RtoC, RtoC_mul. ring. }
  rewrite Csum_mul_l. fold (dotv M (W j (st j)) (W i (st i))). destruct (Nat.eqb_spec i j) as [<-|Hne].
  - destruct (Hnn i Hi) as [Hp Hd]. rewrite Hd, <- RtoC_mul. replace (/ nn i * / nn i * (nn i * nn i))%R with 1%R by (field; lra). reflexivity.
  - rewrite Ho by assumption. ring.
Qed.
End S.

Section A.
Variables (w : btype) (k : kind) (L T kb : nat) (b : block).
Hypothesis OK : block_ok w k L T b.
Hypothesis Pz : pz_ok k b.
Hypothesis Sm : semi b = false.
Variables (states : list N) (es basis : list entry).
Hypothesis Hst : forall s, In s states -> is_state k L s.
Hypothesis Hnd : NoDup states.
Hypothesis Hfull : b = BFull -> Permutation (all_states (Mst k L)) states.
Hypothesis Hcol : collect w k L T kb b states = Some es.
Hypothesis Harr : arranged es basis.
Notation M := (Mst k L).
Notation Ns := (length basis).
Notation en i := (nth i basis entry0).
Notation st i := (e_s (en i)).
Notation nn := (nnb L T kb b basis).
Notation W := (Wb w k L T kb b basis).
Lemma ab_st i : i < Ns -> is_state k L (st i).
Proof. intros Hi. apply (ent_ok w k L T kb b OK Sm states es basis Hst Hcol Harr i Hi). Qed.
Lemma ab_nn i : i < Ns -> (0 < nn i)%R /\ dotv M (W i (st i)) (W i (st i)) = RtoC (nn i * nn i).
Proof.
  intros Hi. destruct (ent_ok w k L T kb b OK Sm states es basis Hst Hcol Harr i Hi) as (_ & _ & Hd & Hp). pose proof (kap_pos w k L T b OK) as KP.
  assert (P : (0 < kap L T b * nrm L T kb b (en i))%R) by (apply Rmult_lt_0_compat; assumption). unfold nnb. split; [apply sqrt_lt_R0, P|].
  rewrite sqrt_sqrt by lra. rewrite <- Hd. unfold Wb. rewrite (cf_ab L T kb b Sm). reflexivity.
Qed.
Lemma ab_orth i j : i < Ns -> j < Ns -> i <> j -> dotv M (W j (st j)) (W i (st i)) = C0.
Proof.
  intros Hi Hj Hne. pose proof (block_grp w k L T b OK) as GR.
  destruct (ent_ok w k L T kb b OK Sm states es basis Hst Hcol Harr i Hi) as (Si & Xi & _). destruct (ent_ok w k L T kb b OK Sm states es basis Hst Hcol Harr j Hj) as (Sj & Xj & _).
  unfold Wb. apply (dot_orbits _ _ _ _ _ _ _ GR); [apply (cf_per w k L T kb b OK)|apply M_st, Sj|apply M_st, Si|]. intros x g Hg E.
  apply Hne. apply (st_inj w k L T kb b OK Sm states es basis Hst Hnd Hcol Harr i j Hi Hj). pose proof (Xi x g Hg) as L1. rewrite E in L1.
  pose proof (inv_l _ _ _ _ _ _ _ GR x g (st i) Hg (proj2 (M_st k L _) Si)) as Ei. rewrite E in Ei. pose proof (Xj (- sg (eps (two_of b) (translates b) g) x)%Z g Hg) as L2. rewrite Ei in L2. lia.
Qed.
Lemma ab_cols real : (real && needs_complex L T kb b)%bool = false -> cols_ok w k L T kb M b basis W nn real.
Proof. apply (cols_ab w k L T kb b OK Pz Sm states es basis Hst Hnd Hfull Hcol Harr). Qed.
End A.
