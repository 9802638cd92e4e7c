(* Matrix algebra up to equality on the first M states. *)
From Verif Require Import AuxN SpecC SpecOps P_ops.
From Coq Require Import Setoid Morphisms Permutation.
Local Open Scope nat_scope.

Global Instance meq_equiv M : Equivalence (meq M).
Proof.
  split; [intros A r s _ _; reflexivity|intros A B H r s Hr Hs; symmetry; auto|intros A B D H1 H2 r s Hr Hs; rewrite H1, H2; auto].
Qed.
Global Instance mmul_proper M : Proper (meq M ==> meq M ==> meq M) (mmul M).
Proof.
  intros A A' HA B B' HB r s Hr Hs. unfold mmul. apply Csum_ext. intros k Hk. apply In_all_states in Hk. rewrite HA, HB by assumption. reflexivity.
Qed.
Global Instance madd_proper M : Proper (meq M ==> meq M ==> meq M) madd.
Proof. intros A A' HA B B' HB r s Hr Hs. unfold madd. rewrite HA, HB by assumption. reflexivity. Qed.
Global Instance mscale_proper M : Proper (eq ==> meq M ==> meq M) mscale.
Proof. intros c c' <- A A' HA r s Hr Hs. unfold mscale. rewrite HA by assumption. reflexivity. Qed.
Global Instance madj_proper M : Proper (meq M ==> meq M) madj.
Proof. intros A A' HA r s Hr Hs. unfold madj. rewrite HA by assumption. reflexivity. Qed.

Lemma mmul_assoc M A B D : meq M (mmul M (mmul M A B) D) (mmul M A (mmul M B D)).
Proof.
  intros r s Hr Hs. unfold mmul.
  rewrite (Csum_ext _ _ (fun k => Csum (all_states M) (fun j => (A r j * B j k * D k s)%C))) by (intros; rewrite <- Csum_mul_r; reflexivity).
  rewrite Csum_swap. apply Csum_ext. intros j Hj. rewrite <- Csum_mul_l. apply Csum_ext. intros k Hk. ring.
Qed.
Lemma mmul_ident_l M A : meq M (mmul M mident A) A.
Proof.
  intros r s Hr Hs. unfold mmul, mident. rewrite (Csum_single _ _ r).
  - rewrite N.eqb_refl. ring.
  - apply NoDup_all_states.
  - apply In_all_states. exact Hr.
  - intros k _ Hk. destruct (N.eqb_spec r k) as [->|_]; [congruence|ring].
Qed.
Lemma mmul_ident_r M A : meq M (mmul M A mident) A.
Proof.
  intros r s Hr Hs. unfold mmul, mident. rewrite (Csum_single _ _ s).
  - rewrite N.eqb_refl. ring.
  - apply NoDup_all_states.
  - apply In_all_states. exact Hs.
  - intros k _ Hk. destruct (N.eqb_spec k s) as [->|_]; [congruence|ring].
Qed.
Lemma madj_mmul M A B : meq M (madj (mmul M A B)) (mmul M (madj B) (madj A)).
Proof. intros r s Hr Hs. unfold madj, mmul. rewrite Csum_conj. apply Csum_ext. intros k _. rewrite Cconj_mul. ring. Qed.
Lemma madj_ident M : meq M (madj mident) mident.
Proof.
  intros r s Hr Hs. unfold madj, mident. rewrite N.eqb_sym. destruct (s =? r)%N eqn:E; rewrite N.eqb_sym, E; apply C_eq; cbn; ring.
Qed.
Lemma madj_scale M c A : meq M (madj (mscale c A)) (mscale (Cconj c) (madj A)).
Proof. intros r s Hr Hs. unfold madj, mscale. apply Cconj_mul. Qed.
Lemma madj_add M A B : meq M (madj (madd A B)) (madd (madj A) (madj B)).
Proof. intros r s Hr Hs. unfold madj, madd. apply Cconj_add. Qed.
Lemma madj_invol M A : meq M (madj (madj A)) A.
Proof. intros r s Hr Hs. unfold madj. apply Cconj_invol. Qed.
Lemma madj_zero M : meq M (madj mzero) mzero.
Proof. intros r s Hr Hs. unfold madj, mzero. apply C_eq; cbn; ring. Qed.
Lemma mscale_mul_l M c A B : meq M (mmul M (mscale c A) B) (mscale c (mmul M A B)).
Proof. intros r s Hr Hs. unfold mscale, mmul. rewrite <- Csum_mul_l. apply Csum_ext. intros; ring. Qed.
Lemma mscale_mul_r M c A B : meq M (mmul M A (mscale c B)) (mscale c (mmul M A B)).
Proof. intros r s Hr Hs. unfold mscale, mmul. rewrite <- Csum_mul_l. apply Csum_ext. intros; ring. Qed.
Lemma mscale_scale M c d A : meq M (mscale c (mscale d A)) (mscale (c * d)%C A).
Proof. intros r s Hr Hs. unfold mscale. ring. Qed.
Lemma mscale_1 M A : meq M (mscale C1 A) A.
Proof. intros r s Hr Hs. unfold mscale. ring. Qed.
Lemma mscale_0 M A : meq M (mscale C0 A) mzero.
Proof. intros r s Hr Hs. unfold mscale, mzero. ring. Qed.
Lemma mscale_zero M c : meq M (mscale c mzero) mzero.
Proof. intros r s Hr Hs. unfold mscale, mzero. ring. Qed.
Lemma mscale_add M c A B : meq M (mscale c (madd A B)) (madd (mscale c A) (mscale c B)).
Proof. intros r s Hr Hs. unfold mscale, madd. ring. Qed.
Lemma mscale_plus M c d A : meq M (mscale (c + d)%C A) (madd (mscale c A) (mscale d A)).
Proof. intros r s Hr Hs. unfold mscale, madd. ring. Qed.
Lemma madd_comm M A B : meq M (madd A B) (madd B A).
Proof. intros r s Hr Hs. unfold madd. ring. Qed.
Lemma madd_assoc M A B D : meq M (madd (madd A B) D) (madd A (madd B D)).
Proof. intros r s Hr Hs. unfold madd. ring. Qed.
Lemma madd_0_l M A : meq M (madd mzero A) A.
Proof. intros r s Hr Hs. unfold madd, mzero. ring. Qed.
Lemma madd_0_r M A : meq M (madd A mzero) A.
Proof. intros r s Hr Hs. unfold madd, mzero. ring. Qed.
Lemma mmul_add_l M A B D : meq M (mmul M (madd A B) D) (madd (mmul M A D) (mmul M B D)).
Proof. intros r s Hr Hs. unfold madd, mmul. rewrite <- Csum_add. apply Csum_ext. intros; ring. Qed.
Lemma mmul_add_r M A B D : meq M (mmul M A (madd B D)) (madd (mmul M A B) (mmul M A D)).
Proof. intros r s Hr Hs. unfold madd, mmul. rewrite <- Csum_add. apply Csum_ext. intros; ring. Qed.
Lemma mmul_0_l M A : meq M (mmul M mzero A) mzero.
Proof. intros r s Hr Hs. unfold mmul, mzero. apply Csum_zero. intros; ring. Qed.
Lemma mmul_0_r M A : meq M (mmul M A mzero) mzero.
Proof. intros r s Hr Hs. unfold mmul, mzero. apply Csum_zero. intros; ring. Qed.

(* strings *)
Section Strings.
Variables (M : nat) (mat : ascii -> nat -> cmat).
Notation SM := (string_matrix M mat).

Lemma SM_cons o i l : SM ((o, i) :: l) = mmul M (mat o i) (SM l). Proof. reflexivity. Qed.
Lemma SM_nil : SM [] = mident. Proof. reflexivity. Qed.
Lemma SM_app l l' : meq M (SM (l ++ l')) (mmul M (SM l) (SM l')).
Proof.
  induction l as [|[o i] l IH]; cbn [app]; [rewrite SM_nil, mmul_ident_l; reflexivity|]. rewrite !SM_cons, IH, mmul_assoc. reflexivity.
Qed.
Lemma SM_one o i : meq M (SM [(o, i)]) (mat o i).
Proof. rewrite SM_cons, SM_nil. apply mmul_ident_r. Qed.
End Strings.

Lemma string_matrix_ext M mat mat' l : Forall (fun oi => meq M (mat (fst oi) (snd oi)) (mat' (fst oi) (snd oi))) l ->
  meq M (string_matrix M mat l) (string_matrix M mat' l).
Proof.
  induction 1 as [|[o i] l H _ IH]; [reflexivity|]. rewrite !SM_cons. cbn [fst snd] in H. rewrite H, IH. reflexivity.
Qed.

Lemma acts_as_matrix M op A : acts_as M op A -> meq M (op_matrix op) A.
Proof.
  intros H r s Hr Hs. unfold op_matrix. destruct (H s C1 Hs) as (r' & m' & E & Hr' & HA). rewrite E. specialize (HA r Hr).
  rewrite <- HA. ring.
Qed.
Lemma acts_as_meq M op A B : meq M A B -> acts_as M op A -> acts_as M op B.
Proof.
  intros E H s m Hs. destruct (H s m Hs) as (r & m' & E1 & Hr & HA). exists r, m'. split; [exact E1|]. split; [exact Hr|].
  intros t Ht. rewrite <- (E t s Ht Hs). auto.
Qed.
