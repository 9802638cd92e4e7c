(* The word types chosen for one-dimensional bases, and where the operations are undefined. *)
From Verif Require Import AuxN SpecMaps SpecFermi SpecChain M_bitcount M_bits1d SpecChain1d P_maps P_square P_bits1d P_bits1d4 P_bits1d5.
Local Open Scope nat_scope.

Lemma word_for_ge x : match word_bits (word_for x) with Some d => (x < 2 ^ N.of_nat d)%N | None => True end.
Proof. unfold word_for. destruct (N.ltb_spec x (2 ^ 32)); [exact H|]. destruct (N.ltb_spec x (2 ^ 64)); [exact H0|exact I]. Qed.
Lemma type_all k L : 1 <= L -> (2 <= levels k)%N -> match k with Hcp true => L <> 32 /\ L <> 64 | Spf => False | _ => True end -> states_fit (basis_type k L None) k L.
Proof.
  intros HL HB Hk. split; [exact HL|]. unfold basis_type. destruct k as [[|]|b|]; cbn [levels] in *.
  - pose proof (word_for_ge (2 ^ N.of_nat L - 1)) as W. unfold less_than. destruct (word_bits _) as [d|] eqn:E; [|exact I].
    assert (D : d = 32 \/ d = 64) by (destruct (word_for _); cbn in E; inversion E; auto).
    assert (P : (2 ^ N.of_nat L <= 2 ^ N.of_nat d)%N) by (pose proof (N.pow_nonzero 2 (N.of_nat L) ltac:(lia)); lia). apply N.pow_le_mono_r_iff in P; lia.
  - pose proof (word_for_ge (2 ^ N.of_nat L - 1)) as W. unfold at_most. destruct (word_bits _) as [d|] eqn:E; [|exact I].
    assert (P : (2 ^ N.of_nat L <= 2 ^ N.of_nat d)%N) by (pose proof (N.pow_nonzero 2 (N.of_nat L) ltac:(lia)); lia). apply N.pow_le_mono_r_iff in P; lia.
  - split; [exact HB|]. pose proof (word_for_ge (b ^ N.of_nat L - 1)) as W. destruct (word_bits _) as [d|] eqn:E; [|exact I]. pose proof (N.pow_nonzero b (N.of_nat L) ltac:(lia)). lia.
  - destruct Hk.
Qed.
Lemma fold_add_le {X} (f : X -> N) l a : (a <= fold_left (fun acc i => acc + f i) l a)%N.
Proof. revert a. induction l as [|x l IH]; intros a; cbn [fold_left]; [lia|]. specialize (IH (a + f x)%N). lia. Qed.
Lemma s_max_ge L np : 1 <= L -> (1 <= np)%N -> (2 ^ (N.of_nat L - 1) <= s_max 2 L np)%N.
Proof.
  intros HL Hn. unfold s_max. change (2 - 1)%N with 1%N. rewrite N.div_1_r, N.mod_1_r, N.mul_0_l, N.add_0_r. destruct (N.to_nat np) as [|m] eqn:E; [lia|]. cbn [seq fold_left].
  eapply N.le_trans; [|apply (fold_add_le (fun i => (1 * 2 ^ (N.of_nat L - 1 - N.of_nat i))%N))]. change (N.of_nat 0) with 0%N. rewrite N.sub_0_r. lia.
Qed.
Lemma pow_pred L d x : 1 <= L -> (2 ^ (N.of_nat L - 1) <= x)%N -> (x < 2 ^ N.of_nat d)%N -> L <= d.
Proof. intros HL H1 H2. assert (P : (2 ^ (N.of_nat L - 1) < 2 ^ N.of_nat d)%N) by lia. apply N.pow_lt_mono_r_iff in P; lia. Qed.
Lemma type_particles k L np nq : 1 <= L -> (1 <= np)%N -> match k with Hcp true => L <> 32 /\ L <> 64 | Boson _ => False | _ => True end -> states_fit (basis_type k L (Some (np, nq))) k L.
Proof.
  intros HL Hn Hk. split; [exact HL|]. unfold basis_type. pose proof (s_max_ge L np HL Hn) as S. destruct k as [[|]|b|].
  - pose proof (word_for_ge (s_max 2 L np)) as W. unfold less_than. destruct (word_bits _) as [d|] eqn:E; [|exact I]. assert (D : d = 32 \/ d = 64) by (destruct (word_for _); cbn in E; inversion E; auto). pose proof (pow_pred L d _ HL S W). lia.
  - pose proof (word_for_ge (s_max 2 L np)) as W. unfold at_most. destruct (word_bits _) as [d|] eqn:E; [|exact I]. exact (pow_pred L d _ HL S W).
  - destruct Hk.
  - set (x := (N.shiftl (s_max 2 L np) (N.of_nat L) + s_max 2 L nq)%N). pose proof (word_for_ge x) as W. unfold at_most. destruct (word_bits _) as [d|] eqn:E; [|exact I].
    apply (pow_pred (2 * L) d x); [lia| |exact W]. unfold x. rewrite N.shiftl_mul_pow2. replace (N.of_nat (2 * L) - 1)%N with ((N.of_nat L - 1) + N.of_nat L)%N by lia. rewrite N.pow_add_r.
    pose proof (N.mul_le_mono_r _ _ (2 ^ N.of_nat L)%N S). lia.
Qed.
(* spinless fermions on chains as long as the word: every operation is undefined *)
Lemma bcount_full w d I : word_bits w = Some d -> bcount w I (N.of_nat d) = None.
Proof. destruct w; cbn [word_bits]; intros E; inversion E; reflexivity. Qed.
Lemma hcp_full_shift w d x s sg : word_bits w = Some d -> op_shift w (Hcp true) d x (s, sg) = None.
Proof.
  intros E. cbn [op_shift]. unfold hcp_shift. destruct (_ <? 0)%Z; [reflexivity|]. destruct (_ && _)%bool; [|reflexivity]. rewrite (bcount_full w d _ E). reflexivity.
Qed.
Lemma hcp_full_flip w d s sg : word_bits w = Some d -> op_flip w (Hcp true) d (s, sg) = None.
Proof. intros E. cbn [op_flip]. unfold hcp_fliplr. rewrite (bcount_full w d _ E). reflexivity. Qed.
(* the type chosen for such chains *)
Lemma full_type : basis_type (Hcp true) 32 None = U32 /\ basis_type (Hcp true) 64 None = U64. Proof. split; vm_compute; reflexivity. Qed.
