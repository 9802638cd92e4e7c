(* Full inversion (particle-hole exchange) of the fermion bases, and the counterexamples. *)
From Verif Require Import AuxN SpecC SpecBits SpecDigits SpecMaps SpecSymm SpecOps SpecInv SpecFermi SpecProj M_bitcount M_maps M_symm M_fmap M_ops M_opstr P_next P_boson P_maps P_period P_ops P_mat P_fermion P_opstr P_opinst P_lists P_listinst P_symmlist P_symopinst P_fmap P_fmap2 P_fmap3 P_fmap4.
From Coq Require Import Setoid Morphisms Permutation Sorted.
Local Open Scope nat_scope.

Definition full_inversion (n : nat) : list Z := map (fun i => (- (Z.of_nat i + 1))%Z) (seq 0 n).
Lemma full_nth n i : i < n -> nth i (full_inversion n) 0%Z = (- (Z.of_nat i + 1))%Z.
Proof. intros Hi. unfold full_inversion. set (f := fun i => (- (Z.of_nat i + 1))%Z). rewrite (nth_indep _ 0%Z (f 0)) by (rewrite map_length, seq_length; exact Hi). rewrite map_nth, seq_nth by exact Hi. reflexivity. Qed.
Lemma full_target n i : i < n -> target (nth i (full_inversion n) 0%Z) = i.
Proof. intros Hi. rewrite full_nth by exact Hi. unfold target. destruct (Z.ltb_spec (- (Z.of_nat i + 1)) 0); lia. Qed.
Lemma full_flips n i : i < n -> flips (nth i (full_inversion n) 0%Z) = true.
Proof. intros Hi. rewrite full_nth by exact Hi. unfold flips. apply Z.ltb_lt. lia. Qed.
Lemma full_perm n : signed_perm n (full_inversion n).
Proof.
  unfold signed_perm, full_inversion. rewrite map_map. replace (map _ (seq 0 n)) with (seq 0 n); [apply Permutation_refl|].
  symmetry. rewrite <- (map_id (seq 0 n)) at 2. apply map_ext_in. intros i Hi. apply in_seq in Hi. rewrite <- (full_nth n) by lia. apply full_target. lia.
Qed.
Lemma filter_gt n i : i < n -> length (filter (fun k => i <? k) (seq 0 n)) = n - 1 - i.
Proof.
  induction n as [|n IH]; [lia|]. intros Hi. rewrite seq_S, filter_app, app_length. cbn [Nat.add filter]. destruct (Nat.eq_dec i n) as [->|Ne].
  - rewrite Nat.ltb_irrefl. cbn [length]. replace (filter (fun k => n <? k) (seq 0 n)) with (@nil nat); [cbn; lia|]. symmetry.
    assert (F : forall l, (forall k, In k l -> k < n) -> filter (fun k => n <? k) l = []) by (induction l as [|a l IHl]; intros Hl; [reflexivity|]; cbn [filter];
      destruct (Nat.ltb_spec n a); [specialize (Hl a (or_introl eq_refl)); lia|apply IHl; intros k Hk; apply Hl; right; exact Hk]).
    apply F. intros k Hk. apply in_seq in Hk. lia.
  - rewrite IH by lia. destruct (Nat.ltb_spec i n); [|lia]. cbn [length]. lia.
Qed.
Lemma full_filled n i : i < n -> filled_behind n (full_inversion n) i = n - 1 - i.
Proof.
  intros Hi. unfold filled_behind. rewrite <- (filter_gt n i Hi). f_equal. apply filter_ext_in. intros k Hk. apply in_seq in Hk.
  rewrite full_flips, !full_target by lia. reflexivity.
Qed.
Lemma full_law bytes n o i : (N.of_nat n <= 8 * bytes)%N -> n <= 256 -> (o = "+" \/ o = "-")%char -> i < n ->
  let M := N.to_nat (2 ^ N.of_nat n) in let U := map_matrix (fermion_map_bits n (full_inversion n)) in
  meq M (mmul M U (cop bytes n o i)) (mscale (RtoC (IZR (neg_one_pow (n - 1)))) (mmul M (cop bytes n (other o) i) U)).
Proof.
  intros Hw Hn Ho Hi. cbv zeta. pose proof (law_pm bytes n (full_inversion n) Hw Hn (full_perm n) o i Ho Hi) as L.
  rewrite full_flips, full_target in L by exact Hi. rewrite eta_spec, full_flips, full_filled in L by exact Hi. replace (i + (n - 1 - i)) with (n - 1) in L by lia. exact L.
Qed.

(* two orbitals *)
Definition ph2 : list Z := [-1; -2]%Z.
Lemma ph2_full : ph2 = full_inversion 2. Proof. reflexivity. Qed.
Lemma ph2_accepted : accepted 2 [ph2] [2].
Proof. split; [reflexivity|]. intros [|d] Hd; [|cbn in Hd; lia]. split; [reflexivity|]. exists 10. vm_compute. reflexivity. Qed.
Definition hop2 : list term := [([("+", 0); ("-", 1)], C1); ([("-", 0); ("+", 1)], RtoC (-1))]%char.
Lemma hop2_known : Forall (fun t => Forall (fun oi => In (fst oi) ["+"; "-"]%char /\ snd oi < 2) (fst t)) hop2.
Proof. unfold hop2. repeat (constructor; [repeat (constructor; [cbn; split; [tauto|lia]|]); constructor|]). constructor. Qed.
Lemma hop2_ok : Forall (fun t => Forall (fun oi => fermion_known (fst oi) /\ snd oi < 2) (fst t)) hop2.
Proof. unfold hop2, fermion_known. repeat (constructor; [repeat (constructor; [cbn; split; [tauto|lia]|]); constructor|]). constructor. Qed.
Lemma hop2_sort t : In t hop2 -> fermion_sort t = t.
Proof. intros [<-|[<-|[]]]; unfold fermion_sort, fermion_sort_opstr; cbn; f_equal; apply C_eq; cbn; ring. Qed.
Lemma hop2_check : check_symm_map fermion_sort (fun i => nth i ph2 0%Z) hop2 = true.
Proof.
  unfold check_symm_map. cbv zeta. assert (E : map fermion_sort hop2 = hop2) by (rewrite <- (map_id hop2) at 2; apply map_ext_in; exact hop2_sort).
  rewrite E. apply forallb_forall. intros t Ht.
  assert (S : symm_term (fun i => nth i ph2 0%Z) t = (t, false)).
  { destruct t as [l J]. rewrite symm_term_eq. cbn [hop2 In] in Ht. destruct Ht as [X|[X|[]]]; injection X as <- <-; cbn; f_equal; f_equal; apply C_eq; cbn; ring. }
  rewrite S. cbn [negb andb]. apply term_in_iff. rewrite (hop2_sort t Ht). exact Ht.
Qed.
Lemma hop2_entry : terms_matrix (fermion_op 4 2) hop2 2%N 1%N = C1 /\ terms_matrix (fermion_op 4 2) hop2 1%N 2%N = C1.
Proof.
  assert (Hw : (N.of_nat 2 <= 8 * 4)%N) by (cbn; lia). assert (Hn : 2 <= 256) by lia.
  assert (E : forall l J r s, In (l, J) hop2 -> (r < 4)%N -> (s < 4)%N -> op_matrix (fermion_op 4 2 l) r s = string_matrix 4 (cop 4 2) l r s).
  { intros l J r s Ht Hr Hs. pose proof hop2_ok as K. rewrite Forall_forall in K. exact (go_matrix _ _ _ _ _ (fermion_good 4 2 Hw Hn) l (K _ Ht) r s Hr Hs). }
  assert (S : forall o i o' j r s, fermion_known o -> fermion_known o' -> i < 2 -> j < 2 -> (r < 4)%N -> (s < 4)%N -> string_matrix 4 (cop 4 2) [(o, i); (o', j)] r s =
    if (r =? fstate o (2 - i - 1) (fstate o' (2 - j - 1) s))%N then (famp o (2 - i - 1) (fstate o' (2 - j - 1) s) * famp o' (2 - j - 1) s)%C else C0).
  { intros o i o' j r s Ho Ho' Hi Hj Hr Hs. assert (I4 : meq 4 (string_matrix 4 (cop 4 2) [(o, i); (o', j)]) (mmul 4 (cop 4 2 o i) (cop 4 2 o' j))).
    { rewrite !SM_cons, SM_nil. rewrite mmul_ident_r. reflexivity. }
    rewrite (I4 r s Hr Hs). assert (L : (fstate o' (2 - j - 1) s < 2 ^ N.of_nat 2)%N) by (apply fstate_lt; [lia|exact Hs]).
    exact (proj2 (mono_mul 4 _ _ _ _ _ _ _ (cop_mono 4 2 Hw Hn o' j s Ho' Hj Hs) (cop_mono 4 2 Hw Hn o i _ Ho Hi L)) r Hr). }
  assert (Kp : fermion_known "+") by (unfold fermion_known; cbn; tauto). assert (Km : fermion_known "-") by (unfold fermion_known; cbn; tauto).
  unfold hop2. rewrite !TM_cons. change (terms_matrix (fermion_op 4 2) []) with mzero. unfold madd, term_matrix, mscale, mzero. cbn [fst snd].
  split.
  - rewrite (E [("+", 0); ("-", 1)]%char C1 2%N 1%N), (E [("-", 0); ("+", 1)]%char (RtoC (-1)) 2%N 1%N) by (lia || (cbn; tauto)). cbn [fst]. rewrite !S by (assumption || lia). apply C_eq; cbn; ring.
  - rewrite (E [("+", 0); ("-", 1)]%char C1 1%N 2%N), (E [("-", 0); ("+", 1)]%char (RtoC (-1)) 1%N 2%N) by (lia || (cbn; tauto)). cbn [fst]. rewrite !S by (assumption || lia). apply C_eq; cbn; ring.
Qed.
Lemma hop2_not : let U := map_matrix (fermion_map_bits 2 ph2) in let H := terms_matrix (fermion_op 4 2) hop2 in ~ meq 4 (mmul 4 U H) (mmul 4 H U).
Proof.
  cbv zeta. intros H. assert (P : signed_perm 2 ph2) by (rewrite ph2_full; apply full_perm).
  pose proof (UM_commutes 2 ph2 P _ H 2%N 1%N ltac:(cbn; lia) ltac:(cbn; lia)) as E.
  replace (fermion_map_bits 2 ph2 2) with (1%N, 1%Z) in E by (vm_compute; reflexivity). replace (fermion_map_bits 2 ph2 1) with (2%N, (-1)%Z) in E by (vm_compute; reflexivity). cbn [fst snd] in E.
  destruct hop2_entry as [E1 E2]. rewrite E1, E2 in E. apply (f_equal fst) in E. cbn in E. lra.
Qed.
Lemma ph2_law_doc : ~ (forall i, i < 2 -> meq 4 (mmul 4 (map_matrix (fermion_map_bits 2 ph2)) (cop 4 2 "+" i))
  (mscale (RtoC (IZR (neg_one_pow i))) (mmul 4 (cop 4 2 "-" i) (map_matrix (fermion_map_bits 2 ph2))))).
Proof.
  intros H. assert (Hw : (N.of_nat 2 <= 8 * 4)%N) by (cbn; lia). assert (Hn : 2 <= 256) by lia.
  pose proof (H 0 ltac:(lia)) as A. pose proof (full_law 4 2 "+" 0 Hw Hn ltac:(tauto) ltac:(lia)) as B. cbv zeta in B. rewrite <- ph2_full in B. change (N.to_nat (2 ^ N.of_nat 2)) with 4 in B. change (other "+") with "-"%char in B.
  assert (L : (1 < N.of_nat 4)%N) by (cbn; lia). assert (L0 : (0 < N.of_nat 4)%N) by (cbn; lia).
  specialize (A 1%N 0%N L L0). rewrite (B 1%N 0%N L L0) in A. change (neg_one_pow 0) with 1%Z in A. change (neg_one_pow (2 - 1)) with (-1)%Z in A. unfold mscale in A.
  assert (P : signed_perm 2 ph2) by (rewrite ph2_full; apply full_perm).
  change 4 with (N.to_nat (2 ^ N.of_nat 2)) in A. rewrite (UM_col 2 ph2 P _ 1%N 0%N ltac:(cbn; lia)) in A. replace (hcb_map_bits 2 ph2 0) with 3%N in A by (vm_compute; reflexivity).
  destruct (cop_mono 4 2 Hw Hn "-" 0 3%N ltac:(cbn; tauto) ltac:(lia) ltac:(cbn; lia)) as [_ K]. rewrite (K 1%N) in A by (cbn; lia). clear - A. apply (f_equal fst) in A. cbn in A. lra.
Qed.
