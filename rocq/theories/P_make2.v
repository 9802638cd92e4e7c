From Verif Require Import AuxN SpecC SpecBits SpecDigits SpecMaps SpecSymm SpecSector SpecBasis M_benes M_maps M_symm M_next M_hdim M_make P_maps P_next P_boson P_hdim P_symm P_norm P_symminst P_make.
Local Open Scope nat_scope.

Lemma full_enumeration M : lists_increasing (fun s => (s < N.of_nat M)%N) (visited N.succ M 0).
Proof.
  rewrite visited_map.
  assert (I : forall k, Nat.iter k N.succ 0%N = N.of_nat k).
  { induction k as [|k IH]; [reflexivity|]. rewrite iter_S, IH. lia. }
  split.
  - rewrite (map_ext _ N.of_nat) by apply I. generalize 0%nat at 1. intros a. revert a.
    induction M as [|M IH]; intros a; [constructor|]. cbn [seq map]. constructor; [apply IH|].
    apply Forall_forall. intros x Hx. apply in_map_iff in Hx. destruct Hx as (y & <- & Hy). apply in_seq in Hy. lia.
  - intros s. rewrite in_map_iff. split.
    + intros (k & <- & Hk). apply in_seq in Hk. rewrite I. lia.
    + intros Hs. exists (N.to_nat s). rewrite I. split; [lia|]. apply in_seq. lia.
Qed.

Section Block.
Variables (S D : N -> Prop) (nt : nat) (pers : list nat) (ms : smap) (qs : list Z) (next : N -> N) (MAX : nat) (s0 : N).
Hypotheses (HG : good_maps D nt pers ms) (Hnt : nt <= 32) (SD : forall s, S s -> D s) (HE : lists_increasing S (visited next MAX s0)).
Let B := rev (kept_list (keep pers qs ms nt) (visited next MAX s0)).
Lemma B_block : lists_decreasing (in_block S nt pers qs ms) B.
Proof. apply (kept_lists_block S D); assumption. Qed.
Lemma block_len L : lists_decreasing (in_block S nt pers qs ms) L -> L = B.
Proof. intros H. eapply lists_decreasing_unique; [exact H|apply B_block]. Qed.
Lemma B_length : length B = length (kept_list (keep pers qs ms nt) (visited next MAX s0)).
Proof. apply rev_length. Qed.

Lemma seq_block mem L : make_seq (keep pers qs ms nt) next mem MAX s0 = Some L ->
  lists_decreasing (in_block S nt pers qs ms) L /\ length L <= mem.
Proof. intros H. apply make_seq_some in H. destruct H as [-> H]. split; [apply B_block|exact H]. Qed.
Lemma seq_enough mem L : lists_decreasing (in_block S nt pers qs ms) L -> length L < mem ->
  make_seq (keep pers qs ms nt) next mem MAX s0 = Some L.
Proof. intros H Hl. apply block_len in H. subst L. rewrite B_length in Hl. apply make_seq_room. assumption. Qed.
Lemma seq_small mem L : lists_decreasing (in_block S nt pers qs ms) L -> mem < length L ->
  make_seq (keep pers qs ms nt) next mem MAX s0 = None.
Proof. intros H Hl. apply block_len in H. subst L. rewrite B_length in Hl. apply make_seq_small. assumption. Qed.

Lemma par_block nthread mem res L : 1 <= nthread -> par_run (keep pers qs ms nt) next nthread mem MAX s0 res ->
  lists_decreasing (in_block S nt pers qs ms) L -> res = if length L <=? mem then Some L else None.
Proof.
  intros Hth R H. apply block_len in H. subst L. rewrite B_length. apply (par_run_result _ _ nthread); try assumption. apply HE.
Qed.
Lemma run_block mt nthread mem L : 1 <= nthread -> make_run (keep pers qs ms nt) next mt nthread nt mem MAX s0 (Some L) ->
  lists_decreasing (in_block S nt pers qs ms) L.
Proof.
  unfold make_run. intros Hth R. destruct (_ && _ && _)%bool.
  - pose proof (par_block _ _ _ _ Hth R B_block) as E. destruct (_ <=? _); [|discriminate]. injection E as ->. apply B_block.
  - symmetry in R. apply seq_block in R. apply R.
Qed.
Lemma run_small mt nthread mem L res : 1 <= nthread -> lists_decreasing (in_block S nt pers qs ms) L -> mem < length L ->
  make_run (keep pers qs ms nt) next mt nthread nt mem MAX s0 res -> res = None.
Proof.
  unfold make_run. intros Hth H Hl R. destruct (_ && _ && _)%bool.
  - rewrite (par_block _ _ _ _ Hth R H). destruct (Nat.leb_spec (length L) mem); [lia|reflexivity].
  - rewrite R. eapply seq_small; eassumption.
Qed.
Lemma run_enough mt nthread mem L res : 1 <= nthread -> lists_decreasing (in_block S nt pers qs ms) L -> length L < mem ->
  make_run (keep pers qs ms nt) next mt nthread nt mem MAX s0 res -> res = Some L.
Proof.
  unfold make_run. intros Hth H Hl R. destruct (_ && _ && _)%bool.
  - rewrite (par_block _ _ _ _ Hth R H). destruct (Nat.leb_spec (length L) mem); [reflexivity|lia].
  - rewrite R. eapply seq_enough; eassumption.
Qed.
Lemma par_seq nthread mem res L : 1 <= nthread -> par_run (keep pers qs ms nt) next nthread mem MAX s0 res ->
  make_seq (keep pers qs ms nt) next mem MAX s0 = Some L -> res = Some L.
Proof.
  intros Hth R E. apply seq_block in E. destruct E as [E Hl]. rewrite (par_block _ _ _ _ Hth R E).
  destruct (Nat.leb_spec (length L) mem); [reflexivity|lia].
Qed.
Lemma par_par n1 n2 mem r1 r2 : 1 <= n1 -> 1 <= n2 -> par_run (keep pers qs ms nt) next n1 mem MAX s0 r1 ->
  par_run (keep pers qs ms nt) next n2 mem MAX s0 r2 -> r1 = r2.
Proof. intros H1 H2 R1 R2. rewrite (par_block _ _ _ _ H1 R1 B_block), (par_block _ _ _ _ H2 R2 B_block). reflexivity. Qed.
End Block.

(* several sectors, then the descending sort of base_general.make *)
Lemma sectors_block {A} (Sec : A -> N -> Prop) D nt pers ms qs (mk : A -> nat -> option (list (N * Z))) nps mem L out :
  (forall np room l, mk np room = Some l -> lists_decreasing (in_block (Sec np) nt pers qs ms) l) ->
  (forall a b s, Sec a s -> Sec b s -> a = b) -> NoDup nps ->
  (forall a s, Sec a s -> D s) ->
  make_sectors mk nps mem [] = Some L -> sorts_descending L out ->
  lists_decreasing (in_block (fun s => exists np, In np nps /\ Sec np s) nt pers qs ms) out.
Proof.
  intros Hmk Hdis ND SD HM [HP HS]. apply make_sectors_spec in HM. destruct HM as (ls & F & HL & _). cbn [app] in HL.
  assert (In1 : forall s n, In (s, n) L <-> in_block (fun s => exists np, In np nps /\ Sec np s) nt pers qs ms s n).
  { intros s n. rewrite HL. clear - F Hmk. unfold in_block. induction F as [|np l nps ls (room & E) F IH].
    - split; [intros []|intros [(np & [] & _) _]].
    - cbn [concat]. rewrite in_app_iff, IH. destruct (Hmk np room l E) as [_ Hin]. rewrite Hin. unfold in_block. split.
      + intros [(H1 & H2)|((np' & H0 & H1) & H2)]; (split; [|exact H2]); [exists np|exists np']; (split; [|assumption]); [left; reflexivity|right; assumption].
      + intros [(np' & [<-|H0] & H1) H2]; [left; split; assumption|right]. split; [exists np'; split; assumption|assumption]. }
  split; [|intros s n; rewrite <- In1; split; apply Permutation_in; [apply Permutation_sym|]; assumption].
  assert (NDL : NoDup (map fst L)).
  { rewrite HL. clear - F Hmk Hdis ND. induction F as [|np l nps ls (room & E) F IH]; [constructor|].
    inversion ND as [|? ? Hn ND']; subst. cbn [concat]. rewrite map_app. destruct (Hmk np room l E) as [Sl Hin].
    apply NoDup_app_intro; try exact []; [| apply IH; assumption |].
    - clear - Sl. induction Sl as [|x m Sm IH G]; cbn; constructor; [|assumption]. rewrite Forall_forall in G.
      intros Hx. apply in_map_iff in Hx. destruct Hx as (y & E & Hy). specialize (G y Hy). lia.
    - intros s H1 H2. apply in_map_iff in H1. destruct H1 as ([s1 n1] & <- & H1). cbn [fst] in *. apply Hin in H1. destruct H1 as [H1 _].
      apply in_map_iff in H2. destruct H2 as ([s2 n2] & E2 & H2). cbn [fst] in E2. subst s2.
      apply in_concat in H2. destruct H2 as (l2 & Hl2 & H2).
      assert (X : exists np2, In np2 nps /\ exists r2, mk np2 r2 = Some l2).
      { clear - F Hl2. induction F as [|np l nps ls (room & E) F IH]; [destruct Hl2|]. destruct Hl2 as [->|Hl2]; [exists np; split; [left; reflexivity|eauto]|].
        destruct (IH Hl2) as (np2 & Hn & H). exists np2. split; [right; assumption|assumption]. }
      destruct X as (np2 & Hnp2 & r2 & E2). apply (Hmk np2 r2 l2 E2) in H2. destruct H2 as [H2 _].
      apply Hn. rewrite (Hdis np np2 s1 H1 H2). assumption. }
  assert (NDO : NoDup (map fst out)) by (eapply Permutation_NoDup; [apply Permutation_map; exact HP|exact NDL]).
  clear - HS NDO. induction HS as [|x m Sm IH G]; cbn in NDO; constructor; inversion NDO as [|? ? Hx ND']; subst.
  - apply IH; assumption.
  - rewrite Forall_forall in *. intros y Hy. specialize (G y Hy). assert (fst y <> fst x); [|lia].
    intros E. apply Hx. rewrite <- E. apply in_map. assumption.
Qed.

(* ---- the two-site ring in the odd sector: exactly one state, 10 ---- *)
Definition two_map : list (list Z) := [[1; 0]]%Z.
Lemma two_good : good_maps (fun s => (s < 2 ^ N.of_nat 2)%N) 1 [2] (hcb_smap 5 2 two_map).
Proof.
  apply (hcb_good_maps 5 2 two_map [2]).
  - cbn. lia.
  - split; [reflexivity|]. intros [|d] Hd; [split; [reflexivity|exists 5; vm_compute; reflexivity]|cbn in Hd; lia].
  - intros [|d] [|e] s Hd He Hs; cbn in Hd, He; try lia; reflexivity.
Qed.
Lemma two_elem g : group_elem [2] g -> g = [0] \/ g = [1].
Proof.
  intros [L H]. destruct g as [|a [|b g]]; cbn in L; try discriminate. specialize (H 0 ltac:(cbn; lia)). cbn in H.
  destruct a as [|[|a]]; [left; reflexivity|right; reflexivity|lia].
Qed.
Lemma two_theta q : theta [q] [2] [1] = (PI * IZR q)%R /\ theta [q] [2] [0] = 0%R.
Proof. unfold theta. cbn [length seq Rsum fold_right nth INR]. split; field. Qed.
Lemma two_fixed s : (s < 4)%N -> gact (hcb_smap 5 2 two_map) [1] s = (s, 1%Z) -> keep [2] [1%Z] (hcb_smap 5 2 two_map) 1 s = None.
Proof.
  intros Hs E. destruct (keep [2] [1%Z] (hcb_smap 5 2 two_map) 1 s) as [n|] eqn:K; [|reflexivity].
  apply (keep_spec _ 1 [2] _ [1%Z] s n two_good) in K; [|exact Hs|lia]. destruct K as (_ & K & _). specialize (K [1]). rewrite E in K.
  assert (V : group_elem [2] [1]) by (split; [reflexivity|intros [|d] Hd; cbn in *; lia]).
  specialize (K V eq_refl). rewrite (proj1 (two_theta 1%Z)) in K. unfold cis in K. rewrite Rmult_1_r, cos_PI, sin_PI in K.
  unfold RtoC, Cmul, C1 in K. cbn [fst snd] in K. injection K as K _. cbn in K. lra.
Qed.
Lemma two_keep : keep [2] [1%Z] (hcb_smap 5 2 two_map) 1 0 = None /\ keep [2] [1%Z] (hcb_smap 5 2 two_map) 1 1 = None /\
  keep [2] [1%Z] (hcb_smap 5 2 two_map) 1 2 = Some 1%Z /\ keep [2] [1%Z] (hcb_smap 5 2 two_map) 1 3 = None.
Proof.
  split; [|split; [|split]].
  - apply two_fixed; [lia|vm_compute; reflexivity].
  - destruct (keep [2] [1%Z] (hcb_smap 5 2 two_map) 1 1) as [n|] eqn:K; [|reflexivity].
    apply (keep_spec _ 1 [2] _ [1%Z] 1%N n two_good) in K; [|reflexivity|lia]. destruct K as (K & _). specialize (K 2%N).
    assert (R : reach 1 (hcb_smap 5 2 two_map) 1 2) by (exists [0]; split; [repeat constructor|vm_compute; reflexivity]). specialize (K R). lia.
  - apply (keep_spec _ 1 [2] _ [1%Z] 2%N 1%Z two_good); [reflexivity|lia|]. split; [|split].
    + intros t Ht. apply (reach_elem _ 1 [2] _ two_good) in Ht; [|reflexivity]. destruct Ht as (g & Vg & <-).
      apply (valid_elem _ 1 [2] _ two_good) in Vg. destruct (two_elem g Vg) as [->| ->]; vm_compute; discriminate.
    + intros g Vg Hf. destruct (two_elem g Vg) as [->| ->].
      * rewrite (proj2 (two_theta 1%Z)), cis_0. replace (snd (gact (hcb_smap 5 2 two_map) [0] 2)) with 1%Z by (vm_compute; reflexivity). apply C_eq; cbn; ring.
      * vm_compute in Hf. discriminate.
    + vm_compute. reflexivity.
  - apply two_fixed; [lia|vm_compute; reflexivity].
Qed.
Lemma two_lists : lists_decreasing (in_block (fun s => (s < N.of_nat 4)%N) 1 [2] [1%Z] (hcb_smap 5 2 two_map)) [(2%N, 1%Z)].
Proof.
  pose proof (kept_lists_block (fun s => (s < N.of_nat 4)%N) _ 1 [2] _ [1%Z] (visited N.succ 4 0) two_good ltac:(lia) ltac:(trivial) (full_enumeration 4)) as H.
  cbn [visited] in H. unfold kept_list in H. cbn [flat_map] in H.
  change (N.succ (N.succ (N.succ 0))) with 3%N in H. change (N.succ (N.succ 0)) with 2%N in H. change (N.succ 0) with 1%N in H.
  destruct two_keep as (-> & -> & E & ->) in H. rewrite E in H. exact H.
Qed.
Lemma two_exact_fails : make_seq (keep [2] [1%Z] (hcb_smap 5 2 two_map) 1) N.succ 1 4 0 = None.
Proof.
  unfold make_seq. cbn [seq_loop length Nat.leb]. unfold push.
  change (N.succ (N.succ (N.succ 0))) with 3%N. change (N.succ (N.succ 0)) with 2%N. change (N.succ 0) with 1%N.
  destruct two_keep as (-> & -> & -> & _). reflexivity.
Qed.
