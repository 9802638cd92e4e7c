(* Small blocks for examples and counterexamples. *)
From Verif Require Import AuxN SpecC SpecMaps SpecSymm SpecBasis SpecIndex SpecProj M_benes M_maps M_symm M_index M_proj P_symm P_norm P_symminst P_index P_proj P_symop P_symopinst P_projop P_projinst.
Local Open Scope nat_scope.

(* three sites, translation *)
Definition tri_maps : smap := hcb_smap 5 3 [[1; 2; 0]%Z].
Definition tri_S (s : N) : Prop := (s = 1 \/ s = 2 \/ s = 4)%N.
Lemma tri_good : good_maps (fun s => (s < N.of_nat 8)%N) 1 [3] tri_maps.
Proof.
  apply (hcb_good_maps 5 3 [[1; 2; 0]%Z] [3]).
  - cbn; lia.
  - split; [reflexivity|]. intros [|d] Hd; [|cbn in Hd; lia]. split; [reflexivity|]. exists 10. vm_compute. reflexivity.
  - intros [|d] [|e] s Hd He _; cbn in Hd, He; lia || reflexivity.
Qed.
Lemma tri_dom s : tri_S s -> (s < N.of_nat 8)%N. Proof. unfold tri_S. lia. Qed.
Lemma tri_closed : closed_under tri_S 1 tri_maps.
Proof. intros [|d] s Hd Hs; [|lia]. destruct Hs as [->|[->| ->]]; vm_compute; tauto. Qed.
Lemma tri_enum : enumerates [4; 2; 1]%N tri_S.
Proof. split; [repeat constructor; cbn; intuition discriminate|]. intros s. unfold tri_S. cbn [In]. split; [intros [<-|[<-|[<-|[]]]]|intros [->|[->| ->]]]; tauto. Qed.
Lemma tri_rows : rows_are 8 tri_S (Some [4; 2; 1]%N).
Proof. split; [repeat constructor|]. apply tri_enum. Qed.
Lemma tri_group g : group_elem [3] g -> g = [0] \/ g = [1] \/ g = [2].
Proof.
  intros [HL H]. destruct g as [|a [|b g]]; cbn in HL; try discriminate. specialize (H 0 ltac:(cbn; lia)). cbn in H.
  destruct a as [|[|[|a]]]; [tauto|tauto|tauto|lia].
Qed.
Lemma tri_block q : lists_decreasing (in_block tri_S 1 [3] [q] tri_maps) [(4%N, 1%Z)].
Proof.
  split; [repeat constructor|]. intros s k. split.
  - intros [E|[]]. injection E as <- <-. split; [right; right; reflexivity|]. split; [|split].
    + intros t Ht. apply (reach_act' _ 1 [3] tri_maps tri_good) in Ht; [|reflexivity]. destruct Ht as (g & Hg & <-). apply (valid_elem _ 1 [3] _ tri_good) in Hg.
      destruct (tri_group g Hg) as [->|[->| ->]]; vm_compute; discriminate.
    + intros g Hg Hf. destruct (tri_group g Hg) as [->|[->| ->]]; [|vm_compute in Hf; discriminate|vm_compute in Hf; discriminate].
      unfold theta. cbn [length seq Rsum fold_right nth INR]. rewrite Rmult_0_r, Rplus_0_l, cis_0. replace (snd (gact tri_maps [0] 4)) with 1%Z by (vm_compute; reflexivity). apply C_eq; cbn; ring.
    + vm_compute. reflexivity.
  - intros (Hs & Hr & _ & ->). assert (s = 4%N).
    { assert (R1 : reach 1 tri_maps s (fst (sapply tri_maps [0] (s, 1%Z)))) by (exists [0]; split; [repeat constructor|reflexivity]).
      assert (R2 : reach 1 tri_maps s (fst (sapply tri_maps [0; 0] (s, 1%Z)))) by (exists [0; 0]; split; [repeat constructor|reflexivity]).
      apply Hr in R1. apply Hr in R2. destruct Hs as [->|[->| ->]]; [| |reflexivity]; vm_compute in R1, R2; exfalso; congruence. }
    subst. left. f_equal.
Qed.
Lemma tri_complex : sin (2 * PI * IZR 1 / INR 3) <> 0%R.
Proof.
  cbn [INR]. pose proof PI_RGT_0. assert (0 < sin (2 * PI * 1 / (1 + 1 + 1)))%R; [|lra]. apply sin_gt_0; lra.
Qed.
Lemma tri_real : real_characters [3] [0%Z].
Proof. intros [|d] Hd; [|cbn in Hd; lia]. cbn [nth INR]. replace (2 * PI * 0 / (1 + 1 + 1))%R with 0%R by field. apply sin_0. Qed.

(* two sites, exchange and particle-hole inversion, one particle *)
Definition duo_list : list (list Z) := [[1; 0]; [-1; -2]]%Z.
Definition duo_maps : smap := hcb_smap 5 2 duo_list.
Definition duo_S (s : N) : Prop := (s = 1 \/ s = 2)%N.
Lemma duo_good : good_maps (fun s => (s < N.of_nat 4)%N) 2 [2; 2] duo_maps.
Proof.
  apply (hcb_good_maps 5 2 duo_list [2; 2]).
  - cbn; lia.
  - split; [reflexivity|]. intros [|[|d]] Hd; [| |cbn in Hd; lia]; (split; [reflexivity|]; exists 10; vm_compute; reflexivity).
  - intros d e s Hd He Hs. assert (s = 0 \/ s = 1 \/ s = 2 \/ s = 3)%N by (cbn in Hs; lia).
    destruct d as [|[|d]]; [| |cbn in Hd; lia]; (destruct e as [|[|e]]; [| |cbn in He; lia]); destruct H as [->|[->|[->| ->]]]; vm_compute; reflexivity.
Qed.
Lemma duo_dom s : duo_S s -> (s < N.of_nat 4)%N. Proof. unfold duo_S. lia. Qed.
Lemma duo_closed : closed_under duo_S 2 duo_maps.
Proof. intros [|[|d]] s Hd Hs; [| |lia]; destruct Hs as [->| ->]; vm_compute; tauto. Qed.
Lemma duo_enum : enumerates [2; 1]%N duo_S.
Proof. split; [repeat constructor; cbn; intuition discriminate|]. intros s. unfold duo_S. cbn [In]. split; [intros [<-|[<-|[]]]|intros [->| ->]]; tauto. Qed.
Lemma duo_rows : rows_are 4 duo_S (Some [2; 1]%N).
Proof. split; [repeat constructor|]. apply duo_enum. Qed.
Lemma duo_group g : group_elem [2; 2] g -> In g [[0; 0]; [0; 1]; [1; 0]; [1; 1]].
Proof.
  intros [HL H]. destruct g as [|a [|b [|c g]]]; cbn in HL; try discriminate. pose proof (H 0 ltac:(cbn; lia)) as Ha. pose proof (H 1 ltac:(cbn; lia)) as Hb. cbn in Ha, Hb.
  destruct a as [|[|a]], b as [|[|b]]; cbn; tauto || lia.
Qed.
Lemma duo_theta g : theta [0; 0]%Z [2; 2] g = 0%R.
Proof. unfold theta. cbn [length seq Rsum fold_right nth INR]. field. Qed.
Lemma duo_block : lists_decreasing (in_block duo_S 2 [2; 2] [0; 0]%Z duo_maps) [(2%N, 2%Z)].
Proof.
  split; [repeat constructor|]. intros s k. split.
  - intros [E|[]]. injection E as <- <-. split; [right; reflexivity|]. split; [|split].
    + intros t Ht. apply (reach_act' _ 2 [2; 2] duo_maps duo_good) in Ht; [|reflexivity]. destruct Ht as (g & Hg & <-). apply (valid_elem _ 2 [2; 2] _ duo_good) in Hg.
      destruct (duo_group g Hg) as [<-|[<-|[<-|[<-|[]]]]]; vm_compute; discriminate.
    + intros g Hg Hf. rewrite duo_theta, cis_0. replace (snd (gact duo_maps g 2)) with 1%Z; [apply C_eq; cbn; ring|].
      destruct (duo_group g Hg) as [<-|[<-|[<-|[<-|[]]]]]; vm_compute; reflexivity.
    + vm_compute. reflexivity.
  - intros (Hs & Hr & _ & ->). assert (s = 2%N).
    { assert (R1 : reach 2 duo_maps s (fst (sapply duo_maps [0] (s, 1%Z)))) by (exists [0]; split; [repeat constructor|reflexivity]).
      apply Hr in R1. destruct Hs as [->| ->]; [|reflexivity]; vm_compute in R1; exfalso; congruence. }
    subst. left. f_equal.
Qed.
Lemma duo_real : real_characters [2; 2] [0; 0]%Z.
Proof. intros [|[|d]] Hd; [| |cbn in Hd; lia]; cbn [nth INR]; (replace (2 * PI * 0 / (1 + 1))%R with 0%R by field); apply sin_0. Qed.
