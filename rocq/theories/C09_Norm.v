(* C09: the norm of a symmetry-adapted state. *)
From Verif Require Import AuxN SpecC SpecSymm M_symm P_symm P_norm P_symminst.
Local Open Scope nat_scope.

(* the loop ends and: NaN exactly for non-representatives; otherwise the number of group elements fixing the state if
   the quantum numbers are compatible with them and 0 if not *)
Theorem C09_norm_value : forall D nt pers ms qs s fuel,
  good_maps D nt pers ms -> D s -> 0 < nt <= 32 -> group_order pers <= fuel ->
  (check_state fuel pers qs ms nt s = Some NaN /\ exists t, reach nt ms s t /\ (s < t)%N) \/
  ((forall t, reach nt ms s t -> (t <= s)%N) /\
   ((compatible pers qs ms s /\
     check_state fuel pers qs ms nt s = Some (Norm (INR (length (filter (fun g => (fst (gact ms g s) =? s)%N) (group pers)))))) \/
    (~ compatible pers qs ms s /\ check_state fuel pers qs ms nt s = Some (Norm 0)))).
Proof. intros D nt pers ms qs s fuel HG. exact (norm_full D nt pers ms HG qs s fuel). Qed.
Print Assumptions C09_norm_value.

Theorem C09_kept_iff_representative_and_compatible : forall D nt pers ms qs s fuel,
  good_maps D nt pers ms -> D s -> 0 < nt <= 32 -> group_order pers <= fuel ->
  ((exists x, check_state fuel pers qs ms nt s = Some (Norm x) /\ (0 < x)%R) <->
   (forall t, reach nt ms s t -> (t <= s)%N) /\ compatible pers qs ms s).
Proof. intros D nt pers ms qs s fuel HG. exact (kept_iff D nt pers ms HG qs s fuel). Qed.
Print Assumptions C09_kept_iff_representative_and_compatible.

(* two sites exchanged with sign -1 on state 11 (fermions): 11 is kept for q = 1 and not for q = 0 *)
Definition swap_maps : smap := fun _ s =>
  (match s with 1%N => 2%N | 2%N => 1%N | _ => s end, if (s =? 3)%N then (-1)%Z else 1%Z).
Lemma swap_good : good_maps (fun s => (s < 4)%N) 1 [2] swap_maps.
Proof.
  assert (A : forall s, (s < 4)%N -> s = 0%N \/ s = 1%N \/ s = 2%N \/ s = 3%N) by lia.
  constructor; [reflexivity| | | | |].
  - intros [|d] H; cbn in *; lia.
  - intros d s _ Hs. destruct (A s Hs) as [->|[->|[->| ->]]]; reflexivity.
  - intros d s _ Hs. destruct (A s Hs) as [->|[->|[->| ->]]]; cbn; auto.
  - intros [|d] s Hd Hs; [|lia]. destruct (A s Hs) as [->|[->|[->| ->]]]; reflexivity.
  - intros d e s _ _ Hs. reflexivity.
Qed.
Example C09_example : good_maps (fun s => (s < 4)%N) 1 [2] swap_maps
  /\ check_state 2 [2] [1%Z] swap_maps 1 3 = Some (Norm 2) /\ check_state 2 [2] [0%Z] swap_maps 1 3 = Some (Norm 0)
  /\ check_state 2 [2] [0%Z] swap_maps 1 1 = Some NaN.
Proof.
  split; [exact swap_good|].
  assert (E : forall q, length (filter (fun g => (fst (gact swap_maps g 3) =? 3)%N) (group [2])) = 2 /\
     (compatible [2] [q] swap_maps 3 <-> (- (1) * cos (PI * IZR q) = 1 /\ - (1) * sin (PI * IZR q) = 0)%R)).
  { intros q. split; [reflexivity|]. unfold compatible, theta. cbn [length seq Rsum fold_right nth].
    assert (X : forall g, group_elem [2] g -> g = [0] \/ g = [1]).
    { intros [|a [|b g]] [L H]; cbn in L; try discriminate. specialize (H 0 ltac:(cbn; lia)). cbn in H.
      destruct a as [|[|a]]; [left; reflexivity|right; reflexivity|lia]. }
    assert (Y : (2 * PI * IZR q / (1 + 1) * 1 + 0 = PI * IZR q)%R) by field.
    split.
    - intros H. specialize (H [1]). cbn [nth INR] in H. rewrite Y in H.
      assert (V : group_elem [2] [1]) by (split; [reflexivity|intros [|d] Hd; cbn in *; lia]).
      specialize (H V eq_refl). change (snd (gact swap_maps [1] 3)) with (-1)%Z in H. unfold cis, RtoC, Cmul, C1 in H. cbn [fst snd] in H.
      injection H as H1 H2. lra.
    - intros [H1 H2] g Hg _. destruct (X g Hg) as [->| ->]; cbn [nth INR].
      + change (snd (gact swap_maps [0] 3)) with 1%Z. replace (2 * PI * IZR q / (1 + 1) * 0 + 0)%R with 0%R by ring. rewrite cis_0. apply C_eq; cbn; ring.
      + rewrite Y. change (snd (gact swap_maps [1] 3)) with (-1)%Z. apply C_eq; cbn; lra. }
  assert (R3 : forall t, reach 1 swap_maps 3 t -> (t <= 3)%N).
  { intros t Ht. pose proof (reach_dom _ 1 [2] swap_maps swap_good 3%N t) as Q. cbv beta in Q. specialize (Q ltac:(lia) Ht). lia. }
  assert (Hn : 0 < 1 <= 32) by lia.
  split; [|split].
  - destruct (norm_full _ 1 [2] swap_maps swap_good [1%Z] 3%N 2 eq_refl Hn ltac:(cbn; lia)) as [[_ (t & Rt & Lt)]|[_ [[_ ->]|[Cp _]]]].
    + specialize (R3 t Rt). lia.
    + rewrite (proj1 (E 1%Z)). do 2 f_equal.
    + destruct Cp. apply E. rewrite Rmult_1_r, cos_PI, sin_PI. split; ring.
  - destruct (norm_full _ 1 [2] swap_maps swap_good [0%Z] 3%N 2 eq_refl Hn ltac:(cbn; lia)) as [[_ (t & Rt & Lt)]|[_ [[Cp _]|[_ E0]]]].
    + specialize (R3 t Rt). lia.
    + apply E in Cp. rewrite Rmult_0_r, cos_0 in Cp. lra.
    + exact E0.
  - destruct (norm_full _ 1 [2] swap_maps swap_good [0%Z] 1%N 2 eq_refl Hn ltac:(cbn; lia)) as [[E0 _]|[M _]]; [exact E0|].
    exfalso. specialize (M 2%N). assert (R : reach 1 swap_maps 1 2) by (exists [0]; split; [repeat constructor|reflexivity]). specialize (M R). lia.
Qed.
