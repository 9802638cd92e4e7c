From Verif Require Import AuxN SpecC SpecDigits SpecMaps SpecSymm M_benes M_maps M_symm P_maps P_period P_symm P_norm.
Local Open Scope nat_scope.

Lemma period_loop_mono k : forall f m o l p q, period_loop f m o l p = Some q -> period_loop (f + k) m o l p = Some q.
Proof.
  induction f as [|f IH]; intros m o l p q H; [discriminate|]. cbn [Nat.add period_loop] in *.
  destruct (list_eqb o (one_turn m l)); [assumption|]. apply IH. assumption.
Qed.
Lemma process_map_mono k f m p : process_map f m = PM_period p -> process_map (f + k) m = PM_period p.
Proof.
  unfold process_map. destruct (list_eqb _ _); [|discriminate].
  destruct (period_loop f m (arange (length m)) (arange (length m)) 0) as [q|] eqn:E; [|discriminate].
  rewrite (period_loop_mono k _ _ _ _ _ _ E). trivial.
Qed.

Lemma process_map_accepts f m p : process_map f m = PM_period p -> signed_perm (length m) m /\ 1 <= p /\
  forall B T, (2 <= B)%N -> (forall s, (s < B ^ N.of_nat (length m))%N -> moved B (length m) m s (T s)) ->
    (forall s, (s < B ^ N.of_nat (length m))%N -> Nat.iter p T s = s).
Proof.
  intros H. assert (SP : signed_perm (length m) m).
  { apply sort_check. revert H. unfold process_map. destruct (list_eqb _ _); [reflexivity|discriminate]. }
  split; [assumption|]. destruct (process_map_period m SP) as (per & f0 & Hp & Hf & HT).
  assert (E : p = per).
  { apply (process_map_mono f0) in H. rewrite Hf in H by lia. injection H as ->. reflexivity. }
  subst per. split; [assumption|]. intros B T HB HM. apply (HT B T HB HM).
Qed.

Lemma sact_iter (T : nat -> N -> N) d p s z : Nat.iter p (sact (fun d s => (T d s, 1%Z)) d) (s, z) = (Nat.iter p (T d) s, z).
Proof. induction p as [|p IH]; [reflexivity|]. rewrite !iter_S, IH. unfold sact. cbn [fst snd]. f_equal. ring. Qed.

Lemma good_maps_accepted B n mlist pers (T : nat -> N -> N) : (2 <= B)%N -> accepted n mlist pers ->
  (forall d s, d < length pers -> signed_perm n (nth d mlist []) -> (s < B ^ N.of_nat n)%N -> moved B n (nth d mlist []) s (T d s)) ->
  (forall d e s, d < length pers -> e < length pers -> (s < B ^ N.of_nat n)%N -> T d (T e s) = T e (T d s)) ->
  good_maps (fun s => (s < B ^ N.of_nat n)%N) (length pers) pers (fun d s => (T d s, 1%Z)).
Proof.
  intros HB [Hl HA] HM HC.
  assert (SP : forall d, d < length pers -> signed_perm n (nth d mlist []) /\ 1 <= nth d pers 0 /\ forall s, (s < B ^ N.of_nat n)%N -> Nat.iter (nth d pers 0) (T d) s = s).
  { intros d Hd. destruct (HA d Hd) as [L [f Hf]]. apply process_map_accepts in Hf. rewrite L in Hf. destruct Hf as (S1 & S2 & S3).
    split; [assumption|]. split; [assumption|]. apply (S3 B (T d) HB). intros s Hs. apply HM; assumption. }
  constructor; [reflexivity| | | | |].
  - intros d Hd. apply SP; assumption.
  - intros d s Hd Hs. cbn [fst]. apply (HM d s Hd (proj1 (SP d Hd)) Hs).
  - intros d s _ _. left. reflexivity.
  - intros d s Hd Hs. rewrite sact_iter. f_equal. apply SP; assumption.
  - intros d e s Hd He Hs. unfold sact. cbn [fst snd]. f_equal. apply HC; assumption.
Qed.

Lemma hcb_good_maps ld n mlist pers : (n <= 2 ^ ld)%nat -> accepted n mlist pers ->
  (forall d e s, d < length pers -> e < length pers -> (s < 2 ^ N.of_nat n)%N ->
     hcb_map_bits n (nth d mlist []) (hcb_map_bits n (nth e mlist []) s) = hcb_map_bits n (nth e mlist []) (hcb_map_bits n (nth d mlist []) s)) ->
  good_maps (fun s => (s < 2 ^ N.of_nat n)%N) (length pers) pers (hcb_smap ld n mlist).
Proof.
  intros Hn HA HC.
  assert (SP : forall d, d < length pers -> signed_perm n (nth d mlist [])).
  { intros d Hd. destruct HA as [_ HA]. destruct (HA d Hd) as [L [f Hf]]. apply process_map_accepts in Hf. rewrite L in Hf. apply Hf. }
  assert (E : forall d s, d < length pers -> (s < 2 ^ N.of_nat n)%N ->
    match hcb_map_state ld n (nth d mlist []) s with Some t => t | None => 0%N end = hcb_map_bits n (nth d mlist []) s).
  { intros d s Hd Hs. rewrite hcb_map_state_bits by (try assumption; apply SP; assumption). reflexivity. }
  apply (good_maps_accepted 2 n mlist pers (fun d s => match hcb_map_state ld n (nth d mlist []) s with Some t => t | None => 0%N end)); try assumption; try lia.
  - intros d s Hd S Hs. rewrite E by assumption. apply hcb_map_bits_moved. assumption.
  - intros d e s Hd He Hs. assert (M : forall d, d < length pers -> (hcb_map_bits n (nth d mlist []) s < 2 ^ N.of_nat n)%N).
    { intros d' Hd'. apply (hcb_map_bits_moved n (nth d' mlist []) s). apply SP; assumption. }
    rewrite (E e s), (E d s), (E d), (E e) by (try assumption; apply M; assumption). apply HC; assumption.
Qed.

Lemma boson_good_maps B n mlist pers : (2 <= B)%N -> accepted n mlist pers ->
  (forall d e s, d < length pers -> e < length pers -> (s < B ^ N.of_nat n)%N ->
     boson_map_bits B n (nth d mlist []) (boson_map_bits B n (nth e mlist []) s) = boson_map_bits B n (nth e mlist []) (boson_map_bits B n (nth d mlist []) s)) ->
  good_maps (fun s => (s < B ^ N.of_nat n)%N) (length pers) pers (boson_smap B n mlist).
Proof.
  intros HB HA HC. apply (good_maps_accepted B n mlist pers (fun d s => boson_map_bits B n (nth d mlist []) s)); try assumption.
  intros d s Hd S Hs. apply boson_map_bits_moved; assumption.
Qed.

(* ---- representative ---- *)
Section R.
Variables (D : N -> Prop) (nt : nat) (pers : list nat) (ms : smap).
Hypothesis HG : good_maps D nt pers ms.
Lemma prodp_order : prodp pers nt = group_order pers.
Proof.
  rewrite <- (gm_len _ _ _ _ HG). clear HG. assert (G : forall l k, prodp (k ++ l) (length k + length l) = prodp k (length k) * group_order l).
  { clear. induction l as [|p l IH]; intros k.
    - cbn [length group_order fold_right]. rewrite Nat.add_0_r, app_nil_r. lia.
    - replace (k ++ p :: l) with ((k ++ [p]) ++ l) by (rewrite <- app_assoc; reflexivity).
      replace (length k + length (p :: l)) with (length (k ++ [p]) + length l) by (rewrite app_length; cbn; lia).
      rewrite IH. rewrite app_length. cbn [length]. rewrite Nat.add_1_r. cbn [prodp]. rewrite app_nth2, Nat.sub_diag by lia. cbn [nth group_order fold_right].
      fold (group_order l).
      assert (X : forall c, c <= length k -> prodp (k ++ [p]) c = prodp k c).
      { induction c as [|c IHc]; intros Hc; [reflexivity|]. cbn [prodp]. rewrite IHc by lia. rewrite app_nth1 by lia. reflexivity. }
      rewrite X by lia. ring. }
  specialize (G pers []). cbn [app length prodp] in G. rewrite Nat.add_0_l in G. rewrite G. lia.
Qed.

Lemma rep_spec s g0 ph0 fuel : D s -> 0 < nt <= max_nt -> group_order pers <= fuel -> exists r g ph,
  ref_state fuel pers ms nt s g0 ph0 = Some (r, g, ph) /\
  reach nt ms s r /\ (forall t, reach nt ms s t -> (t <= r)%N) /\
  ((r = s /\ g = g0 /\ ph = ph0) \/ ((s < r)%N /\ group_elem pers g /\ gact ms g s = (r, ph))).
Proof.
  intros Hs Hnt Hf. destruct (ref_state_spec D nt pers ms HG s g0 ph0 fuel Hs Hnt ltac:(rewrite prodp_order; assumption)) as (r & g & ph & E & Hle & Hc).
  exists r, g, ph. split; [assumption|]. split; [|split].
  - destruct Hc as [(-> & _ & _)|(_ & Vg & Ew)]; [exists []; split; [constructor|reflexivity]|].
    apply (reach_elem D nt pers ms HG); [assumption|]. exists g. rewrite Ew. auto.
  - intros t Ht. apply (reach_elem D nt pers ms HG) in Ht; [|assumption]. destruct Ht as (h & Vh & <-). apply Hle. assumption.
  - destruct Hc as [Hc|(Lt & Vg & Ew)]; [left; assumption|right]. split; [assumption|].
    split; [apply (valid_elem D nt pers ms HG); assumption|]. rewrite (gact_W nt ms g s) by apply Vg. assumption.
Qed.

Lemma reach_dom s t : D s -> reach nt ms s t -> D t.
Proof. intros Hs Ht. apply (reach_elem D nt pers ms HG) in Ht; [|assumption]. destruct Ht as (g & _ & <-). apply (W_dom D nt pers ms HG); [lia|assumption]. Qed.
Lemma reach_trans s t u : reach nt ms s t -> reach nt ms t u -> reach nt ms s u.
Proof.
  intros (l & Hl & <-) (k & Hk & <-). exists (l ++ k). split; [apply Forall_app; split; assumption|].
  rewrite sapply_app. clear Hl. revert Hk. generalize (sapply ms l (s, 1%Z)). intros [a z] _. cbn [fst].
  assert (G : forall k a z z', fst (sapply ms k (a, z)) = fst (sapply ms k (a, z'))).
  { clear. induction k as [|d k IH]; intros a z z'; [reflexivity|]. cbn. unfold sapply in IH. apply IH. }
  apply G.
Qed.
Lemma reach_sym s t : D s -> reach nt ms s t -> reach nt ms t s.
Proof.
  intros Hs Ht. pose proof (reach_dom s t Hs Ht) as Dt. apply (reach_elem D nt pers ms HG) in Ht; [|assumption]. destruct Ht as (g & Vg & E).
  apply (reach_elem D nt pers ms HG); [assumption|]. exists (ginv nt pers g). split; [apply (valid_ginv D nt pers ms HG)|].
  pose proof (W_inv D nt pers ms HG g (s, 1%Z) Vg Hs) as I. rewrite (as_scale (W ms nt g (s, 1%Z))) in I. rewrite W_scale in I.
  apply (f_equal fst) in I. cbn [scale fst] in I. rewrite E in I. exact I.
Qed.

Lemma rep_same_orbit s t g0 h0 p0 q0 fuel : D s -> reach nt ms s t -> 0 < nt <= max_nt -> group_order pers <= fuel ->
  exists r g h p q, ref_state fuel pers ms nt s g0 p0 = Some (r, g, p) /\ ref_state fuel pers ms nt t h0 q0 = Some (r, h, q).
Proof.
  intros Hs Ht Hnt Hf. pose proof (reach_dom s t Hs Ht) as Dt.
  destruct (rep_spec s g0 p0 fuel Hs Hnt Hf) as (r & g & p & E & R1 & M1 & _).
  destruct (rep_spec t h0 q0 fuel Dt Hnt Hf) as (r' & h & q & E' & R2 & M2 & _).
  assert (Er : r' = r) by (clear - M1 M2 R1 R2 Hs Ht HG; apply N.le_antisymm; [apply M1; exact (reach_trans _ _ _ Ht R2)|apply M2; exact (reach_trans _ _ _ (reach_sym _ _ Hs Ht) R1)]).
  subst r'. exists r, g, h, p, q. split; assumption.
Qed.

Lemma rep_idempotent s g0 p0 r g p h0 q0 fuel : D s -> 0 < nt <= max_nt -> group_order pers <= fuel ->
  ref_state fuel pers ms nt s g0 p0 = Some (r, g, p) -> ref_state fuel pers ms nt r h0 q0 = Some (r, h0, q0).
Proof.
  intros Hs Hnt Hf E. destruct (rep_spec s g0 p0 fuel Hs Hnt Hf) as (r' & g' & p' & E' & R1 & M1 & _).
  rewrite E in E'. injection E' as <- <- <-. pose proof (reach_dom s r Hs R1) as Dr.
  destruct (rep_spec r h0 q0 fuel Dr Hnt Hf) as (r' & h & q & E' & R2 & M2 & C).
  destruct C as [(-> & -> & ->)|(Lt & _)]; [assumption|].
  pose proof (M1 r' (reach_trans _ _ _ R1 R2)). lia.
Qed.

Lemma norm_full qs s fuel : D s -> 0 < nt <= max_nt -> group_order pers <= fuel ->
  (check_state fuel pers qs ms nt s = Some NaN /\ exists t, reach nt ms s t /\ (s < t)%N) \/
  ((forall t, reach nt ms s t -> (t <= s)%N) /\
   ((compatible pers qs ms s /\
     check_state fuel pers qs ms nt s = Some (Norm (INR (length (filter (fun g => (fst (gact ms g s) =? s)%N) (group pers)))))) \/
    (~ compatible pers qs ms s /\ check_state fuel pers qs ms nt s = Some (Norm 0)))).
Proof. intros Hs Hnt Hf. apply (norm_spec D); try assumption. rewrite prodp_order. assumption. Qed.

Lemma stab_pos s : D s -> 1 <= length (filter (fun g => (fst (gact ms g s) =? s)%N) (group pers)).
Proof.
  intros Hs. assert (I : In (repeat 0 nt) (filter (fun g => (fst (gact ms g s) =? s)%N) (group pers))).
  { apply filter_In. split; [apply (group_valid D nt pers ms HG), (valid_zero D nt pers ms HG)|].
    rewrite (gact_W nt ms) by apply repeat_length. rewrite (W_zero nt pers ms). apply N.eqb_refl. }
  destruct (filter _ (group pers)); [destruct I|cbn; lia].
Qed.
Lemma kept_iff qs s fuel : D s -> 0 < nt <= max_nt -> group_order pers <= fuel ->
  ((exists x, check_state fuel pers qs ms nt s = Some (Norm x) /\ (0 < x)%R) <-> (forall t, reach nt ms s t -> (t <= s)%N) /\ compatible pers qs ms s).
Proof.
  intros Hs Hnt Hf. destruct (norm_full qs s fuel Hs Hnt Hf) as [[E (t & R & L)]|[M [[Cp E]|[Cp E]]]]; rewrite E.
  - split; [intros (x & H & _); discriminate|intros [H _]; specialize (H t R); lia].
  - split; [intros _; split; assumption|]. intros _. eexists. split; [reflexivity|]. apply lt_0_INR. pose proof (stab_pos s Hs). lia.
  - split; [intros (x & H & L); injection H as <-; lra|intros [_ H]; contradiction].
Qed.
End R.
