(* The results of the representative checks, family by family. *)
From Verif Require Import AuxN SpecMaps SpecFermi SpecChain M_bits1d SpecChain1d SpecCheck1d M_check1d P_maps P_square P_bits1d P_bits1d4 P_bits1d5 P_check1d P_check1d2 P_check1d3 P_check1d4.
Local Open Scope nat_scope.

Section A.
Variables (w : btype) (k : kind) (L T : nat).
Notation st s := (s < levels k ^ N.of_nat (sites k L))%N.
Notation sto := (sto w k L T).
Notation sgo := (sgo w k L T).
Notation lok := (lok w k L T).
Notation rep := (repeat LT).
Notation tr := (tr w k L T).
Notation sr := (sr w k L T).
Notation A := (act w k L T).

(* ---- momentum ---- *)
Lemma fam_T two tf gens pres : family w k L T two tf gens pres -> tf = true -> family w k L T two true [[LT]] [[]].
Proof.
  intros F E. constructor.
  - exact (f_fit F).
  - exact (f_T F).
  - intros g [<-|[]]. pose proof (f_t F) as H. rewrite E in H. exact (f_gok F _ H).
  - left. reflexivity.
  - intros p [<-|[]]. exists []. split; [constructor|reflexivity].
  - left. reflexivity.
  - intros p [<-|[]] [].
  - intros p g [<-|[]] [<-|[]]. exists []. split; [left; reflexivity|]. destruct two; reflexivity.
Qed.
Lemma T_compat two tf gens pres q s R : family w k L T two tf gens pres -> tf = true -> st s -> 1 <= R -> tr s [] R = s -> (forall j, 0 < j < R -> (tr s [] j < s)%N) ->
  (compatible w k L T q [[LT]] s <-> k_ok L (q_k q) T R (sr s [] R) = true) /\
  (k_ok L (q_k q) T R (sr s [] R) = true -> forall i, tr s [] i = s -> ((2 * Z.of_nat (q_k q) * Z.of_nat T * Z.of_nat i + half_turn L (sr s [] i)) mod (2 * Z.of_nat L) = 0)%Z).
Proof.
  intros F E Hs H1 H2 H3. pose proof (fam_T _ _ _ _ F E) as F1. pose proof (HL1 w k L (f_fit F)) as HL. pose proof (HT _ _ _ _ _ _ _ _ F E) as HT0.
  pose proof (Hn w k L T two true _ _ F1 eq_refl) as Hn0. pose proof (Tn w k L T two true _ _ F1 eq_refl) as Tn0. pose proof (sr_unit w k L T two true _ _ F1 eq_refl s) as Un.
  rewrite (k_ok_iff L (q_k q) T R _ HL (Un [] R Hs ltac:(left; reflexivity))).
  assert (Q : ((2 * Z.of_nat (q_k q) * Z.of_nat T * Z.of_nat R + half_turn L (sr s [] R)) mod (2 * Z.of_nat L) = 0)%Z -> forall i, tr s [] i = s -> ((2 * Z.of_nat (q_k q) * Z.of_nat T * Z.of_nat i + half_turn L (sr s [] i)) mod (2 * Z.of_nat L) = 0)%Z).
  { intros K i Ei. destruct (per_eq w k L T (f_fit F) s Hs HT0 (L / T) Hn0 Tn0 R H1 H2 H3 i Ei) as [m ->]. clear Ei.
    induction m as [|m IH]. { cbn [Nat.mul]. destruct (tr0 w k L T s) as [_ ->]. change (half_turn L 1) with 0%Z. rewrite Z.mul_0_r. reflexivity. }
    replace (S m * R) with (R + m * R) by lia. rewrite (proj2 (per_add w k L T (f_fit F) s Hs HT0 R H2 (m * R))). destruct (turn_mul L (sr s [] R) (sr s [] (m * R)) HL (Un [] R Hs ltac:(left; reflexivity)) (Un [] (m * R) Hs ltac:(left; reflexivity))) as [z ->].
    apply Z.mod_divide in K; [|lia]. apply Z.mod_divide in IH; [|lia]. apply Z.mod_divide; [lia|]. destruct K as [a Ka], IH as [b Kb]. exists (a + b + z)%Z. replace (Z.of_nat (R + m * R)) with (Z.of_nat R + Z.of_nat (m * R))%Z by lia. lia. }
  split; [|exact Q]. rewrite (co_iff w k L T two true [[LT]] [[]] F1 q s); [|intros g [<-|[]]; repeat constructor|exact Hs]. split.
  - intros C. specialize (C [] R (or_introl eq_refl) (or_introl eq_refl) H2). unfold good_phase in C. cbn [app] in C. rewrite pho_rep in C. exact C.
  - intros C p i [<-|[]] _ Ei. unfold good_phase. cbn [app]. rewrite pho_rep. apply Q; assumption.
Qed.

Lemma sgo_one word : states_fit w k L -> fermionic k = false -> Forall lok word -> forall s, st s -> sgo word s = 1%Z.
Proof.
  intros SF Fk H. induction H as [|l word Hl Hw IH]; intros s Hs; [reflexivity|]. destruct (lgood w k L T SF l Hl) as (Ac & _ & _). destruct (Ac s 1%Z Hs) as (t1 & M1 & E1). rewrite Fk in E1.
  pose proof (IH t1 (proj1 M1)) as I. unfold P_check1d.sgo in *. cbn [map]. rewrite run_cons, E1. exact I.
Qed.
(* quick checks *)
Lemma cmp_val s q t g : (forall x, unit_ x -> True) -> cmp_state q s (Some (t, g)) = Some (cmpv q s t g). Proof. reflexivity. Qed.
Lemma quick_one s t g : unit_ g -> ((cmpv 1 s t g <? 0)%Z && (cmpv (-1) s t g <? 0)%Z)%bool = (s <? t)%N.
Proof.
  intros [-> | ->]; unfold cmpv; destruct (N.ltb_spec t s), (N.eqb_spec t s), (N.ltb_spec s t); try lia; reflexivity.
Qed.

(* ---- one more symmetry ---- *)
Section One.
Variables (two : bool) (g p : list letter).
Hypothesis F : family w k L T two true [[LT]; g] [[]; p].
Variable quick : Z -> N -> option Z.
Hypothesis Hq : forall q s, st s -> quick q s = Some (cmpv q s (tr s p 0) (sr s p 0)).
Variable q : quanta.
Lemma ones_le s R : st s -> 1 <= R -> tr s [] R = s -> (forall j, 0 < j < R -> (tr s [] j < s)%N) -> (forall j, (tr s p j <= s)%N) -> extremal w k L T [[LT]; g] s.
Proof. intros Hs H1 H2 H3 H4. apply (ex_iff _ _ _ _ _ _ _ _ F s Hs). intros p' i [<-|[<-|[]]] _; [|apply H4]. apply (le_T _ _ _ _ _ _ _ _ F eq_refl s R Hs H1 H2 H3). Qed.
Lemma T_one r0 s : st s -> exists R0 R1 sg, check_T_one w k L quick (map A p) r0 (q_k q) T s = Some [R0; R1; sg] /\
  (0 < R0 <-> extremal w k L T [[LT]; g] s /\ compatible w k L T q [[LT]] s)%Z /\ ((0 < R0)%Z -> least_period w k L T s R0 /\ first_return w k L T p s R1 sg).
Proof.
  intros Hs. unfold check_T_one. rewrite !Hq by exact Hs. destruct (run_p _ _ _ _ _ _ _ _ F s p Hs ltac:(right; left; reflexivity)) as (_ & U & _). rewrite quick_one by exact U.
  assert (Bad : ~ (extremal w k L T [[LT]; g] s /\ compatible w k L T q [[LT]] s) -> exists R0 R1 sg, Some [-1; -1; 1]%Z = Some [R0; R1; sg] /\ (0 < R0 <-> extremal w k L T [[LT]; g] s /\ compatible w k L T q [[LT]] s)%Z /\ ((0 < R0)%Z -> least_period w k L T s R0 /\ first_return w k L T p s R1 sg)).
  { intros N. exists (-1)%Z, (-1)%Z, 1%Z. split; [reflexivity|]. split; [|lia]. split; [lia|intros X; destruct (N X)]. }
  destruct (N.ltb_spec s (tr s p 0)) as [G|G].
  { apply Bad. intros [E _]. pose proof (proj1 (ex_iff _ _ _ _ _ _ _ _ F s Hs) E p 0 ltac:(right; left; reflexivity) ltac:(right; reflexivity)). lia. }
  pose proof (loop_T _ _ _ _ _ _ _ _ F eq_refl s Hs) as I. destruct (tloop _ _ _ _ _) as [| |R gR|]; [destruct I|apply Bad; intros [X _]; destruct (I X)| |destruct I].
  destruct I as (H1 & H2 & -> & H3). destruct (T_compat _ _ _ _ q s R F eq_refl Hs H1 H2 H3) as [Tc _].
  destruct (k_ok L (q_k q) T R (sr s [] R)); [|apply Bad; intros [_ X]; apply Tc in X; discriminate].
  pose proof (loop_p _ _ _ _ _ _ _ _ F eq_refl s R p Hs H1 H2 H3 ltac:(right; left; reflexivity)) as J. pose proof (least_p _ _ _ _ _ _ _ _ F eq_refl s R Hs H1 H2 H3) as LP.
  destruct (istart _ _ _ _ _ _ _) as [| |i gi|]; [destruct J|apply Bad; intros [X _]; destruct (J X)| |]; destruct J as [H H0].
  - exists (Z.of_nat R), (Z.of_nat i), gi. split; [reflexivity|]. split; [|auto]. split; [|lia]. intros _. split; [apply (ones_le s R); assumption|apply Tc; reflexivity].
  - exists (Z.of_nat R), (-1)%Z, 1%Z. split; [reflexivity|]. split; [|auto]. split; [|lia]. intros _. split; [apply (ones_le s R); try assumption|apply Tc; reflexivity]. intros j. specialize (H0 j). lia.
Qed.
Lemma T_sub s : fermionic k = false -> st s -> exists R0 R1, check_T_sub w k L quick (map A p) (q_k q) T s = Some [R0; R1] /\
  (0 < R0 <-> extremal w k L T [[LT]; g] s /\ compatible w k L T q [[LT]] s)%Z /\ ((0 < R0)%Z -> least_period w k L T s R0 /\ first_return w k L T p s R1 1).
Proof.
  intros Fk Hs. destruct (T_one L s Hs) as (R0 & R1 & sg & E & Q1 & Q2). exists R0, R1. split; [|split; [exact Q1|]].
  - unfold check_T_one in E. unfold check_T_sub. rewrite !Hq in * by exact Hs. destruct (_ && _)%bool; [inversion E; reflexivity|].
    pose proof (loop_T _ _ _ _ _ _ _ _ F eq_refl s Hs) as I. destruct (tloop _ _ _ _ _) as [| |R gR|]; [destruct I|inversion E; reflexivity| |destruct I]. destruct I as (_ & _ & Eg & _).
    assert (X : gR = 1%Z). { rewrite Eg. apply sgo_one; [exact (f_fit F)|exact Fk|apply pre_ok; [apply (HT _ _ _ _ _ _ _ _ F eq_refl)|constructor]|exact Hs]. }
    rewrite X in E. unfold k_ok in E. cbn [Z.ltb Z.compare] in E. unfold k_ok_nosign. destruct (_ =? _); [|inversion E; reflexivity]. destruct (istart _ _ _ _ _ _ _); inversion E; reflexivity.
  - intros P. destruct (Q2 P) as [Q3 Q4]. split; [exact Q3|]. destruct Q4 as [(i & E1 & E2 & E3)|E4]; [|right; tauto]. left. exists i. split; [exact E1|]. split; [|exact E3].
    apply reaches_iff in E2; [|exact (f_fit F)|apply pre_ok; [apply (HT _ _ _ _ _ _ _ _ F eq_refl)|apply (p_ok _ _ _ _ _ _ _ _ F); right; left; reflexivity]|exact Hs].
    destruct E2 as [E2 E4]. rewrite sgo_one in E4; [|exact (f_fit F)|exact Fk|apply pre_ok; [apply (HT _ _ _ _ _ _ _ _ F eq_refl)|apply (p_ok _ _ _ _ _ _ _ _ F); right; left; reflexivity]|exact Hs]. apply reaches_iff; [exact (f_fit F)|apply pre_ok; [apply (HT _ _ _ _ _ _ _ _ F eq_refl)|apply (p_ok _ _ _ _ _ _ _ _ F); right; left; reflexivity]|exact Hs|].
    split; [exact E2|]. symmetry. apply sgo_one; [exact (f_fit F)|exact Fk|apply pre_ok; [apply (HT _ _ _ _ _ _ _ _ F eq_refl)|apply (p_ok _ _ _ _ _ _ _ _ F); right; left; reflexivity]|exact Hs].
Qed.
End One.
End A.
