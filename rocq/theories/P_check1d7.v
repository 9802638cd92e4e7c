(* Translations with two more symmetries; single checks; the states that the loops keep. *)
From Verif Require Import AuxN SpecMaps SpecFermi SpecChain M_bits1d SpecChain1d SpecCheck1d M_check1d P_maps P_square P_bits1d P_bits1d4 P_bits1d5 P_check1d P_check1d2 P_check1d3 P_check1d4 P_check1d5 P_check1d6.
Local Open Scope nat_scope.

Section A.
Variables (w : btype) (k : kind) (L T : nat).
Notation st s := (s < levels k ^ N.of_nat (sites k L))%N.
Notation sto := (sto w k L T).
Notation sgo := (sgo w k L T).
Notation lok := (lok w k L T).
Notation rep := (repeat LT).
Notation tr := (tr w k L T).
Notation sr := (sr w k L T).
Notation A := (act w k L T).

Section Single.
Variables (two : bool) (g : list letter).
Hypothesis F : family w k L T two false [g] [[]; g].
Variable q : quanta.
Variable q1 : Z.
Hypothesis Uq : unit_ q1.
Hypothesis Gen : Forall (gentle L two false q) g.
Hypothesis Ph : exists z, (phase_of L T q g = half_turn L q1 + z * (2 * Z.of_nat L))%Z.
Lemma single_spec s : st s -> let v := cmpv q1 s (tr s g 0) (sr s g 0) in
  ((0 < v)%Z <-> extremal w k L T [g] s /\ compatible w k L T q [g] s) /\ ((0 < v)%Z -> v = (2 * Z.of_nat (length (filter (returns_to w k L T s) [[]; g])))%Z).
Proof.
  intros Hs. cbn zeta. pose proof (HL1 w k L (f_fit F)) as HL. pose proof (p_ok _ _ _ _ _ _ _ _ F g ltac:(cbn; auto)) as O1.
  destruct (run_p _ _ _ _ _ _ _ _ F s g Hs ltac:(cbn; auto)) as (_ & U & _).
  rewrite (ex_iff _ _ _ _ _ _ _ _ F s Hs), (co_iff _ _ _ _ _ _ _ _ F q s ltac:(intros x [<-|[]]; exact Gen) Hs).
  assert (Rr : forall p, Forall lok p -> returns_to w k L T s p = (tr s p 0 =? s)%N). { intros p Hp. unfold P_check1d2.tr. cbn [repeat]. rewrite app_nil_r. apply (ret_p _ _ _ _ _ _ _ _ F s p Hs Hp). }
  cbn [filter]. rewrite (Rr [] ltac:(constructor)), (Rr g O1), (proj1 (tr0 w k L T s)), N.eqb_refl. unfold good_phase.
  assert (P1 : ((phase_of L T q (g ++ rep 0) + half_turn L (sr s g 0)) mod (2 * Z.of_nat L) = 0 <-> (q1 * sr s g 0 =? -1) = false)%Z).
  { cbn [repeat]. rewrite app_nil_r. destruct Ph as [z ->]. replace (half_turn L q1 + z * (2 * Z.of_nat L) + half_turn L (sr s g 0))%Z with (half_turn L q1 + half_turn L (sr s g 0) + z * (2 * Z.of_nat L))%Z by lia. rewrite Z.mod_add by lia. apply compat_unit; assumption. }
  assert (P0 : forall i, top false i -> forall p, In p [[]; g] -> (tr s p i <= s)%N <-> (p = g -> (tr s g 0 <= s)%N)) by
    (intros i [X| ->] p [<-|[<-|[]]]; [discriminate|discriminate| |tauto]; rewrite (proj1 (tr0 w k L T s)); split; [|lia]; intros _ <-; rewrite (proj1 (tr0 w k L T s)); lia).
  unfold cmpv. destruct (N.ltb_spec (tr s g 0) s) as [A1|A1], (N.eqb_spec (tr s g 0) s) as [B1|B1]; try lia; cbn [length].
  - split; [|reflexivity]. split; [|lia]. intros _. split.
    + intros p i Hp Ht. apply P0; try assumption. intros _. lia.
    + intros p i [<-|[<-|[]]] [X| ->] E; try discriminate; [|lia]. rewrite (proj2 (tr0 w k L T s)). cbn [app repeat phase_of fold_right]. change (half_turn L 1) with 0%Z. reflexivity.
  - destruct (q1 * sr s g 0 =? -1)%Z; cbn [negb].
    + split; [|lia]. split; [lia|]. intros [_ C]. specialize (C g 0 ltac:(cbn; auto) ltac:(right; reflexivity) B1). apply P1 in C. discriminate.
    + split; [|reflexivity]. split; [|lia]. intros _. split.
      * intros p i Hp Ht. apply P0; try assumption. intros _. lia.
      * intros p i [<-|[<-|[]]] [X| ->] E; try discriminate; [|apply P1; reflexivity]. rewrite (proj2 (tr0 w k L T s)). cbn [app repeat phase_of fold_right]. change (half_turn L 1) with 0%Z. reflexivity.
  - split; [|lia]. split; [lia|]. intros [E _]. specialize (E g 0 ltac:(cbn; auto) ltac:(right; reflexivity)). lia.
Qed.
End Single.

Section TTwo.
Variables (two : bool) (g1 g2 p1 p2 : list letter).
Notation pres := [[]; p1; p2; p1 ++ p2].
Notation gens := [[LT]; g1; g2].
Hypothesis F : family w k L T two true gens pres.
Hypothesis Cm : eq1 L (el T two (p1 ++ p2)) (el T two (p2 ++ p1)).
Variable quick : Z -> Z -> N -> option Z.
Variable sw : bool.
Hypothesis Hq : forall a b s, st s -> quick (if sw then b else a) (if sw then a else b) s = combine3 (Some (cmpv a s (tr s p1 0) (sr s p1 0))) (Some (cmpv b s (tr s p2 0) (sr s p2 0))) (Some (cmpv (a * b) s (tr s (p1 ++ p2) 0) (sr s (p1 ++ p2) 0))).
Lemma combine_some a b c : exists v, combine3 (Some a) (Some b) (Some c) = Some v. Proof. unfold combine3. destruct (a <? 0)%Z, (b <? 0)%Z, (c <? 0)%Z; eexists; reflexivity. Qed.
Lemma quick_two s : st s -> exists v1 v2 v3 v4, quick 1 1 s = Some v1 /\ quick (-1) 1 s = Some v2 /\ quick 1 (-1) s = Some v3 /\ quick (-1) (-1) s = Some v4 /\
  (((v1 <? 0) && (v2 <? 0) && (v3 <? 0) && (v4 <? 0))%bool%Z = true -> ~ extremal w k L T gens s).
Proof.
  intros Hs. assert (Sm : forall a b, exists v, quick a b s = Some v). { intros a b. destruct sw; [specialize (Hq b a s Hs)|specialize (Hq a b s Hs)]; cbn in Hq; rewrite Hq; apply combine_some. }
  destruct (Sm 1 1)%Z as [v1 E1], (Sm (-1) 1)%Z as [v2 E2], (Sm 1 (-1))%Z as [v3 E3], (Sm (-1) (-1))%Z as [v4 E4]. exists v1, v2, v3, v4. repeat (split; [assumption|]). intros N. rewrite !Bool.andb_true_iff in N. destruct N as [[[N1 N2] N3] N4]. apply Z.ltb_lt in N1, N2, N3, N4.
  pose proof (facts _ _ _ _ _ _ _ _ _ F Cm s Hs) as Fs. cbn zeta in Fs. destruct Fs as (U1 & U2 & U12 & C1 & C2).
  destruct (combine_neg s _ _ _ _ _ _ U1 U2 U12 C1 C2 (fun a b => quick (if sw then b else a) (if sw then a else b) s) (fun a b => Hq a b s Hs)) as [(a & b & Ua & Ub & v & Ev & Pv)|G].
  - exfalso. destruct sw, Ua as [-> | ->], Ub as [-> | ->]; rewrite Ev in *; congruence || (inversion E1; lia) || (inversion E2; lia) || (inversion E3; lia) || (inversion E4; lia).
  - intros E. pose proof (proj1 (ex_iff _ _ _ _ _ _ _ _ F s Hs) E) as X. destruct G as [G|[G|G]]; [specialize (X p1 0 ltac:(cbn; auto) ltac:(right; reflexivity))|specialize (X p2 0 ltac:(cbn; auto) ltac:(right; reflexivity))|specialize (X (p1 ++ p2) 0 ltac:(cbn; auto) ltac:(right; reflexivity))]; lia.
Qed.
Variable q : quanta.
Definition verdict (s : N) (r : list Z) : Prop := exists R0 R1 R2 R3 s1 s2 s3, r = [R0; R1; R2; R3; s1; s2; s3] /\
  (0 < R0 <-> extremal w k L T gens s /\ compatible w k L T q [[LT]] s)%Z /\
  ((0 < R0)%Z -> least_period w k L T s R0 /\ first_return w k L T p1 s R1 s1 /\ first_return w k L T p2 s R2 s2 /\ first_return w k L T (p1 ++ p2) s R3 s3).
Lemma T_two pre12 cond s : st s -> run_ops pre12 (s, 1%Z) = run_ops (map A (p1 ++ p2)) (s, 1%Z) -> (forall R, cond (q_k q) T R (sr s [] R) = k_ok L (q_k q) T R (sr s [] R)) ->
  exists r, check_T_two w k L quick (map A p1) (map A p2) pre12 cond (q_k q) T s = Some r /\ verdict s r.
Proof.
  intros Hs E12 Hc. destruct (quick_two s Hs) as (v1 & v2 & v3 & v4 & Q1 & Q2 & Q3 & Q4 & Nq). unfold check_T_two. rewrite Q1, Q2, Q3, Q4.
  assert (Bad : forall r, ~ (extremal w k L T gens s /\ compatible w k L T q [[LT]] s) -> length r = 7 -> hd 0%Z r = (-1)%Z -> exists r', Some r = Some r' /\ verdict s r').
  { intros r N Lr Hr. exists r. split; [reflexivity|]. do 7 (destruct r as [|? r]; [discriminate|]). destruct r; [|discriminate]. cbn in Hr. subst z. unfold verdict. do 7 eexists. split; [reflexivity|]. split; [|lia]. split; [lia|intros X; destruct (N X)]. }
  destruct (_ && _)%bool. { apply Bad; [intros [X _]; exact (Nq eq_refl X)|reflexivity|reflexivity]. }
  pose proof (loop_T _ _ _ _ _ _ _ _ F eq_refl s Hs) as I. destruct (tloop _ _ _ _ _) as [| |R gR|]; [destruct I|apply Bad; [intros [X _]; destruct (I X)|reflexivity|reflexivity]| |destruct I].
  destruct I as (H1 & H2 & -> & H3). destruct (T_compat _ _ _ _ _ _ _ _ q s R F eq_refl Hs H1 H2 H3) as [Tc _]. rewrite Hc.
  destruct (k_ok L (q_k q) T R (sr s [] R)); [|apply Bad; [intros [_ X]; apply Tc in X; discriminate|reflexivity|reflexivity]].
  pose proof (least_p _ _ _ _ _ _ _ _ F eq_refl s R Hs H1 H2 H3) as LP. pose proof (le_T _ _ _ _ _ _ _ _ F eq_refl s R Hs H1 H2 H3) as LE. pose proof (proj2 Tc eq_refl) as Tc1. clear Tc Nq.
  assert (I12 : istart w k L T s R pre12 = istart w k L T s R (map A (p1 ++ p2))) by (unfold istart; rewrite E12; reflexivity). rewrite I12. clear I12.
  pose proof (fun p Hp => loop_p _ _ _ _ _ _ _ _ F eq_refl s R p Hs H1 H2 H3 Hp) as J.
  assert (J' : forall p, In p pres -> match istart w k L T s R (map A p) with TUndef => False | TGreater => ~ extremal w k L T gens s | TBack i g => first_return w k L T p s (Z.of_nat i) g /\ (forall j, (tr s p j <= s)%N) | TEnd => first_return w k L T p s (-1) 1 /\ (forall j, (tr s p j <= s)%N) end).
  { intros p Hp. specialize (J p Hp). destruct (istart _ _ _ _ _ _ _); try exact J. destruct J as [J1 J2]. split; [exact J1|]. intros j. specialize (J2 j). lia. }
  clear J. pose proof (J' p1 ltac:(cbn; auto)) as K1. pose proof (J' p2 ltac:(cbn; auto)) as K2. pose proof (J' (p1 ++ p2) ltac:(cbn; auto)) as K3. clear J'.
  assert (Good : forall R1 R2 R3 s1 s2 s3, (first_return w k L T p1 s R1 s1 /\ forall j, (tr s p1 j <= s)%N) -> (first_return w k L T p2 s R2 s2 /\ forall j, (tr s p2 j <= s)%N) -> (first_return w k L T (p1 ++ p2) s R3 s3 /\ forall j, (tr s (p1 ++ p2) j <= s)%N) -> exists r', Some [Z.of_nat R; R1; R2; R3; s1; s2; s3] = Some r' /\ verdict s r').
  { intros R1 R2 R3 s1 s2 s3 [A1 B1] [A2 B2] [A3 B3]. eexists. split; [reflexivity|]. exists (Z.of_nat R), R1, R2, R3, s1, s2, s3. split; [reflexivity|]. split; [|auto]. split; [|lia]. intros _. split; [|exact Tc1]. apply (ex_iff _ _ _ _ _ _ _ _ F s Hs). intros p i Hp _. cbn in Hp. destruct Hp as [<-|[<-|[<-|[<-|[]]]]]; auto. }
  destruct (istart w k L T s R (map A p1)) as [| |i1 s1|]; [destruct K1|apply Bad; [intros [X _]; destruct (K1 X)|reflexivity|reflexivity]| |].
  all: cbn [later firstn skipn app tl Nat.add]; destruct (istart w k L T s R (map A p2)) as [| |i2 s2|]; [destruct K2|apply Bad; [intros [X _]; destruct (K2 X)|reflexivity|reflexivity]| |].
  all: cbn [later firstn skipn app tl Nat.add]; destruct (istart w k L T s R (map A (p1 ++ p2))) as [| |i3 s3|]; [destruct K3|apply Bad; [intros [X _]; destruct (K3 X)|reflexivity|reflexivity]| |].
  all: cbn [later firstn skipn app tl Nat.add]; apply Good; assumption.
Qed.
End TTwo.

(* ---- which states are kept ---- *)
Lemma minus_one_iff qq kb a m : 1 <= L -> unit_ qq -> (minus_one L qq kb a (Z.of_nat m) = true <-> ((2 * Z.of_nat kb * Z.of_nat a * Z.of_nat m + half_turn L qq + Z.of_nat L) mod (2 * Z.of_nat L) = 0)%Z).
Proof.
  intros HL U. unfold minus_one. replace (2 * Z.of_nat kb * Z.of_nat a * Z.of_nat m)%Z with (2 * (Z.of_nat kb * Z.of_nat a * Z.of_nat m))%Z by lia. set (X := (Z.of_nat kb * Z.of_nat a * Z.of_nat m)%Z). clearbody X. destruct U as [-> | ->].
  - change (0 <? 1)%Z with true. change (half_turn L 1) with 0%Z. rewrite Z.eqb_eq, !Z.mod_divide by lia. split; intros [z Hz]; [exists (z + 1)%Z|exists (z - 1)%Z]; lia.
  - change (0 <? -1)%Z with false. change (half_turn L (-1)) with (Z.of_nat L). cbv iota. rewrite Z.eqb_eq, !Z.mod_divide by lia. split; intros [z Hz]; [exists (z + 1)%Z|exists (z - 1)%Z]; lia.
Qed.
Section Keep.
Variables (two : bool) (gens pres : list (list letter)).
Hypothesis F : family w k L T two true gens pres.
Variable q : quanta.
Hypothesis Gen : forall g, In g gens -> Forall (gentle L two true q) g.
Variable p : list letter.
Hypothesis Hp : In p pres.
Hypothesis Inv : fold_left (mh T two) p (fst (el T two p)) = (false, false).
Hypothesis Uni : forall p', In p' pres -> fst (el T two p') = (false, false) -> p' = [].
Notation gp s i := (phase_of L T q (p ++ rep i) + half_turn L (sr s p i))%Z.
Lemma gp_twice s R i : st s -> 1 <= R -> tr s [] R = s -> (forall j, 0 < j < R -> (tr s [] j < s)%N) -> compatible w k L T q [[LT]] s -> tr s p i = s -> ((2 * gp s i) mod (2 * Z.of_nat L) = 0)%Z.
Proof.
  intros Hs H1 H2 H3 Hc Ei. pose proof (HL1 w k L (f_fit F)) as HL. pose proof (f_fit F) as SF. destruct (T_compat _ _ _ _ _ _ _ _ q s R F eq_refl Hs H1 H2 H3) as [Tc Tq]. specialize (Tq (proj1 Tc Hc)).
  pose proof (p_okf _ _ _ _ _ _ _ _ F) as Pk.
  assert (W : product_of gens (p ++ rep i)) by (apply (pr_gen true gens pres); [exact (f_t F)|exact (f_gen F)|exact Hp|left; reflexivity]).
  assert (WW : product_of gens ((p ++ rep i) ++ (p ++ rep i))) by (apply gen_app; exact W).
  destruct (norm w k L T SF two true gens pres (f_T F) (f_gok F) Pk (f_t F) (f_gen F) (f_nil F) (f_no F) (f_cl F) _ WW) as (p' & j & Hp' & _ & Ee & Q).
  assert (E' : p' = []). { apply Uni; [exact Hp'|]. destruct Ee as [Ee _]. unfold el in Ee. rewrite !fold_left_app, !fold_rep in Ee. cbn [fst] in Ee. rewrite fold_head in Ee. cbn [fst] in Ee. fold (el T two p) in Ee. rewrite Inv in Ee. symmetry. fold (el T two p') in Ee. exact Ee. }
  subst p'. destruct (Q s Hs) as [Q1 Q2]. assert (Ow : Forall lok (p ++ rep i)) by (apply (okf_lok w k L T two), (prod_ok w k L T two gens (f_gok F)), W).
  destruct (sto_app w k L T SF (p ++ rep i) (p ++ rep i) s Ow Ow Hs) as [S1 S2]. fold (tr s p i) in S1, S2. fold (sr s p i) in S2. change (sto (p ++ rep i) s) with (tr s p i) in *. change (sgo (p ++ rep i) s) with (sr s p i) in *. rewrite Ei in S1, S2. change (sto (p ++ rep i) s) with (tr s p i) in *. change (sgo (p ++ rep i) s) with (sr s p i) in *. rewrite Ei in S1.
  pose proof (sr_unit _ _ _ _ _ _ _ _ F eq_refl s p i Hs Hp) as U. assert (U2 : (sr s p i * sr s p i = 1)%Z) by (destruct U as [-> | ->]; reflexivity). specialize (Tq j ltac:(congruence)). assert (Sj : sr s [] j = 1%Z) by congruence. rewrite Sj in Tq. change (half_turn L 1) with 0%Z in Tq.
  pose proof (phase_norm w k L T SF two true gens pres (f_T F) (f_gok F) Pk (f_t F) (f_gen F) (f_no F) (f_cl F) q Gen _ [] j WW (f_nil F) (or_introl eq_refl) Ee) as C. apply (cg_ex w k L T SF (f_T F)) in C. destruct C as [z C]. rewrite pho_app in C. cbn [app] in C. rewrite pho_rep in C.
  apply Z.mod_divide in Tq; [|lia]. destruct Tq as [y Ty]. apply Z.mod_divide; [lia|]. assert (Hh : exists x, (2 * half_turn L (sr s p i) = x * (2 * Z.of_nat L))%Z) by (unfold half_turn; destruct (sr s p i <? 0)%Z; [exists 1%Z|exists 0%Z]; lia). destruct Hh as [x Hx]. exists (y + z + x)%Z. lia.
Qed.
(* compatibility with the words p T^i *)
Lemma gp_all s R m sg : st s -> 1 <= R -> tr s [] R = s -> (forall j, 0 < j < R -> (tr s [] j < s)%N) -> compatible w k L T q [[LT]] s -> first_return w k L T p s m sg ->
  ((forall i, tr s p i = s -> ((gp s i) mod (2 * Z.of_nat L) = 0)%Z) <-> (m = -1 \/ exists i, m = Z.of_nat i /\ ~ (phase_of L T q p + 2 * Z.of_nat (q_k q) * Z.of_nat T * Z.of_nat i + half_turn L sg + Z.of_nat L) mod (2 * Z.of_nat L) = 0)%Z).
Proof.
  intros Hs H1 H2 H3 Hc Hr. pose proof (HL1 w k L (f_fit F)) as HL. pose proof (f_fit F) as SF. destruct (T_compat _ _ _ _ _ _ _ _ q s R F eq_refl Hs H1 H2 H3) as [Tc Tq]. specialize (Tq (proj1 Tc Hc)).
  assert (Ok : forall j, Forall lok (p ++ rep j)) by (intros j; apply pre_ok; [apply (HT _ _ _ _ _ _ _ _ F eq_refl)|apply (p_ok _ _ _ _ _ _ _ _ F), Hp]).
  destruct Hr as [(i & -> & E2 & E3)|(-> & -> & E3)].
  - apply reaches_iff in E2; [|exact SF|apply Ok|exact Hs]. destruct E2 as [E2 E4]. change (sto (p ++ rep i) s) with (tr s p i) in E2. change (sgo (p ++ rep i) s) with (sr s p i) in E4. symmetry in E2. pose proof (gp_twice s R i Hs H1 H2 H3 Hc E2) as Tw. rewrite pho_app, pho_rep in Tw. rewrite <- E4 in Tw.
    set (X := (phase_of L T q p + 2 * Z.of_nat (q_k q) * Z.of_nat T * Z.of_nat i + half_turn L sg)%Z) in *. apply Z.mod_divide in Tw; [|lia]. destruct Tw as [y Ty].
    assert (D : (X mod (2 * Z.of_nat L) = 0 <-> ~ (X + Z.of_nat L) mod (2 * Z.of_nat L) = 0)%Z).
    { assert (Y : X = (y * Z.of_nat L)%Z) by lia. rewrite Y. rewrite !Z.mod_divide by lia. clear - HL. split.
      - intros [a Ha] [b Hb]. assert (Q : ((2 * (b - a) - 1) * Z.of_nat L = 0)%Z) by lia. apply Z.mul_eq_0 in Q. lia.
      - intros N. destruct (Z.Even_or_Odd y) as [[h ->]|[h ->]]; [exists h; lia|]. exfalso. apply N. exists (h + 1)%Z. lia. }
    split.
    + intros G. right. exists i. split; [reflexivity|]. apply D. specialize (G i E2). rewrite pho_app, pho_rep, <- E4 in G. exact G.
    + intros [N|(i' & Ei & N)]; [lia|]. apply Nat2Z.inj in Ei. subst i'. apply D in N. intros j Ej.
      assert (Gj : i <= j). { destruct (Nat.le_gt_cases i j) as [|G]; [assumption|]. specialize (E3 j G). rewrite (ret_p _ _ _ _ _ _ _ _ F s _ Hs (Ok j)) in E3. apply N.eqb_neq in E3. destruct (E3 Ej). }
      replace j with (i + (j - i)) in * by (clear - Gj; lia). set (d := j - i) in *. clearbody d. destruct (tr_shift w k L T SF s Hs (HT _ _ _ _ _ _ _ _ F eq_refl) p i d (p_ok _ _ _ _ _ _ _ _ F p Hp)) as [S1 S2]. rewrite E2 in S1, S2. change (sto (rep d) s) with (tr s [] d) in S1. change (sgo (rep d) s) with (sr s [] d) in S2. rewrite S1 in Ej. specialize (Tq d Ej). rewrite S2, <- E4.
      assert (Us : unit_ sg) by (rewrite E4; apply (sr_unit _ _ _ _ _ _ _ _ F eq_refl s p i Hs Hp)). destruct (turn_mul L sg (sr s [] d) HL Us (sr_unit _ _ _ _ _ _ _ _ F eq_refl s [] d Hs (f_nil F))) as [z ->]. rewrite pho_app, pho_rep.
      assert (L0 : (2 * Z.of_nat L <> 0)%Z) by (clear - HL; lia). apply Z.mod_divide in N; [|exact L0]. apply Z.mod_divide in Tq; [|exact L0]. destruct N as [a Na], Tq as [b Nb]. apply Z.mod_divide; [exact L0|]. exists (a + b + z)%Z. unfold X in Na. replace (Z.of_nat (i + d)) with (Z.of_nat i + Z.of_nat d)%Z by (clear; lia). clear - Na Nb. lia.
  - split; [left; reflexivity|]. intros _ i Ei. specialize (E3 i). rewrite (ret_p _ _ _ _ _ _ _ _ F s _ Hs (Ok i)) in E3. apply N.eqb_neq in E3. destruct (E3 Ei).
Qed.
End Keep.
End A.
