(* The reference-state routines, and the states kept with both sublattice inversions. *)
From Verif Require Import AuxN SpecMaps SpecFermi SpecChain M_bits1d SpecChain1d SpecCheck1d M_check1d P_maps P_square P_bits1d P_bits1d4 P_bits1d5 P_check1d P_check1d2 P_check1d3 P_check1d4 P_check1d5 P_check1d6 P_check1d7 P_check1d8.
Local Open Scope nat_scope.

Section A.
Variables (w : btype) (k : kind) (L T : nat).
Notation st s := (s < levels k ^ N.of_nat (sites k L))%N.
Notation sto := (sto w k L T).
Notation sgo := (sgo w k L T).
Notation lok := (lok w k L T).
Notation rep := (repeat LT).
Notation tr := (tr w k L T).
Notation sr := (sr w k L T).
Notation A := (act w k L T).
Notation best := (N * Z * list nat)%type.
Notation bst b := (fst (fst b)).

Section Ref.
Hypothesis SF : states_fit w k L.
Variable s : N.
Hypothesis Hs : st s.
Hypothesis HT0 : lok LT.
Lemma rloop_spec p lab : Forall lok p -> forall cnt i (b : best), exists b', rloop (T_ w k L T) lab cnt (S i) (tr s p i, sr s p i) b = Some b' /\ (bst b <= bst b')%N /\
  (forall j, i < j <= i + cnt -> (tr s p j <= bst b')%N) /\ (b' = b \/ exists j, i < j <= i + cnt /\ b' = (tr s p j, sr s p j, j :: lab)).
Proof.
  intros Hp. induction cnt as [|c IH]; intros i b; cbn [rloop].
  - exists b. split; [reflexivity|]. split; [lia|]. split; [intros; lia|auto].
  - rewrite (next_T w k L T SF s Hs HT0 p i Hp). destruct (N.ltb_spec (bst b) (tr s p (S i))) as [G|G].
    + destruct (IH (S i) (tr s p (S i), sr s p (S i), S i :: lab)) as (b' & E & Le & Al & Or). exists b'. split; [exact E|]. cbn [fst] in Le. split; [lia|]. split.
      * intros j Hj. destruct (Nat.eq_dec j (S i)) as [->|]; [exact Le|apply Al; lia].
      * right. destruct Or as [->|(j & Hj & ->)]; [exists (S i); split; [lia|reflexivity]|exists j; split; [lia|reflexivity]].
    + destruct (IH (S i) b) as (b' & E & Le & Al & Or). exists b'. split; [exact E|]. split; [exact Le|]. split.
      * intros j Hj. destruct (Nat.eq_dec j (S i)) as [->|]; [lia|apply Al; lia].
      * destruct Or as [->|(j & Hj & ->)]; [auto|]. right. exists j. split; [lia|reflexivity].
Qed.
Notation n := (L / T).
Definition from (cs : list (list letter * list nat)) (b : best) : Prop := exists p lab j, In (p, lab) cs /\ j <= n /\ b = (tr s p j, sr s p j, j :: lab).
Definition state (cs : list (list letter * list nat)) (done : list (list letter)) (b : best) : Prop := from cs b /\ forall p j, In p done -> 1 <= j <= n -> (tr s p j <= bst b)%N.
Lemma rstage_spec cs done p lab b : Forall lok p -> In (p, lab) cs -> state cs done b -> exists b', rstage w k L T s (map A p) lab (Some b) = Some b' /\ state cs (p :: done) b'.
Proof.
  intros Hp Hi [Fr Al]. unfold rstage. rewrite (run_one w k L T SF p s Hp Hs). assert (E0 : (sto p s, sgo p s) = (tr s p 0, sr s p 0)) by (unfold P_check1d2.tr, P_check1d2.sr; cbn [repeat]; rewrite app_nil_r; reflexivity). rewrite E0.
  destruct (rloop_spec p lab Hp n 0 b) as (b' & E & Le & Al' & Or). exists b'. split; [exact E|]. split.
  - destruct Or as [->|(j & Hj & ->)]; [exact Fr|]. exists p, lab, j. split; [exact Hi|]. split; [lia|reflexivity].
  - intros p' j [<-|Hp'] Hj; [apply Al'; lia|]. specialize (Al p' j Hp' Hj). lia.
Qed.
Lemma state0 cs lab : In ([], lab) cs -> state cs [] (s, 1%Z, 0 :: lab).
Proof. intros H. split; [|intros p j []]. exists [], lab, 0. split; [exact H|]. split; [apply Nat.le_0_l|]. destruct (tr0 w k L T s) as [-> ->]. reflexivity. Qed.
Lemma state_max two gens cs done b : family w k L T two true gens done -> state cs done b -> forall word t g, product_of gens word -> reaches w k L T word s t g -> (t <= bst b)%N.
Proof.
  intros F [_ Al] word t g Hw Hr. pose proof (p_okf _ _ _ _ _ _ _ _ F) as Pk. apply reaches_iff in Hr; [|exact SF|apply (okf_lok w k L T two), (prod_ok w k L T two gens (f_gok F)), Hw|exact Hs]. destruct Hr as [-> _].
  destruct (norm w k L T SF two true gens done (f_T F) (f_gok F) Pk (f_t F) (f_gen F) (f_nil F) (f_no F) (f_cl F) _ Hw) as (p & i & Hp & _ & _ & Q). destruct (Q s Hs) as [-> _]. clear Q.
  pose proof (Hn w k L T two true _ _ F eq_refl) as Hn0. pose proof (Tn w k L T two true _ _ F eq_refl) as Tn0. pose proof (p_ok _ _ _ _ _ _ _ _ F p Hp) as Lp.
  assert (Pe : forall m i, tr s p (m * n + i) = tr s p i).
  { induction m as [|m IH]; intros i0; [reflexivity|]. replace (S m * n + i0) with ((m * n + i0) + n) by lia. rewrite (proj1 (tr_shift w k L T SF s Hs HT0 p _ n Lp)). rewrite (proj1 (Tn0 (tr s p (m * n + i0)) (sto_lt w k L T SF (p ++ rep (m * n + i0)) s (pre_ok w k L T HT0 p (m * n + i0) Lp) Hs))). apply IH. }
  pose proof (Nat.div_mod i n ltac:(lia)) as D. pose proof (Nat.mod_upper_bound i n ltac:(lia)) as B. rewrite D. replace (n * (i / n) + i mod n) with (i / n * n + i mod n) by lia. rewrite Pe.
  destruct (Nat.eq_dec (i mod n) 0) as [->|]; [|apply Al; [exact Hp|lia]]. pose proof (Pe 1 0) as P1. replace (1 * n + 0) with n in P1 by lia. rewrite <- P1. apply Al; [exact Hp|lia].
Qed.
Lemma from_reaches cs b : (forall p lab, In (p, lab) cs -> Forall lok p) -> from cs b -> exists p lab j, In (p, lab) cs /\ j <= n /\ snd b = j :: lab /\ reaches w k L T (p ++ rep j) s (bst b) (snd (fst b)).
Proof. intros Ho (p & lab & j & Hi & Hj & ->). exists p, lab, j. split; [exact Hi|]. split; [exact Hj|]. split; [reflexivity|]. apply reaches_iff; [exact SF|apply pre_ok; [exact HT0|apply (Ho p lab), Hi]|exact Hs|]. split; reflexivity. Qed.
End Ref.

(* ---- without translations ---- *)
Section Ref0.
Hypothesis SF : states_fit w k L.
Variable s : N.
Hypothesis Hs : st s.
Definition from0 (cs : list (list letter * list nat)) (b : best) : Prop := exists p lab, In (p, lab) cs /\ b = (sto p s, sgo p s, lab).
Definition state0' (cs : list (list letter * list nat)) (done : list (list letter)) (b : best) : Prop := from0 cs b /\ forall p, In p done -> (sto p s <= bst b)%N.
Lemma better_spec cs done p lab b : Forall lok p -> In (p, lab) cs -> state0' cs done b -> exists b', better (map A p) lab s (Some b) = Some b' /\ state0' cs (p :: done) b'.
Proof.
  intros Hp Hi [Fr Al]. unfold better. destruct b as [[r sg] Rb]. rewrite (run_one w k L T SF p s Hp Hs). cbn [fst] in Al. destruct (N.ltb_spec r (sto p s)) as [G|G]; eexists; (split; [reflexivity|]); split.
  - exists p, lab. auto.
  - cbn [fst]. intros p' [<-|Hp']; [lia|]. specialize (Al p' Hp'). lia.
  - exact Fr.
  - cbn [fst]. intros p' [<-|Hp']; [lia|]. apply Al, Hp'.
Qed.
Lemma state0_max two gens cs done b : family w k L T two false gens done -> state0' cs done b -> forall word t g, product_of gens word -> reaches w k L T word s t g -> (t <= bst b)%N.
Proof.
  intros F [_ Al] word t g Hw Hr. pose proof (p_okf _ _ _ _ _ _ _ _ F) as Pk. apply reaches_iff in Hr; [|exact SF|apply (okf_lok w k L T two), (prod_ok w k L T two gens (f_gok F)), Hw|exact Hs]. destruct Hr as [-> _].
  destruct (norm w k L T SF two false gens done (f_T F) (f_gok F) Pk (f_t F) (f_gen F) (f_nil F) (f_no F) (f_cl F) _ Hw) as (p & i & Hp & [X| ->] & _ & Q); [discriminate|]. destruct (Q s Hs) as [-> _]. unfold P_check1d2.tr. cbn [repeat]. rewrite app_nil_r. apply Al, Hp.
Qed.
Lemma from0_reaches cs b : (forall p lab, In (p, lab) cs -> Forall lok p) -> from0 cs b -> exists p lab, In (p, lab) cs /\ snd b = lab /\ reaches w k L T p s (bst b) (snd (fst b)).
Proof. intros Ho (p & lab & Hi & ->). exists p, lab. split; [exact Hi|]. split; [reflexivity|]. apply reaches_iff; [exact SF|apply (Ho p lab), Hi|exact Hs|]. split; reflexivity. Qed.
End Ref0.

(* ---- both sublattice inversions ---- *)
Section K2.
Variables (gens : list (list letter)).
Notation pres := [[]; [LA]; [LB]; [LA; LB]].
Hypothesis F : family w k L T true true gens pres.
Hypothesis GT : gens = [[LT]; [LA]; [LB]].
Hypothesis HS : has_sublattices k.
Hypothesis Ev : N.even (levels k) = true.
Hypothesis Ex : Nat.even L = true /\ Nat.even T = true.
Variable q : quanta.
Hypothesis Uq : unit_ (q_a q) /\ unit_ (q_b q).
Lemma K2_gen : forall x, In x gens -> Forall (gentle L true true q) x. Proof. rewrite GT. intros x [<-|[<-|[<-|[]]]]; repeat constructor. Qed.
Definition cond (qp m : Z) : bool := negb (negb (m =? -1) && minus_one L qp (q_k q) T m)%bool%Z.
Definition cond_spec (p : list letter) (m : Z) : Prop := (m = -1 \/ exists i, m = Z.of_nat i /\ ~ (phase_of L T q p + 2 * Z.of_nat (q_k q) * Z.of_nat T * Z.of_nat i + half_turn L 1 + Z.of_nat L) mod (2 * Z.of_nat L) = 0)%Z.
Lemma cond_iff p qp m s sg : unit_ qp -> (exists z, (half_turn L qp = phase_of L T q p + z * (2 * Z.of_nat L))%Z) -> first_return w k L T p s m sg -> (cond qp m = true <-> cond_spec p m).
Proof.
  intros U [z Ez] FR. pose proof (HL1 w k L (f_fit F)) as HL. unfold cond, cond_spec. destruct (Z.eqb_spec m (-1)) as [->|N1]; cbn [negb andb]; [split; [auto|reflexivity]|]. destruct FR as [(i & -> & _)|(X & _)]; [|congruence].
  pose proof (minus_one_iff L qp (q_k q) T i HL U) as Mi. rewrite Ez in Mi. change (half_turn L 1) with 0%Z.
  assert (EqX : ((2 * Z.of_nat (q_k q) * Z.of_nat T * Z.of_nat i + (phase_of L T q p + z * (2 * Z.of_nat L)) + Z.of_nat L) mod (2 * Z.of_nat L) = (phase_of L T q p + 2 * Z.of_nat (q_k q) * Z.of_nat T * Z.of_nat i + 0 + Z.of_nat L) mod (2 * Z.of_nat L))%Z).
  { replace (2 * Z.of_nat (q_k q) * Z.of_nat T * Z.of_nat i + (phase_of L T q p + z * (2 * Z.of_nat L)) + Z.of_nat L)%Z with (phase_of L T q p + 2 * Z.of_nat (q_k q) * Z.of_nat T * Z.of_nat i + 0 + Z.of_nat L + z * (2 * Z.of_nat L))%Z by lia. apply Z.mod_add. clear - HL. lia. }
  rewrite EqX in Mi. destruct (minus_one _ _ _ _ _); cbn [negb].
  - split; [discriminate|]. intros [X|(i' & Ei & N)]; [lia|]. apply Nat2Z.inj in Ei. subst i'. destruct (N (proj1 Mi eq_refl)).
  - split; [|reflexivity]. intros _. right. exists i. split; [reflexivity|]. intros X. apply Mi in X. discriminate.
Qed.
Lemma excl pa pb ma mb sa sb s : In (pa, pb) [([LA], [LB]); ([LA], [LA; LB]); ([LB], [LA; LB])] -> st s -> first_return w k L T pa s ma sa -> first_return w k L T pb s mb sb -> ma = (-1)%Z \/ mb = (-1)%Z.
Proof.
  intros Hab Hs Fa Fb. destruct Fa as [(i & -> & Ra & _)|(-> & _)]; [|auto]. destruct Fb as [(j & -> & Rb & _)|(-> & _)]; [|auto]. exfalso. pose proof (f_fit F) as SF. pose proof (HT _ _ _ _ _ _ _ _ F eq_refl) as HT0.
  assert (In pa pres /\ In pb pres) as [Ia Ib] by (cbn in Hab; destruct Hab as [X|[X|[X|[]]]]; inversion X; split; cbn; tauto).
  pose proof (p_okf _ _ _ _ _ _ _ _ F pa Ia) as Oa. pose proof (p_okf _ _ _ _ _ _ _ _ F pb Ib) as Ob.
  apply reaches_iff in Ra; [|exact SF|apply pre_ok; [exact HT0|apply (okf_lok _ _ _ _ _ _ Oa)]|exact Hs]. apply reaches_iff in Rb; [|exact SF|apply pre_ok; [exact HT0|apply (okf_lok _ _ _ _ _ _ Ob)]|exact Hs].
  destruct Ra as [Ra _], Rb as [Rb _]. symmetry in Ra, Rb. refine (no_double w k L T SF HS Ev Ex (f_T F) HT0 pa pb s i j Oa Ob _ _ _ _ _ Hs Ra Rb);
  cbn in Hab; destruct Hab as [X|[X|[X|[]]]]; inversion X; cbn; congruence.
Qed.
Lemma keep_two R0 R1 R2 R3 s1 s2 s3 s : st s -> fermionic k = false -> verdict w k L T [LA] [LB] [LA] [LB] q s [R0; R1; R2; R3; s1; s2; s3] ->
  let o := (if 0 <? R0 then
            if ((R1 =? -1) && (R2 =? -1) && (R3 =? -1))%bool then Some R0
            else if (negb (R1 =? -1) && (R2 =? -1) && (R3 =? -1))%bool then (if minus_one L (q_a q) (q_k q) T R1 then None else Some R0)
            else if ((R1 =? -1) && negb (R2 =? -1) && (R3 =? -1))%bool then (if minus_one L (q_b q) (q_k q) T R2 then None else Some R0)
            else if ((R1 =? -1) && (R2 =? -1) && negb (R3 =? -1))%bool then (if minus_one L (q_a q * q_b q) (q_k q) T R3 then None else Some R0)
            else None
          else None)%Z in
  (o <> None <-> extremal w k L T gens s /\ compatible w k L T q gens s) /\ forall r, o = Some r -> least_period w k L T s r.
Proof.
  intros Hs Fk Hv o. destruct Hv as (R0' & R1' & R2' & R3' & s1' & s2' & s3' & Er & Q1 & Q2). injection Er as <- <- <- <- <- <- <-. rewrite <- GT in Q1. pose proof (HL1 w k L (f_fit F)) as HL.
  assert (Ct : compatible w k L T q gens s -> compatible w k L T q [[LT]] s). { intros C word sign (gs & Hg & ->) Hr. apply (C (concat gs) sign); [|exact Hr]. exists gs. split; [|reflexivity]. revert Hg. apply Forall_impl. intros x [<-|[]]. rewrite GT. left. reflexivity. }
  destruct (Z.ltb_spec 0 R0) as [P|P].
  2:{ unfold o. split; [|discriminate]. split; [congruence|]. intros [E C]. exfalso. apply Ct in C. assert (0 < R0)%Z by (apply Q1; auto). lia. }
  destruct (Q2 P) as (LP & FA & FB & FC). destruct (proj1 Q1 P) as [E Tc]. split.
  2:{ intros r Hr. unfold o in Hr. destruct ((R1 =? -1) && _ && _)%bool%Z; [congruence|]. destruct (_ && _ && _)%bool; [destruct (minus_one _ _ _ _ _); congruence|]. destruct (_ && _ && _)%bool; [destruct (minus_one _ _ _ _ _); congruence|]. destruct (_ && _ && _)%bool; [destruct (minus_one _ _ _ _ _); congruence|discriminate]. }
  pose proof (excl [LA] [LB] _ _ _ _ s ltac:(cbn; auto) Hs FA FB) as X12. pose proof (excl [LA] [LA; LB] _ _ _ _ s ltac:(cbn; auto) Hs FA FC) as X13. pose proof (excl [LB] [LA; LB] _ _ _ _ s ltac:(cbn; auto) Hs FB FC) as X23.
  destruct LP as (R & H1 & -> & H2 & H3). pose proof (HT _ _ _ _ _ _ _ _ F eq_refl) as HT0.
  assert (Ot : forall j, Forall lok (rep j)) by (intros j; apply rep_ok, HT0). rewrite (ret_p _ _ _ _ _ _ _ _ F s _ Hs (Ot R)) in H2. apply N.eqb_eq in H2.
  pose proof (proj1 (ex_iff _ _ _ _ _ _ _ _ F s Hs) E) as E'. assert (H3' : forall j, 0 < j < R -> (tr s [] j < s)%N).
  { intros j Hj. specialize (H3 j ltac:(lia)). rewrite (ret_p _ _ _ _ _ _ _ _ F s _ Hs (Ot j)) in H3. apply N.eqb_neq in H3. specialize (E' [] j ltac:(cbn; auto) ltac:(left; reflexivity)). change (tr s [] j) with (sto (rep j) s) in *. lia. }
  assert (Uni : forall p', In p' pres -> fst (el T true p') = (false, false) -> p' = []) by (intros p' [<-|[<-|[<-|[<-|[]]]]] X; [reflexivity|discriminate|discriminate|discriminate]).
  assert (One : forall p m sg, In p pres -> first_return w k L T p s m sg -> sg = 1%Z).
  { intros p m sg Hp [(i & _ & Rc & _)|(_ & X & _)]; [|exact X]. apply reaches_iff in Rc; [|exact (f_fit F)|apply pre_ok; [exact HT0|apply (p_ok _ _ _ _ _ _ _ _ F), Hp]|exact Hs]. destruct Rc as [_ ->]. apply sgo_one; [exact (f_fit F)|exact Fk|apply pre_ok; [exact HT0|apply (p_ok _ _ _ _ _ _ _ _ F), Hp]|exact Hs]. }
  assert (Gp : forall p m sg, In p pres -> fold_left (mh T true) p (fst (el T true p)) = (false, false) -> first_return w k L T p s m sg -> ((forall i, tr s p i = s -> ((phase_of L T q (p ++ rep i) + half_turn L (sr s p i)) mod (2 * Z.of_nat L) = 0)%Z) <-> cond_spec p m)).
  { intros p m sg Hp Inv FR. pose proof (gp_all w k L T true _ _ F q K2_gen p Hp Inv Uni s R m sg Hs H1 H2 H3' Tc FR) as G. rewrite (One p m sg Hp FR) in G. exact G. }
  pose proof (Gp [LA] _ _ ltac:(cbn; auto) eq_refl FA) as GA. pose proof (Gp [LB] _ _ ltac:(cbn; auto) eq_refl FB) as GB. pose proof (Gp [LA; LB] _ _ ltac:(cbn; auto) eq_refl FC) as GC.
  assert (Full : compatible w k L T q gens s <-> cond_spec [LA] R1 /\ cond_spec [LB] R2 /\ cond_spec [LA; LB] R3).
  { rewrite <- GA, <- GB, <- GC. rewrite (co_iff _ _ _ _ _ _ _ _ F q s K2_gen Hs). split.
    - intros C. split; [|split]; intros i Ei; [apply (C [LA])|apply (C [LB])|apply (C [LA; LB])]; cbn; auto; left; reflexivity.
    - intros (C1 & C2 & C3) p' i Hp' _ Ei. cbn in Hp'. destruct Hp' as [<-|[<-|[<-|[<-|[]]]]]; [|apply C1, Ei|apply C2, Ei|apply C3, Ei].
      destruct (T_compat _ _ _ _ _ _ _ _ q s R F eq_refl Hs H1 H2 H3') as [Tc' Tq]. unfold good_phase. cbn [app]. rewrite pho_rep. apply Tq; [apply Tc', Tc|exact Ei]. }
  destruct Uq as [Ua Ub]. rewrite Full.
  rewrite <- (cond_iff [LA] (q_a q) R1 s s1 Ua ltac:(exists 0%Z; cbn [phase_of fold_right phase]; lia) FA), <- (cond_iff [LB] (q_b q) R2 s s2 Ub ltac:(exists 0%Z; cbn [phase_of fold_right phase]; lia) FB).
  rewrite <- (cond_iff [LA; LB] (q_a q * q_b q) R3 s s3 (unit_mul _ _ Ua Ub)); [|destruct (turn_mul L (q_a q) (q_b q) HL Ua Ub) as [z Ez]; exists z; rewrite Ez; cbn [phase_of fold_right phase]; lia|exact FC].
  unfold o, cond. clear - X12 X13 X23 E.
  destruct (Z.eqb_spec R1 (-1)), (Z.eqb_spec R2 (-1)), (Z.eqb_spec R3 (-1)); cbn [negb andb]; try (exfalso; lia).
  1: split; [intros _; auto|congruence].
  all: destruct (minus_one _ _ _ _ _); cbn [negb]; (split; [intros X; try (destruct (X eq_refl)); auto|intros (_ & X1 & X2 & X3); congruence]).
Qed.
End K2.
End A.
