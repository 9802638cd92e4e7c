(* The representative checks against the specification of orbits and quantum numbers. *)
From Verif Require Import AuxN SpecMaps SpecFermi SpecChain M_bits1d SpecChain1d SpecCheck1d M_check1d P_maps P_square P_bits1d P_bits1d4 P_bits1d5 P_check1d P_check1d2 P_check1d3.
Local Open Scope nat_scope.

Record family (w : btype) (k : kind) (L T : nat) (two tf : bool) (gens pres : list (list letter)) : Prop := {
  f_fit : states_fit w k L;
  f_T : 1 <= T /\ exists n, L = T * n;
  f_gok : forall g, In g gens -> Forall (okf w k L T two) g;
  f_t : if tf then In [LT] gens else forall g, In g gens -> ~ In LT g;
  f_gen : forall p, In p pres -> product_of gens p;
  f_nil : In [] pres;
  f_no : forall p, In p pres -> ~ In LT p;
  f_cl : forall p g, In p pres -> In g gens -> exists p', In p' pres /\ fold_left (mh T two) g (fst (el T two p)) = fst (el T two p') }.
Arguments f_fit {w k L T two tf gens pres}. Arguments f_T {w k L T two tf gens pres}. Arguments f_gok {w k L T two tf gens pres}. Arguments f_t {w k L T two tf gens pres}.
Arguments f_gen {w k L T two tf gens pres}. Arguments f_nil {w k L T two tf gens pres}. Arguments f_no {w k L T two tf gens pres}. Arguments f_cl {w k L T two tf gens pres}.

Lemma k_ok_iff L kb T R g : 1 <= L -> unit_ g -> (k_ok L kb T R g = true <-> ((2 * Z.of_nat kb * Z.of_nat T * Z.of_nat R + half_turn L g) mod (2 * Z.of_nat L) = 0)%Z).
Proof.
  intros HL [-> | ->]; unfold k_ok, half_turn; cbn [Z.ltb Z.compare].
  - rewrite Nat.eqb_eq, Nat.mod_divide, Z.mod_divide by lia. replace (2 * Z.of_nat kb * Z.of_nat T * Z.of_nat R)%Z with (2 * Z.of_nat (kb * T * R))%Z by lia. set (X := kb * T * R). clearbody X. split.
    + intros [z Hz]. exists (Z.of_nat z). nia.
    + intros [z Hz]. exists (Z.to_nat z). assert (0 <= z)%Z by nia. apply Nat2Z.inj. rewrite Nat2Z.inj_mul, Z2Nat.id by assumption. lia.
  - rewrite Bool.negb_true_iff, Bool.orb_false_iff, Bool.negb_false_iff, Nat.eqb_eq, Nat.eqb_neq. replace (2 * T * R * kb) with (2 * kb * T * R) by lia.
    replace (2 * Z.of_nat kb * Z.of_nat T * Z.of_nat R)%Z with (Z.of_nat (2 * kb * T * R)) by lia. set (X := 2 * kb * T * R). clearbody X. rewrite Z.mod_divide by lia. split.
    + intros [H1 H2]. pose proof (Nat.div_mod X L ltac:(lia)) as D. rewrite H2 in D. pose proof (Nat.div_mod (X / L) 2 ltac:(lia)) as D2. pose proof (Nat.mod_upper_bound (X / L) 2 ltac:(lia)). exists (Z.of_nat (X / L / 2) + 1)%Z. set (h := X / L / 2) in *. assert (E : X / L = 2 * h + 1) by lia. rewrite E in D. nia.
    + intros [z Hz]. assert (Hz1 : (1 <= z)%Z) by nia. assert (E : X = (2 * Z.to_nat (z - 1) + 1) * L) by (apply Nat2Z.inj; rewrite Nat2Z.inj_mul, Nat2Z.inj_add, Nat2Z.inj_mul, Z2Nat.id by lia; nia). rewrite E, Nat.div_mul, Nat.mod_mul by lia. split; [|reflexivity]. rewrite Nat.add_comm, Nat.mul_comm, Nat.mod_add by lia. cbn. lia.
Qed.
Lemma unit_mul x y : unit_ x -> unit_ y -> unit_ (x * y)%Z. Proof. intros [-> | ->] [-> | ->]; unfold unit_; auto. Qed.
Lemma turn_mul L x y : 1 <= L -> unit_ x -> unit_ y -> exists z, (half_turn L (x * y) = half_turn L x + half_turn L y + z * (2 * Z.of_nat L))%Z.
Proof. intros HL [-> | ->] [-> | ->].
  - exists 0%Z. reflexivity.
  - exists 0%Z. change (half_turn L (1 * -1)) with (Z.of_nat L). change (half_turn L 1) with 0%Z. change (half_turn L (-1)) with (Z.of_nat L). lia.
  - exists 0%Z. change (half_turn L (-1 * 1)) with (Z.of_nat L). change (half_turn L 1) with 0%Z. change (half_turn L (-1)) with (Z.of_nat L). lia.
  - exists (-1)%Z. change (half_turn L (-1 * -1)) with 0%Z. change (half_turn L (-1)) with (Z.of_nat L). lia.
 Qed.
Lemma turn_zero L x : 1 <= L -> unit_ x -> (half_turn L x mod (2 * Z.of_nat L) = 0 <-> x = 1)%Z.
Proof. intros HL [-> | ->]; unfold half_turn; cbn [Z.ltb Z.compare]; [rewrite Z.mod_0_l by lia; tauto|]. rewrite Z.mod_small by lia. lia. Qed.
Lemma pho_app L T q u v : phase_of L T q (u ++ v) = (phase_of L T q u + phase_of L T q v)%Z.
Proof. unfold phase_of. induction u as [|l u IH]; [reflexivity|]. cbn [app fold_right]. rewrite IH. lia. Qed.
Lemma pho_rep L T q i : phase_of L T q (repeat LT i) = (2 * Z.of_nat (q_k q) * Z.of_nat T * Z.of_nat i)%Z.
Proof. induction i as [|i IH]; [cbn; lia|]. cbn [repeat]. unfold phase_of in *. cbn [fold_right phase]. rewrite IH. lia. Qed.

Section A.
Variables (w : btype) (k : kind) (L T : nat) (two tf : bool) (gens pres : list (list letter)).
Hypothesis Fa : family w k L T two tf gens pres.
Notation st s := (s < levels k ^ N.of_nat (sites k L))%N.
Notation sto := (sto w k L T).
Notation sgo := (sgo w k L T).
Notation lok := (lok w k L T).
Notation rep := (repeat LT).
Notation tr := (tr w k L T).
Notation sr := (sr w k L T).
Notation A := (act w k L T).
Lemma SF' : states_fit w k L. Proof. exact (f_fit Fa). Qed.
Lemma L1 : 1 <= L. Proof. exact (HL1 w k L SF'). Qed.
Lemma p_okf p : In p pres -> Forall (okf w k L T two) p.
Proof. intros H. apply (prod_ok w k L T two gens (f_gok Fa)). apply (f_gen Fa), H. Qed.
Lemma ex_iff s : st s -> (extremal w k L T gens s <-> forall p i, In p pres -> top tf i -> (tr s p i <= s)%N).
Proof. apply (extremal_iff w k L T (f_fit Fa) two tf gens pres (f_T Fa) (f_gok Fa) p_okf (f_t Fa) (f_gen Fa) (f_nil Fa) (f_no Fa) (f_cl Fa)). Qed.
Lemma co_iff q s : (forall g, In g gens -> Forall (gentle L two tf q) g) -> st s -> (compatible w k L T q gens s <-> forall p i, In p pres -> top tf i -> tr s p i = s -> good_phase w k L T q s p i).
Proof. intros Hg. apply (compatible_iff w k L T (f_fit Fa) two tf gens pres (f_T Fa) (f_gok Fa) p_okf (f_t Fa) (f_gen Fa) (f_nil Fa) (f_no Fa) (f_cl Fa) q Hg). Qed.
Lemma p_ok p : In p pres -> Forall lok p.
Proof. intros H. apply (okf_lok w k L T two). apply (prod_ok w k L T two gens (f_gok Fa)). apply (f_gen Fa), H. Qed.
Lemma run_p s p : st s -> In p pres -> run_ops (map A p) (s, 1%Z) = Some (tr s p 0, sr s p 0) /\ unit_ (sr s p 0) /\ st (tr s p 0).
Proof. intros Hs Hp. unfold P_check1d2.tr, P_check1d2.sr. cbn [repeat]. rewrite app_nil_r. split; [apply run_one; [apply SF'|apply p_ok, Hp|exact Hs]|]. split; [apply sgo_unit|apply sto_lt]; try assumption; try apply SF'; apply p_ok, Hp. Qed.
Lemma ret_p s p : st s -> Forall lok p -> returns_to w k L T s p = (sto p s =? s)%N.
Proof. intros Hs Hp. unfold returns_to. rewrite (run_one w k L T SF' p s Hp Hs). reflexivity. Qed.

(* ---- with translations ---- *)
Hypothesis Ftf : tf = true.
Let n := L / T.
Lemma HT : lok LT.
Proof. pose proof (f_t Fa) as H. rewrite Ftf in H. exact (proj1 (Forall_inv (f_gok Fa _ H))). Qed.
Lemma HTf : okf w k L T two LT.
Proof. pose proof (f_t Fa) as H. rewrite Ftf in H. exact (Forall_inv (f_gok Fa _ H)). Qed.
Lemma rep_f i : Forall (okf w k L T two) (rep i). Proof. apply Forall_forall. intros l Hl. apply repeat_spec in Hl. rewrite Hl. apply HTf. Qed.
Lemma Ln' : L = T * n. Proof. apply (Ln L T (f_T Fa)). Qed.
Lemma Hn : 1 <= n. Proof. pose proof Ln'. pose proof L1. destruct n; lia. Qed.
Lemma el_rep i : el T two (rep i) = (false, false, - (Z.of_nat T * Z.of_nat i))%Z.
Proof. unfold el. rewrite fold_rep. cbn [fst snd e0]. f_equal. Qed.
Lemma Tn x : st x -> sto (rep n) x = x /\ sgo (rep n) x = 1%Z.
Proof.
  intros Hx. pose proof Ln' as HL. pose proof L1. destruct (same_el w k L T SF' two (rep n) [] (rep_f n) ltac:(constructor)) with (s := x) as [E1 E2]; [|exact Hx|rewrite E1, E2; split; reflexivity].
  rewrite el_rep. unfold el. cbn [fold_left]. split; [reflexivity|]. cbn [snd e0]. replace (- (Z.of_nat T * Z.of_nat n))%Z with (0 + (-1) * Z.of_nat L)%Z by lia. rewrite Z.mod_add by lia. reflexivity.
Qed.
Lemma flip_fold p : (forall l, In l p -> l <> LT) -> exists e, (e = 1 \/ e = -1)%Z /\ forall x, snd (fold_left (mf T two) p x) = (e * snd x)%Z.
Proof.
  induction p as [|l p IH]; intros H; [exists 1%Z; split; [auto|]; intros x; cbn [fold_left]; lia|]. destruct IH as (e & He & E); [intros l' Hl'; apply H; right; exact Hl'|]. pose proof (H l (or_introl eq_refl)) as Hl.
  assert (Q : exists e', (e' = 1 \/ e' = -1)%Z /\ forall x, snd (mf T two x l) = (e' * snd x)%Z).
  { destruct two, l; try (destruct (Hl eq_refl)); first [exists 1%Z; split; [auto|]; intros [[a b] y]; cbn [mf m1 m2 snd]; lia|exists (-1)%Z; split; [auto|]; intros [[a b] y]; cbn [mf m1 m2 snd]; lia]. }
  destruct Q as (e' & He' & E'). exists (e * e')%Z. split; [destruct He as [-> | ->], He' as [-> | ->]; auto|]. intros x. cbn [fold_left]. rewrite E, E'. lia.
Qed.
Lemma conj p : In p pres -> exists c, forall x i, st x -> sto (p ++ rep i) x = sto (rep (c * i) ++ p) x.
Proof.
  intros Hp. pose proof (f_no Fa p Hp) as Nt. destruct (flip_fold p) as (e & He & E); [intros l Hl ->; exact (Nt Hl)|]. pose proof Ln' as HL. pose proof L1 as H1. pose proof Hn as Hn1.
  exists (if (e =? 1)%Z then 1 else n - 1). intros x i Hx. refine (proj1 (same_el w k L T SF' two _ _ _ _ _ x Hx)).
  - apply Forall_app. split; [apply p_okf, Hp|apply rep_f].
  - apply Forall_app. split; [apply rep_f|apply p_okf, Hp].
  - unfold el. rewrite !fold_left_app, !fold_rep. cbn [fst snd e0]. split.
    + rewrite (fold_head T two p (_, _)). cbn [fst]. rewrite fold_head. reflexivity.
    + cbn [snd]. rewrite !E. cbn [snd e0]. destruct He as [-> | ->]; cbn [Z.eqb Pos.eqb]; [f_equal; lia|].
      replace (-1 * (0 - Z.of_nat T * Z.of_nat ((n - 1) * i)))%Z with (-1 * 0 - Z.of_nat T * Z.of_nat i + Z.of_nat i * Z.of_nat L)%Z; [rewrite Z.mod_add by lia; reflexivity|].
      rewrite Nat2Z.inj_mul, Nat2Z.inj_sub by lia. replace (Z.of_nat L) with (Z.of_nat T * Z.of_nat n)%Z by lia. ring.
Qed.
(* the two loops *)
Lemma loop_T s : st s ->
  match tloop (T_ w k L T) s (L / T) 1 (s, 1%Z) with
  | TUndef | TEnd => False
  | TGreater => ~ extremal w k L T gens s
  | TBack R g => 1 <= R /\ tr s [] R = s /\ g = sr s [] R /\ forall j, 0 < j < R -> (tr s [] j < s)%N
  end.
Proof.
  intros Hs. pose proof (first_loop w k L T SF' s Hs HT n Hn Tn) as I. fold n. destruct (tloop _ _ _ _ _); try exact I.
  - destruct I as (j & G). intros E. pose proof (proj1 (ex_iff s Hs) E) as E'. clear E. rename E' into E. specialize (E [] j (f_nil Fa) (or_introl Ftf)). lia.
  - destruct I as ((I1 & _) & I2). auto.
Qed.
Lemma loop_p s R p : st s -> 1 <= R -> tr s [] R = s -> (forall j, 0 < j < R -> (tr s [] j < s)%N) -> In p pres ->
  match istart w k L T s R (map A p) with
  | TUndef => False
  | TGreater => ~ extremal w k L T gens s
  | TBack i g => first_return w k L T p s (Z.of_nat i) g /\ forall j, (tr s p j <= s)%N
  | TEnd => first_return w k L T p s (-1) 1 /\ forall j, (tr s p j < s)%N
  end.
Proof.
  intros Hs H1 H2 H3 Hp. destruct (conj p Hp) as [c Hc]. pose proof (second_loop w k L T SF' s Hs HT n Hn Tn R H1 H2 H3 p c (p_ok p Hp) (fun i => Hc s i Hs)) as I.
  assert (Ok : forall j, Forall lok (p ++ rep j)) by (intros j; apply pre_ok; [apply HT|apply p_ok, Hp]).
  assert (Rt : forall j, tr s p j <> s -> returns_to w k L T s (p ++ rep j) = false) by (intros j Hj; rewrite ret_p by (try assumption; apply Ok); apply N.eqb_neq, Hj).
  unfold istart. destruct (match run_ops _ _ with None => TUndef | Some x => _ end) as [| |i g|].
  - exact I.
  - destruct I as (j & G). intros E. pose proof (proj1 (ex_iff s Hs) E) as E'. clear E. rename E' into E. specialize (E p j Hp (or_introl Ftf)). lia.
  - destruct I as (E & Eg & Mn & Le). split; [|exact Le]. left. exists i. split; [reflexivity|]. split; [|intros j Hj; apply Rt, Mn, Hj]. apply reaches_iff; [apply SF'|apply Ok|exact Hs|]. split; [symmetry; exact E|exact Eg].
  - split; [|exact I]. right. split; [reflexivity|]. split; [reflexivity|]. intros j. apply Rt. specialize (I j). lia.
Qed.
Lemma least_p s R : st s -> 1 <= R -> tr s [] R = s -> (forall j, 0 < j < R -> (tr s [] j < s)%N) -> least_period w k L T s (Z.of_nat R).
Proof.
  intros Hs H1 H2 H3. exists R. split; [exact H1|]. split; [reflexivity|]. assert (Ok : forall j, Forall lok (rep j)) by (intros j; apply rep_ok, HT). split.
  - rewrite ret_p by (try assumption; apply Ok). apply N.eqb_eq. exact H2.
  - intros j Hj. rewrite ret_p by (try assumption; apply Ok). apply N.eqb_neq. specialize (H3 j ltac:(lia)). unfold P_check1d2.tr in H3. cbn [app] in H3. lia.
Qed.
Lemma le_T s R : st s -> 1 <= R -> tr s [] R = s -> (forall j, 0 < j < R -> (tr s [] j < s)%N) -> forall j, (tr s [] j <= s)%N.
Proof. intros Hs H1 H2 H3. apply (per_le w k L T SF' s Hs HT n Hn Tn R H1 H2 H3). Qed.
Lemma sr_unit s p i : st s -> In p pres -> unit_ (sr s p i).
Proof. intros Hs Hp. apply sgo_unit; [apply SF'|apply pre_ok; [apply HT|apply p_ok, Hp]|exact Hs]. Qed.
End A.
