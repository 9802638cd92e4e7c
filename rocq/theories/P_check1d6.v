(* The checks with two more symmetries, the checks without translations, and the states that the loops keep. *)
From Verif Require Import AuxN SpecMaps SpecFermi SpecChain M_bits1d SpecChain1d SpecCheck1d M_check1d P_maps P_square P_bits1d P_bits1d4 P_bits1d5 P_check1d P_check1d2 P_check1d3 P_check1d4 P_check1d5.
Local Open Scope nat_scope.

Lemma combine_neg s t1 t2 t12 g1 g2 g12 : unit_ g1 -> unit_ g2 -> unit_ g12 -> (t1 = s -> t12 = t2 /\ g12 = (g1 * g2)%Z) -> (t2 = s -> t12 = t1 /\ g12 = (g1 * g2)%Z) ->
  forall f : Z -> Z -> option Z, (forall a b, f a b = combine3 (Some (cmpv a s t1 g1)) (Some (cmpv b s t2 g2)) (Some (cmpv (a * b) s t12 g12))) ->
  (exists a b, unit_ a /\ unit_ b /\ exists v, f a b = Some v /\ (0 < v)%Z) \/ (s < t1)%N \/ (s < t2)%N \/ (s < t12)%N.
Proof.
  intros U1 U2 U12 H1 H2 f Hf. destruct (N.lt_ge_cases s t1) as [X1|X1]; [auto|]. destruct (N.lt_ge_cases s t2) as [X2|X2]; [auto|]. destruct (N.lt_ge_cases s t12) as [X3|X3]; [auto|]. left.
  destruct (N.eqb_spec t1 s) as [E1|E1].
  - destruct (H1 E1) as [E12 G12]. destruct (N.eqb_spec t2 s) as [E2|E2].
    + exists g1, g2. split; [exact U1|]. split; [exact U2|]. rewrite Hf. unfold cmpv. subst t1 t2 t12 g12. rewrite N.ltb_irrefl, N.eqb_refl. destruct U1 as [-> | ->], U2 as [-> | ->]; eexists; (split; [reflexivity|vm_compute; reflexivity]).
    + exists g1, 1%Z. split; [exact U1|]. split; [left; reflexivity|]. rewrite Hf. unfold cmpv. subst t1 t12. rewrite N.ltb_irrefl, N.eqb_refl. destruct (N.ltb_spec t2 s); [|lia]. destruct U1 as [-> | ->]; eexists; (split; [reflexivity|vm_compute; reflexivity]).
  - destruct (N.eqb_spec t2 s) as [E2|E2].
    + destruct (H2 E2) as [E12 _]. exists 1%Z, g2. split; [left; reflexivity|]. split; [exact U2|]. rewrite Hf. unfold cmpv. subst t2 t12. rewrite N.ltb_irrefl, N.eqb_refl. destruct (N.ltb_spec t1 s); [|lia]. destruct U2 as [-> | ->]; eexists; (split; [reflexivity|vm_compute; reflexivity]).
    + exists 1%Z, g12. split; [left; reflexivity|]. split; [exact U12|]. rewrite Hf. unfold cmpv. destruct (N.ltb_spec t1 s); [|lia]. destruct (N.ltb_spec t2 s); [|lia]. destruct (N.eqb_spec t12 s) as [->|].
      * rewrite N.ltb_irrefl. destruct U12 as [-> | ->]; eexists; (split; [reflexivity|vm_compute; reflexivity]).
      * destruct (N.ltb_spec t12 s); [|lia]. eexists; (split; [reflexivity|vm_compute; reflexivity]).
Qed.

Lemma compat_unit L x y : 1 <= L -> unit_ x -> unit_ y -> ((half_turn L x + half_turn L y) mod (2 * Z.of_nat L) = 0 <-> (x * y =? -1) = false)%Z.
Proof. intros HL Ux Uy. destruct (turn_mul L x y HL Ux Uy) as [z E]. replace (half_turn L x + half_turn L y)%Z with (half_turn L (x * y) + (- z) * (2 * Z.of_nat L))%Z by lia. rewrite Z.mod_add by lia. rewrite turn_zero by (try apply unit_mul; assumption). destruct Ux as [-> | ->], Uy as [-> | ->]; cbn; split; congruence || reflexivity. Qed.
Section A.
Variables (w : btype) (k : kind) (L T : nat).
Notation st s := (s < levels k ^ N.of_nat (sites k L))%N.
Notation sto := (sto w k L T).
Notation sgo := (sgo w k L T).
Notation lok := (lok w k L T).
Notation rep := (repeat LT).
Notation tr := (tr w k L T).
Notation sr := (sr w k L T).
Notation A := (act w k L T).

Section Two.
Variables (two tf : bool) (gens : list (list letter)) (p1 p2 : list letter).
Hypothesis F : family w k L T two tf gens [[]; p1; p2; p1 ++ p2].
Hypothesis Cm : eq1 L (el T two (p1 ++ p2)) (el T two (p2 ++ p1)).
Lemma ok12 : Forall lok p1 /\ Forall lok p2.
Proof. split; apply (p_ok _ _ _ _ _ _ _ _ F); cbn; auto. Qed.
Lemma facts s : st s -> let t1 := tr s p1 0 in let t2 := tr s p2 0 in let t12 := tr s (p1 ++ p2) 0 in let g1 := sr s p1 0 in let g2 := sr s p2 0 in let g12 := sr s (p1 ++ p2) 0 in
  unit_ g1 /\ unit_ g2 /\ unit_ g12 /\ (t1 = s -> t12 = t2 /\ g12 = (g1 * g2)%Z) /\ (t2 = s -> t12 = t1 /\ g12 = (g1 * g2)%Z).
Proof.
  intros Hs. cbn zeta. destruct ok12 as [O1 O2]. pose proof (f_fit F) as SF.
  destruct (run_p _ _ _ _ _ _ _ _ F s p1 Hs ltac:(cbn; auto)) as (_ & U1 & _). destruct (run_p _ _ _ _ _ _ _ _ F s p2 Hs ltac:(cbn; auto)) as (_ & U2 & _). destruct (run_p _ _ _ _ _ _ _ _ F s (p1 ++ p2) Hs ltac:(cbn; auto)) as (_ & U3 & _).
  split; [exact U1|]. split; [exact U2|]. split; [exact U3|]. unfold P_check1d2.tr, P_check1d2.sr. cbn [repeat]. rewrite !app_nil_r. split; intros E.
  - destruct (sto_app w k L T SF p1 p2 s O1 O2 Hs) as [-> ->]. rewrite E. auto.
  - assert (O12 : Forall (okf w k L T two) (p1 ++ p2)) by (apply (p_okf _ _ _ _ _ _ _ _ F); cbn; auto). assert (O21 : Forall (okf w k L T two) (p2 ++ p1)) by (apply Forall_app in O12; apply Forall_app; tauto).
    destruct (same_el w k L T SF two _ _ O12 O21 Cm s Hs) as [-> ->]. destruct (sto_app w k L T SF p2 p1 s O2 O1 Hs) as [-> ->]. rewrite E. split; [reflexivity|lia].
Qed.
(* ---- without translations ---- *)
Hypothesis Ftf : tf = false.
Variable q : quanta.
Variables (q1 q2 : Z).
Hypothesis Uq : unit_ q1 /\ unit_ q2.
Hypothesis Gen : forall g, In g gens -> Forall (gentle L two tf q) g.
Hypothesis Ph : phase_of L T q p1 = half_turn L q1 /\ phase_of L T q p2 = half_turn L q2.
Definition ret (s : N) (p : list letter) : bool := returns_to w k L T s p.
Lemma two_spec s f : st s -> (forall a b, f a b = combine3 (Some (cmpv a s (tr s p1 0) (sr s p1 0))) (Some (cmpv b s (tr s p2 0) (sr s p2 0))) (Some (cmpv (a * b) s (tr s (p1 ++ p2) 0) (sr s (p1 ++ p2) 0)))) ->
  exists v, f q1 q2 = Some v /\ ((0 < v)%Z <-> extremal w k L T gens s /\ compatible w k L T q gens s) /\ ((0 < v)%Z -> v = (4 * Z.of_nat (length (filter (ret s) [[]; p1; p2; p1 ++ p2])))%Z).
Proof.
  intros Hs Hf. pose proof (facts s Hs) as Fs. cbn zeta in Fs. destruct Fs as (U1 & U2 & U12 & C1 & C2). pose proof (HL1 w k L (f_fit F)) as HL. destruct ok12 as [O1 O2]. destruct Uq as [Uq1 Uq2], Ph as [Ph1 Ph2].
  assert (Ext : extremal w k L T gens s <-> ((tr s p1 0 <= s)%N /\ (tr s p2 0 <= s)%N /\ (tr s (p1 ++ p2) 0 <= s)%N)).
  { rewrite (ex_iff _ _ _ _ _ _ _ _ F s Hs). split.
    - intros E. split; [|split]; apply E; cbn; auto; right; reflexivity.
    - intros (E1 & E2 & E3) p i Hp [X| ->]; [congruence|]. cbn in Hp. destruct Hp as [<-|[<-|[<-|[<-|[]]]]]; try assumption. rewrite (proj1 (tr0 w k L T s)). lia. }
  assert (Com : compatible w k L T q gens s <-> ((tr s p1 0 = s -> (q1 * sr s p1 0 =? -1) = false)%Z /\ (tr s p2 0 = s -> (q2 * sr s p2 0 =? -1) = false)%Z /\ (tr s (p1 ++ p2) 0 = s -> (q1 * q2 * sr s (p1 ++ p2) 0 =? -1) = false)%Z)).
  { rewrite (co_iff _ _ _ _ _ _ _ _ F q s Gen Hs). unfold good_phase.
    assert (P12 : ((phase_of L T q ((p1 ++ p2) ++ rep 0) + half_turn L (sr s (p1 ++ p2) 0)) mod (2 * Z.of_nat L) = 0 <-> (q1 * q2 * sr s (p1 ++ p2) 0 =? -1) = false)%Z).
    { cbn [repeat]. rewrite app_nil_r, pho_app, Ph1, Ph2. rewrite <- (compat_unit L) by (try apply unit_mul; assumption). destruct (turn_mul L q1 q2 HL Uq1 Uq2) as [z ->]. replace (half_turn L q1 + half_turn L q2 + z * (2 * Z.of_nat L) + half_turn L (sr s (p1 ++ p2) 0))%Z with (half_turn L q1 + half_turn L q2 + half_turn L (sr s (p1 ++ p2) 0) + z * (2 * Z.of_nat L))%Z by lia. rewrite Z.mod_add by lia. reflexivity. }
    assert (P1 : ((phase_of L T q (p1 ++ rep 0) + half_turn L (sr s p1 0)) mod (2 * Z.of_nat L) = 0 <-> (q1 * sr s p1 0 =? -1) = false)%Z) by (cbn [repeat]; rewrite app_nil_r, Ph1; apply compat_unit; assumption).
    assert (P2 : ((phase_of L T q (p2 ++ rep 0) + half_turn L (sr s p2 0)) mod (2 * Z.of_nat L) = 0 <-> (q2 * sr s p2 0 =? -1) = false)%Z) by (cbn [repeat]; rewrite app_nil_r, Ph2; apply compat_unit; assumption).
    split.
    - intros E. split; [|split]; intros X; [apply P1|apply P2|apply P12]; apply E; cbn; auto; right; reflexivity.
    - intros (E1 & E2 & E3) p i Hp [X| ->] Ei; [congruence|]. cbn in Hp. destruct Hp as [<-|[<-|[<-|[<-|[]]]]]; [|apply P1, E1, Ei|apply P2, E2, Ei|apply P12, E3, Ei]. rewrite (proj2 (tr0 w k L T s)). cbn [app repeat phase_of fold_right]. change (half_turn L 1) with 0%Z. reflexivity. }
  rewrite Hf. unfold cmpv, combine3.
  assert (Rr : forall p, Forall lok p -> ret s p = (tr s p 0 =? s)%N). { intros p Hp. unfold ret, P_check1d2.tr. cbn [repeat]. rewrite app_nil_r. apply (ret_p _ _ _ _ _ _ _ _ F s p Hs Hp). }
  cbn [filter]. rewrite (Rr [] ltac:(constructor)), (Rr p1 O1), (Rr p2 O2), (Rr (p1 ++ p2) ltac:(apply Forall_app; auto)). rewrite (proj1 (tr0 w k L T s)), N.eqb_refl. setoid_rewrite Ext. setoid_rewrite Com. clear Ext Com Rr Hf.
  set (t1 := tr s p1 0) in *. set (t2 := tr s p2 0) in *. set (t12 := tr s (p1 ++ p2) 0) in *. set (g1 := sr s p1 0) in *. set (g2 := sr s p2 0) in *. set (g12 := sr s (p1 ++ p2) 0) in *. clearbody t1 t2 t12 g1 g2 g12.
  destruct (N.ltb_spec t1 s) as [A1|A1], (N.eqb_spec t1 s) as [B1|B1]; try lia.
  1,2: destruct (N.ltb_spec t2 s) as [A2|A2], (N.eqb_spec t2 s) as [B2|B2]; try lia.
  all: try (destruct (N.ltb_spec t12 s) as [A3|A3], (N.eqb_spec t12 s) as [B3|B3]; try lia).
  all: try (destruct (q1 * g1 =? -1)%Z eqn:D1).
  all: try (destruct (q2 * g2 =? -1)%Z eqn:D2).
  all: try (destruct (q1 * q2 * g12 =? -1)%Z eqn:D3).
  all: cbn [negb Z.ltb Z.compare Z.eqb Pos.eqb andb orb filter length]; eexists; (split; [reflexivity|]); split.
  all: try (intros _; reflexivity). all: try (intros X; lia).
  all: try (split; [intros X; lia|intros [(Y1 & Y2 & Y3) (Z1 & Z2 & Z3)]; try lia; exfalso; first [discriminate (Z1 B1)|discriminate (Z2 B2)|discriminate (Z3 B3)|lia]]).
  all: try (split; [intros _; split; [repeat split; lia|repeat split; intros X; try lia; reflexivity || assumption]|intros _; lia]).
Qed.
End Two.
End A.
