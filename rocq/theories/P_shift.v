(* Op_shift_sector applies the operator between two symmetry blocks. *)
From Verif Require Import AuxN SpecC SpecSymm SpecSector SpecBasis SpecIndex SpecOps SpecProj SpecShift M_symm M_index M_ops M_opstr M_symop M_inplace M_shift
  P_symm P_norm P_symminst P_index P_mat P_proj P_ops P_symop P_symopinst P_inplace.
Local Open Scope nat_scope.

Section Shift.
Variables (M : nat) (nt : nat) (pers : list nat) (ms : smap).
Notation D := (fun s : N => (s < N.of_nat M)%N).
Hypothesis HG : good_maps D nt pers ms.
Hypothesis Hnt : nt <= 32.
Notation act := (gact ms).
Notation valid := (valid nt pers).
Notation is_rep := (is_rep nt ms).

(* what ref_state delivers when g[] contains g0 *)
Lemma ref_spec r g0 : D r -> length g0 = nt -> exists rr g sg h, ref_state (group_order pers) pers ms nt r g0 1%Z = Some (rr, g, sg) /\
  valid h /\ act h r = (rr, sg) /\ is_rep rr /\ length g = nt /\ ((rr = r /\ g = g0 /\ h = repeat 0 nt) \/ (rr <> r /\ g = h)).
Proof.
  intros Hr Hl. destruct (Nat.eq_dec nt 0) as [E0|N0].
  - unfold ref_state. destruct (Nat.eqb_spec nt 0); [|lia]. cbn [orb]. destruct g0 as [|a g0]; [|rewrite E0 in Hl; discriminate Hl].
    exists r, [], 1%Z, (repeat 0 nt). split; [reflexivity|]. split; [apply (valid_zero D nt pers ms HG)|]. split; [apply (act_zero D nt pers ms HG)|].
    split; [|split; [symmetry; exact E0|left; rewrite E0; auto]]. intros t Ht. apply (reach_act' D nt pers ms HG) in Ht; [|exact Hr]. destruct Ht as (g & Hg & <-).
    destruct Hg as [Hg _]. rewrite E0 in Hg. destruct g; [cbn; lia|discriminate].
  - destruct (rep_spec D nt pers ms HG r g0 1%Z (group_order pers) Hr (Coq.Init.Logic.conj (proj1 (Nat.neq_0_lt_0 nt) N0) Hnt) (le_n _)) as (rr & g & sg & E & Rch & Mx & Cs).
    assert (Rep : is_rep rr) by (intros t Ht; apply Mx, (reach_trans _ _ _ _ _ Rch Ht)).
    destruct Cs as [(-> & -> & ->)|(Hlt & Hg & Ea)].
    + exists r, g0, 1%Z, (repeat 0 nt). split; [exact E|]. split; [apply (valid_zero D nt pers ms HG)|]. split; [apply (act_zero D nt pers ms HG)|].
      split; [exact Rep|]. split; [exact Hl|left; auto].
    + apply (valid_elem D nt pers ms HG) in Hg. exists rr, g, sg, g. split; [exact E|]. split; [exact Hg|]. split; [exact Ea|]. split; [exact Rep|].
      split; [apply Hg|right; split; [lia|reflexivity]].
Qed.
Lemma g_phase_theta qs g : g_phase pers qs nt g = Cconj (cis (theta qs pers g)).
Proof.
  unfold g_phase. fold (thp pers qs nt g). rewrite (thp_theta D nt pers ms qs HG), <- cis_conj. reflexivity.
Qed.

Variables (qi qo : list Z) (Si So : N -> Prop) (sti sto : list N) (Li Lo : list (N * Z)).
Hypothesis SDi : forall s, Si s -> D s.
Hypothesis SDo : forall s, So s -> D s.
Hypothesis SCi : closed_under Si nt ms.
Hypothesis SCo : closed_under So nt ms.
Hypothesis Ei : enumerates sti Si.
Hypothesis Eo : enumerates sto So.
Hypothesis HLi : lists_decreasing (in_block Si nt pers qi ms) Li.
Hypothesis HLo : lists_decreasing (in_block So nt pers qo ms) Lo.
Notation Vi := (symm_state pers qi ms).
Notation Vo := (symm_state pers qo ms).
Notation nrm := (nrm pers ms).
Notation phi := (ph pers ms qi).
Notation pho := (ph pers ms qo).
Notation si i := (fst (nth i Li (0%N, 0%Z))).
Notation so j := (fst (nth j Lo (0%N, 0%Z))).
Notation ni i := (snd (nth i Li (0%N, 0%Z))).
Notation no j := (snd (nth j Lo (0%N, 0%Z))).

(* the covariance for all group elements *)
Section Cov.
Variable A : cmat.
Hypothesis HA : shifts_sector Si So nt pers qi qo ms A.
Lemma shift_act g r s : valid g -> So r -> Si s ->
  (RtoC (IZR (snd (act g r))) * RtoC (IZR (snd (act g s))) * A (fst (act g r)) (fst (act g s)))%C
  = (cis (theta qi pers g) * Cconj (cis (theta qo pers g)) * A r s)%C.
Proof.
  intros Hg Hr Hs.
  set (F := fun x y : N * Z => (RtoC (IZR (snd x)) * RtoC (IZR (snd y)) * A (fst x) (fst y))%C).
  assert (IS : forall d p x, d < nt -> So (fst x) -> So (fst (Nat.iter p (sact ms d) x))).
  { intros d p x Hd Hx. induction p as [|p IH]; [exact Hx|]. rewrite iter_S. apply SCo; assumption. }
  assert (IS2 : forall d p x, d < nt -> Si (fst x) -> Si (fst (Nat.iter p (sact ms d) x))).
  { intros d p x Hd Hx. induction p as [|p IH]; [exact Hx|]. rewrite iter_S. apply SCi; assumption. }
  assert (F1 : forall d x y, d < nt -> So (fst x) -> Si (fst y) -> F (sact ms d x) (sact ms d y) = (cis (ks qi pers d) * Cconj (cis (ks qo pers d)) * F x y)%C).
  { intros d x y Hd Hx Hy. unfold F, sact. cbn [fst snd]. pose proof (HA d (fst x) (fst y) Hd Hx Hy) as E. rewrite mult_IZR, RtoC_mul in E. unfold ks.
    rewrite !mult_IZR, !RtoC_mul.
    transitivity (RtoC (IZR (snd x)) * RtoC (IZR (snd y)) * (RtoC (IZR (snd (ms d (fst x)))) * RtoC (IZR (snd (ms d (fst y)))) * A (fst (ms d (fst x))) (fst (ms d (fst y)))))%C; [ring|].
    rewrite E. ring. }
  assert (F2 : forall d p x y, d < nt -> So (fst x) -> Si (fst y) -> F (Nat.iter p (sact ms d) x) (Nat.iter p (sact ms d) y)
     = (cis (ks qi pers d * INR p) * Cconj (cis (ks qo pers d * INR p)) * F x y)%C).
  { intros d p x y Hd Hx Hy. induction p as [|p IH].
    - cbn [Nat.iter nat_rect INR]. rewrite !Rmult_0_r, !cis_0. transitivity (C1 * F x y)%C; [ring|]. f_equal. apply C_eq; cbn; ring.
    - rewrite !iter_S, F1, IH by (try assumption; first [apply IS|apply IS2]; assumption). rewrite S_INR, !Rmult_plus_distr_l, !Rmult_1_r, !cis_add, Cconj_mul. ring. }
  assert (WS : forall c x, c <= nt -> So (fst x) -> So (fst (W ms c g x))).
  { induction c as [|c IH]; intros x Hc Hx; [exact Hx|]. cbn [W]. apply IS; [lia|]. apply IH; [lia|exact Hx]. }
  assert (WS2 : forall c x, c <= nt -> Si (fst x) -> Si (fst (W ms c g x))).
  { induction c as [|c IH]; intros x Hc Hx; [exact Hx|]. cbn [W]. apply IS2; [lia|]. apply IH; [lia|exact Hx]. }
  assert (F3 : forall c x y, c <= nt -> So (fst x) -> Si (fst y) -> F (W ms c g x) (W ms c g y) = (cis (thp pers qi c g) * Cconj (cis (thp pers qo c g)) * F x y)%C).
  { induction c as [|c IH]; intros x y Hc Hx Hy.
    - cbn [W]. unfold thp. cbn [seq Rsum fold_right]. rewrite cis_0. transitivity (C1 * F x y)%C; [ring|]. f_equal. apply C_eq; cbn; ring.
    - cbn [W]. rewrite F2, IH by first [lia|assumption|apply WS; [lia|assumption]|apply WS2; [lia|assumption]]. rewrite !thp_S, !cis_add, Cconj_mul. ring. }
  pose proof (F3 nt (r, 1%Z) (s, 1%Z) (le_n _) Hr Hs) as E. rewrite <- !(act_W nt pers ms g _ Hg), !(thp_theta D nt pers ms _ HG) in E.
  unfold F in E. cbn [fst snd] in E. rewrite E. replace (RtoC (IZR 1)) with C1 by reflexivity. ring.
Qed.
Lemma transition_entry s j : Si s -> So j ->
  transition sto sti pers qo qi ms A j s = (RtoC (INR (group_order pers)) * nrm s * Csum sto (fun t => Cconj (Vo j t) * A t s))%C.
Proof.
  intros Hi Hj. destruct Ei as [NDi Ini]. destruct Eo as [NDo Ino]. unfold transition.
  transitivity (Csum sto (fun t => nrm s * Csum (group pers) (fun g => phi g s * (Cconj (Vo j t) * A t (fst (act g s))))))%C.
  - apply Csum_ext. intros t _. apply (V_sum D nt pers ms qi HG Si sti SDi SCi NDi Ini s (fun u => Cconj (Vo j t) * A t u)%C Hi).
  - rewrite Csum_mul_l, Csum_swap.
    transitivity (nrm s * Csum (group pers) (fun _ => C1 * Csum sto (fun t => Cconj (Vo j t) * A t s)))%C.
    + f_equal. apply Csum_ext. intros g Hg. apply (group_valid D nt pers ms HG) in Hg. rewrite (sum_translate D nt pers ms HG So sto SDo SCo NDo Ino g _ Hg).
      rewrite <- Csum_mul_l. apply Csum_ext. intros t Ht. apply Ino in Ht.
      rewrite (V_cov D nt pers ms qo HG g) by (try assumption; apply SDo; assumption). rewrite Cconj_mul. unfold ph. rewrite Cconj_mul, Cconj_invol, Cconj_RtoC.
      pose proof (shift_act g t s Hg Ht Hi) as E. set (ko := cis (theta qo pers g)) in *. set (ki := cis (theta qi pers g)) in *.
      transitivity ((Cconj ki * ko) * Cconj (Vo j t) * (RtoC (IZR (snd (act g t))) * RtoC (IZR (snd (act g s))) * A (fst (act g t)) (fst (act g s))))%C; [ring|].
      rewrite E. transitivity ((ki * Cconj ki) * (ko * Cconj ko) * (Cconj (Vo j t) * A t s))%C; [ring|]. unfold ki, ko. rewrite !cis_norm. ring.
    + rewrite Csum_mul_r, Csum_const. replace (length (group pers)) with (group_order pers) by (symmetry; apply group_len). ring.
Qed.
End Cov.

Definition wts (i j : nat) (t : N) : C := (RtoC (INR (group_order pers)) * nrm (si i) * Cconj (Vo (so j) t))%C.
Notation Lin := (L_nth nt pers ms qi Si Li HLi).
Notation Lout := (L_nth nt pers ms qo So Lo HLo).
Lemma wts_orbit i j r g : i < length Li -> j < length Lo -> So r -> valid g -> fst (act g r) = so j ->
  wts i j r = (pho g r * RtoC (sqrt (IZR (no j) / IZR (ni i))))%C.
Proof.
  intros Hi Hj Hr Hg E. destruct (Lin i Hi) as (Zi & _ & _ & Ni). destruct (Lout j Hj) as (Zj & _ & Cj & Nj). unfold wts.
  rewrite (V_orbit D nt pers ms qo HG So SDo (so j) r g Zj Hr Hg E Cj). rewrite !Cconj_mul, Cconj_invol, Cconj_RtoC.
  rewrite (nrm_conj pers ms). rewrite Ni, Nj, <- !INR_IZR_INZ.
  transitivity (pho g r * (RtoC (INR (group_order pers)) * nrm (si i) * (nrm (so j) * RtoC (INR (stabilisers pers ms (so j))))))%C; [ring|].
  f_equal. unfold P_proj.nrm. rewrite <- !RtoC_mul. f_equal.
  pose proof (order_pos D nt pers ms HG). pose proof (stab_ge1 D nt pers ms HG _ (SDi _ Zi)). pose proof (stab_ge1 D nt pers ms HG _ (SDo _ Zj)).
  apply sqrt_ratio; apply lt_0_INR; lia.
Qed.
Lemma wts_zero i j r g : j < length Lo -> So r -> valid g -> is_rep (fst (act g r)) -> fst (act g r) <> so j -> wts i j r = C0.
Proof.
  intros Hj Hr Hg Rr Hn. destruct (Lout j Hj) as (Sj & Rj & Cj & Nj). unfold wts.
  rewrite (V_zero D nt pers ms qo HG); [apply C_eq; cbn; ring|]. intros h Hh E. apply Hn. symmetry.
  apply (rep_unique D nt pers ms HG (so j) (fst (act g r)) (gadd nt pers g h)); [apply SDo, Sj|apply (act_dom D nt pers ms HG); [exact Hg|apply SDo, Hr]|exact Rj|exact Rr|apply (valid_gadd D nt pers ms HG)|].
  rewrite (act_gadd D nt pers ms HG) by first [assumption|apply SDo, Sj]. cbn [fst]. rewrite E. reflexivity.
Qed.
Lemma So_orbit r g : valid g -> D r -> So (fst (act g r)) -> So r.
Proof.
  intros Hg Hr H. destruct Eo as [_ Ino]. rewrite <- (act_inv D nt pers ms HG g r Hg Hr).
  apply (act_S D nt pers ms So sto SDo SCo Ino); [apply (valid_ginv D nt pers ms HG)|exact H].
Qed.
Lemma Lo_inj i j : i < length Lo -> j < length Lo -> so i = so j -> i = j.
Proof. exact (L_inj nt pers ms qo So Lo HLo i j). Qed.

Lemma ph_stab r g : valid g -> fst (act g r) = r -> compatible pers qo ms r -> pho g r = C1.
Proof.
  intros Hg Hf Hc. pose proof (Hc g (proj1 (valid_elem D nt pers ms HG g) Hg) Hf) as E. unfold ph.
  transitivity (Cconj (RtoC (IZR (snd (act g r))) * cis (theta qo pers g))%C); [rewrite Cconj_mul, Cconj_RtoC; reflexivity|].
  rewrite E. apply C_eq; cbn; ring.
Qed.
(* the phase is not needed when the orbit of the ket is met *)
Definition phase_free (Am : cmat) (s : N) : Prop :=
  (forall t, So t -> Am t s <> C0 -> reach nt ms t s -> t = s) \/ (forall g t, valid g -> So t -> pho g t = C1).

Lemma shift_element_ok op Am J i : acts_as M op Am -> i < length Li -> phase_free (fun t u => J * Am t u)%C (si i) ->
  exists o, shift_element pers qo ms nt Lo Li op J i = Some o /\ (match o with Some (_, j) => j < length Lo | None => True end) /\
    forall j, j < length Lo -> val o j = Csum sto (fun t => wts i j t * (J * Am t (si i)))%C.
Proof.
  intros Hop Hi Hph. destruct (Lin i Hi) as (Zi & Ri & Ci & Ni). destruct Eo as [NDo Ino].
  destruct (Hop (si i) J (SDi _ Zi)) as (r & m & E & Hr & HA). unfold shift_element. rewrite E.
  assert (Sum : forall j, Csum sto (fun t => wts i j t * (J * Am t (si i)))%C = Csum sto (fun t => if (t =? r)%N then (wts i j t * m)%C else C0)).
  { intros j. apply Csum_ext. intros t Ht. rewrite HA by (apply SDo, Ino, Ht). destruct (t =? r)%N; [reflexivity|ring]. }
  assert (InS : forall j, So r -> Csum sto (fun t => if (t =? r)%N then (wts i j t * m)%C else C0) = (wts i j r * m)%C).
  { intros j Sr. rewrite (Csum_single sto _ r NDo); [rewrite N.eqb_refl; reflexivity|apply Ino, Sr|].
    intros x _ Hx. destruct (N.eqb_spec x r); [congruence|reflexivity]. }
  assert (OutS : forall j, ~ So r -> Csum sto (fun t => if (t =? r)%N then (wts i j t * m)%C else C0) = C0).
  { intros j Nr. apply Csum_zero. intros x Hx. destruct (N.eqb_spec x r) as [->|]; [|reflexivity]. exfalso. apply Nr, Ino, Hx. }
  assert (Ref : exists rr g sg h, (if (r =? si i)%N then Some (r, repeat 0 nt, 1%Z) else ref_state (group_order pers) pers ms nt r (repeat 0 nt) 1%Z) = Some (rr, g, sg) /\
     valid h /\ act h r = (rr, sg) /\ is_rep rr /\ g = h).
  { destruct (N.eqb_spec r (si i)) as [Er|_].
    - exists r, (repeat 0 nt), 1%Z, (repeat 0 nt). split; [reflexivity|]. split; [apply (valid_zero D nt pers ms HG)|]. split; [apply (act_zero D nt pers ms HG)|].
      split; [rewrite Er; exact Ri|reflexivity].
    - destruct (ref_spec r (repeat 0 nt) Hr (repeat_length _ _)) as (rr & g & sg & h & E1 & E2 & E3 & E4 & _ & E5).
      exists rr, g, sg, h. repeat (split; [assumption|]). destruct E5 as [(_ & -> & ->)|[_ ->]]; reflexivity. }
  destruct Ref as (rr & g & sg & h & -> & Vh & Ea & Rrep & ->).
  pose proof (A_dec nt pers ms qo So Lo HLo) as Dec. pose proof (rep_position_ok (map fst Lo) rr Dec) as Pos.
  assert (Erep : fst (act h r) = rr) by (rewrite Ea; reflexivity). cbv zeta.
  destruct Pos as [(k & Ek & ->)|[Nin ->]].
  - assert (Hk : k < length Lo) by (rewrite <- (map_length fst); apply nth_error_Some; rewrite Ek; discriminate).
    assert (Est : so k = rr) by (rewrite <- (map_nth fst); cbn [fst]; apply nth_error_nth; exact Ek).
    destruct (Z.ltb_spec (Z.of_nat k) 0); [lia|]. rewrite Nat2Z.id. eexists. split; [reflexivity|]. split; [exact Hk|]. intros j Hj. rewrite Sum.
    assert (Sr : So r) by (apply (So_orbit r h Vh Hr); rewrite Erep, <- Est; apply (Lout k Hk)).
    rewrite InS by exact Sr. cbn [val]. destruct (Nat.eqb_spec k j) as [<-|Hn].
    + rewrite (wts_orbit i k r h Hi Hk Sr Vh) by congruence.
      assert (Ph : (if (rr =? si i)%N then m else (m * (RtoC (IZR sg) * cis (- Rsum (seq 0 nt) (fun k0 : nat => (ks qo pers k0 * INR (nth k0 h 0%nat))%R))))%C) = (pho h r * m)%C).
      { fold (g_phase pers qo nt h). rewrite g_phase_theta. destruct (N.eqb_spec rr (si i)) as [Er|_].
        - assert (m = C0 \/ pho h r = C1) as [->|P1]; [|ring|rewrite P1; ring].
          destruct Hph as [Hph|Hph]; [|right; apply Hph; assumption].
          assert (Dm : m = C0 \/ m <> C0).
          { destruct (Req_EM_T (fst m) 0) as [M1|M1]; [|right; intros EE; apply M1; rewrite EE; reflexivity].
            destruct (Req_EM_T (snd m) 0) as [M2|M2]; [left; apply C_eq; assumption|right; intros EE; apply M2; rewrite EE; reflexivity]. }
          destruct Dm as [->|Dm]; [left; reflexivity|right].
          assert (r = si i).
          { apply Hph; [exact Sr| |rewrite <- Er, <- Erep; apply (reach_act D nt pers ms HG); [exact Vh|exact Hr]].
            rewrite HA, N.eqb_refl by exact Hr. exact Dm. }
          apply ph_stab; [exact Vh|rewrite Erep; congruence|]. replace r with (so k) by congruence. apply (Lout k Hk).
        - unfold ph. rewrite Ea. cbn [snd]. ring. }
      rewrite Ph. ring.
    + rewrite (wts_zero i j r h Hj Sr Vh); [ring|rewrite Erep; exact Rrep|]. intros E2. apply Hn. apply Lo_inj; [assumption|assumption|congruence].
  - cbn [Z.ltb]. eexists. split; [reflexivity|]. split; [exact I|]. intros j Hj. rewrite Sum. cbn [val]. symmetry.
    assert (Dc : So r \/ ~ So r) by (destruct (in_dec N.eq_dec r sto) as [H|H]; rewrite Ino in H; auto).
    destruct Dc as [Sr|Sr]; [|apply OutS; exact Sr]. rewrite InS by exact Sr.
    rewrite (wts_zero i j r h Hj Sr Vh); [ring|rewrite Erep; exact Rrep|]. intros E2. apply Nin. rewrite <- Erep, E2.
    apply in_map_iff. exists (nth j Lo (0%N, 0%Z)). split; [reflexivity|apply nth_In; exact Hj].
Qed.
Notation Wt i j Am := (Csum sto (fun t => wts i j t * Am t (si i)))%C.
Lemma shift_term_ok real op Am A nvecs v_in v0 : acts_as M op Am -> (forall i, i < length Li -> phase_free (fun t u => A * Am t u)%C (si i)) ->
  (real = true -> forall r k, snd (v_in r k) = 0%R) ->
  (real = false -> exists v, inplace_core (shift_events real pers qo ms nt Lo Li op A nvecs v_in) (length Li) v0 (Some v)) /\
  (real = false -> ~ inplace_core (shift_events real pers qo ms nt Lo Li op A nvecs v_in) (length Li) v0 None) /\
  forall v, inplace_core (shift_events real pers qo ms nt Lo Li op A nvecs v_in) (length Li) v0 (Some v) ->
    forall j k, j < length Lo -> k < nvecs ->
    v j k = (v0 j k + Csum (seq 0 (length Li)) (fun i => as_type real (Wt i j (fun t u => A * Am t u)%C) * v_in i k))%C.
Proof.
  intros Hop Hph Hv.
  assert (NE : real = false -> forall i, i < length Li -> shift_events real pers qo ms nt Lo Li op A nvecs v_in i <> None).
  { intros -> i Hi. unfold shift_events. destruct (shift_element_ok op Am A i Hop Hi (Hph i Hi)) as (o & -> & _). destruct o as [[m j]|]; discriminate. }
  split; [intros Hr; apply core_some, NE, Hr|]. split; [intros Hr; apply core_never, NE, Hr|].
  intros v Hc j k Hj Hk. rewrite (core_sum _ _ _ _ Hc j k). f_equal.
  assert (OK : forall i, i < length Li -> shift_events real pers qo ms nt Lo Li op A nvecs v_in i <> None) by (inversion Hc; assumption). clear Hc.
  apply Csum_ext. intros i Hi. apply in_seq in Hi. specialize (OK i ltac:(lia)). unfold shift_events in OK |- *.
  destruct (shift_element_ok op Am A i Hop ltac:(lia) (Hph i ltac:(lia))) as (o & E & _ & Ho). rewrite E in OK |- *. rewrite <- (Ho j Hj). destruct o as [[m j']|]; cbn [val].
  - destruct (check_imag real m); [|contradiction]. rewrite row_events_sum by exact Hk. destruct (j' =? j); [|rewrite as_type_0; ring].
    destruct real; [|cbn [as_type]; ring]. specialize (Hv eq_refl i k). destruct (v_in i k) as [x y]. cbn in Hv. subst y. apply C_eq; cbn; ring.
  - unfold ev_sum. rewrite Csum_nil, as_type_0. ring.
Qed.
Variables (okl : list (ascii * nat) -> Prop) (scale : list ascii -> R) (op : list (ascii * nat) -> N -> C -> option (N * C)).
Variable mat : list (ascii * nat) -> cmat.
Hypothesis Hop : forall l, okl l -> acts_as M (op l) (mat l).
Notation SL := (fun real nvecs v_in => shift_loop real pers qo ms nt Lo Li scale op nvecs v_in).
Definition term_free (x : list (ascii * nat) * C) : Prop := forall i, i < length Li -> phase_free (fun t u => (snd x * RtoC (scale (map fst (fst x)))) * mat (fst x) t u)%C (si i).
Lemma shift_terms_ok real nvecs v_in ts : Forall (fun t => okl (fst t)) ts -> Forall term_free ts -> (real = true -> forall r k, snd (v_in r k) = 0%R) -> forall v0,
  (real = false -> exists v, SL real nvecs v_in ts v0 (Some v)) /\
  (real = false -> ~ SL real nvecs v_in ts v0 None) /\
  forall v, SL real nvecs v_in ts v0 (Some v) -> forall j k, j < length Lo -> k < nvecs ->
    v j k = (v0 j k + Csum (seq 0 (length Li)) (fun i => as_type real (Wt i j (H_total scale mat ts)) * v_in i k))%C.
Proof.
  intros HF HP Hv. induction HF as [|[l J] ts Hl HF IH]; intros v0.
  - split; [intros _; eexists; constructor|]. split; [intros _ H; inversion H|]. intros v H j k _ _. inversion H. subst. symmetry.
    rewrite Csum_zero; [ring|]. intros c _. rewrite Csum_zero; [rewrite as_type_0; ring|]. intros t _. unfold H_total. rewrite Csum_nil. ring.
  - inversion HP as [|? ? P1 P2]; subst. specialize (IH P2). unfold term_free in P1. cbn [fst snd] in P1, Hl.
    destruct (shift_term_ok real (op l) (mat l) (J * RtoC (scale (map fst l)))%C nvecs v_in v0 (Hop l Hl) P1 Hv) as (T1 & T2 & T3). split; [|split].
    + intros Hr. destruct (T1 Hr) as [v1 H1]. destruct (IH v1) as (I1 & _). destruct (I1 Hr) as [v H2]. exists v. eapply sl_cons; eassumption.
    + intros -> H. inversion H as [|? ? ? ? HE|? ? ? ? v1 ? HE HR]; subst.
      * exact (T2 eq_refl HE).
      * destruct (IH v1) as (_ & I2 & _). exact (I2 eq_refl HR).
    + intros v H j k Hj Hk. inversion H as [| |? ? ? ? v1 ? HE HR]; subst. destruct (IH v1) as (_ & _ & I3). rewrite (I3 v HR j k Hj Hk), (T3 v1 HE j k Hj Hk).
      match goal with |- (?x + ?y + ?z = _)%C => transitivity (x + (y + z))%C; [ring|] end. f_equal. rewrite <- Csum_add. apply Csum_ext. intros c _.
      match goal with |- (as_type _ ?a * ?w + as_type _ ?b * ?w = as_type _ ?c * ?w)%C => assert (EE : c = (a + b)%C) end.
      { rewrite <- Csum_add. apply Csum_ext. intros t _. unfold H_total. rewrite Csum_cons. cbn [fst snd]. ring. }
      rewrite EE, as_type_add. ring.
Qed.
Lemma shift_transition A i j : shifts_sector Si So nt pers qi qo ms A -> i < length Li -> j < length Lo -> Wt i j A = transition sto sti pers qo qi ms A (so j) (si i).
Proof.
  intros HA Hi Hj. destruct (Lin i Hi) as (Zi & _). destruct (Lout j Hj) as (Zj & _). rewrite (transition_entry A HA (si i) (so j) Zi Zj), <- Csum_mul_l.
  apply Csum_ext. intros t _. unfold wts. ring.
Qed.
End Shift.

Section Inst.
Variables (B : N) (n : nat) (pers : list nat) (qi qo : list Z) (ms : smap) (Si So : N -> Prop) (sti sto : list N) (Li Lo : list (N * Z)).
Let M := N.to_nat (B ^ N.of_nat n).
Hypothesis HG : good_maps (fun s => (s < B ^ N.of_nat n)%N) (length pers) pers ms.
Hypothesis Hnt : length pers <= 32.
Hypothesis SDi : forall s, Si s -> (s < B ^ N.of_nat n)%N.
Hypothesis SDo : forall s, So s -> (s < B ^ N.of_nat n)%N.
Hypothesis Ei : enumerates sti Si.
Hypothesis Eo : enumerates sto So.
Hypothesis SCi : closed_under Si (length pers) ms.
Hypothesis SCo : closed_under So (length pers) ms.
Hypothesis HLi : lists_decreasing (in_block Si (length pers) pers qi ms) Li.
Hypothesis HLo : lists_decreasing (in_block So (length pers) pers qo ms) Lo.
Variables (allowed : list ascii) (scale : list ascii -> R) (op : list (ascii * nat) -> N -> C -> option (N * C)) (mat mat0 : ascii -> nat -> cmat).
Hypothesis Hop : forall l, Forall (fun oi => In (fst oi) allowed /\ snd oi < n) l -> acts_as M (op l) (string_matrix M mat0 l).
Hypothesis Hsc : forall l r s, string_matrix M mat l r s = (RtoC (scale (map fst l)) * string_matrix M mat0 l r s)%C.

Lemma trivial_ph g t : valid (length pers) pers g -> So t -> (forall d, nth d qo 0%Z = 0%Z) -> (forall d s, d < length pers -> So s -> snd (ms d s) = 1%Z) -> ph pers ms qo g t = C1.
Proof.
  intros Hg Ht Hq Hs. unfold ph.
  assert (Th : theta qo pers g = 0%R).
  { unfold theta. assert (X : forall l f, (forall k : nat, In k l -> f k = 0%R) -> Rsum l f = 0%R).
    { induction l as [|a l IH]; intros f Hf; [reflexivity|]. cbn [Rsum fold_right]. fold (Rsum l f). rewrite (Hf a), IH by (intros; try apply Hf; cbn; auto). ring. }
    apply X. intros k _. rewrite Hq. unfold Rdiv. ring. }
  assert (Sg : snd (gact ms g t) = 1%Z).
  { rewrite (act_W _ pers ms g t Hg).
    assert (IS : forall d p x, d < length pers -> So (fst x) -> So (fst (Nat.iter p (sact ms d) x)) /\ snd (Nat.iter p (sact ms d) x) = snd x).
    { intros d p x Hd Hx. induction p as [|p IH]; [auto|]. rewrite iter_S. destruct IH as [I1 I2]. split; [apply SCo; assumption|]. unfold sact at 1. cbn [snd]. rewrite Hs by assumption. rewrite I2. apply Z.mul_1_r. }
    assert (WS : forall c x, c <= length pers -> So (fst x) -> So (fst (W ms c g x)) /\ snd (W ms c g x) = snd x).
    { induction c as [|c IH]; intros x Hc Hx; [auto|]. cbn [W]. destruct (IH x ltac:(lia) Hx) as [I1 I2]. destruct (IS c (nth c g 0) (W ms c g x) ltac:(lia) I1) as [J1 J2].
      split; [exact J1|]. rewrite J2. exact I2. }
    apply (proj2 (WS (length pers) (t, 1%Z) (le_n _) Ht)). }
  rewrite Th, Sg, cis_0. apply C_eq; cbn; ring.
Qed.
Lemma shift_lattice real nvecs v_in ts v_out : ts <> [] -> Forall (fun t => Forall (fun oi => In (fst oi) allowed /\ snd oi < n) (fst t)) ts ->
  shifts_sector Si So (length pers) pers qi qo ms (lattice_operator M mat ts) -> no_return_phase Si So (length pers) qo ms (map fst Li) (term_matrices M mat ts) -> (real = true -> forall r k, snd (v_in r k) = 0%R) ->
  let run := Op_shift_sector real pers qo ms (length pers) Lo Li scale op nvecs v_in ts v_out in
  (real = false -> (exists v, run (Some v)) /\ ~ run None) /\
  forall v, run (Some v) -> forall j k, j < length Lo -> k < nvecs ->
    v j k = ((match v_out with Some w => w j k | None => C0 end) + Csum (seq 0 (length Li)) (fun i =>
      as_type real (transition sto sti pers qo qi ms (lattice_operator M mat ts) (fst (nth j Lo (0%N, 0%Z))) (fst (nth i Li (0%N, 0%Z)))) * v_in i k))%C.
Proof.
  intros Hne Hts HC HO Hv run.
  assert (HG2 := HG' B n pers ms HG). assert (SDi2 := SD' B n Si SDi). assert (SDo2 := SD' B n So SDo).
  assert (HP : Forall (term_free (length pers) pers ms qo So Li scale (string_matrix M mat0)) ts).
  { apply Forall_forall. intros x Hx i Hi. unfold phase_free. destruct HO as [HO|[HO|[H1 H2]]]; [| |right; intros g t Hg Ht; apply trivial_ph; assumption].
    - left. intros t Ht _ Hr. exfalso. apply (HO (fst (nth i Li (0%N, 0%Z)))). split; [apply (L_nth (length pers) pers ms qi Si Li HLi i Hi)|].
      apply (reach_act' _ _ _ _ HG2) in Hr; [|apply SDo2, Ht]. destruct Hr as (g & Hg & <-). destruct Eo as [_ Ino]. apply (act_S _ (length pers) pers ms So sto SDo2 SCo Ino); assumption.
    - left. intros t Ht Hn Hr. apply (HO (fun r s => snd x * string_matrix M mat (fst x) r s)%C _ t); [apply in_map_iff; exists x; split; [reflexivity|exact Hx]|apply in_map, nth_In, Hi|exact Ht| |exact Hr].
      intros EE. apply Hn. rewrite Hsc in EE.
      transitivity (snd x * (RtoC (scale (map fst (fst x))) * string_matrix M mat0 (fst x) t (fst (nth i Li (0%N, 0%Z)))))%C; [ring|exact EE]. }
  destruct (shift_terms_ok M (length pers) pers ms HG2 Hnt qi qo Si So sto Li Lo SDi2 SDo2 SCo Eo HLi HLo _ scale op (string_matrix M mat0) Hop real nvecs v_in ts Hts HP Hv
    (match v_out with Some v => v | None => fun _ _ => C0 end)) as (T1 & T2 & T3).
  assert (RE : forall o, run o <-> shift_loop real pers qo ms (length pers) Lo Li scale op nvecs v_in ts (match v_out with Some v => v | None => fun _ _ => C0 end) o).
  { intros o. unfold run, Op_shift_sector. destruct ts; [congruence|reflexivity]. }
  split.
  - intros Hr. split; [destruct (T1 Hr) as [v Hv1]; exists v; apply RE, Hv1|rewrite RE; exact (T2 Hr)].
  - intros v H j k Hj Hk. apply RE in H. rewrite (T3 v H j k Hj Hk). f_equal; [destruct v_out; reflexivity|]. apply Csum_ext. intros i Hi. apply in_seq in Hi. f_equal. f_equal.
    rewrite <- (shift_transition M (length pers) pers ms HG2 Hnt qi qo Si So sti sto Li Lo SDi2 SDo2 SCi SCo Ei Eo HLi HLo (lattice_operator M mat ts) i j HC ltac:(lia) Hj).
    apply Csum_ext. intros t _. f_equal. unfold M. rewrite <- (total_lattice B n scale mat mat0 Hsc ts t). reflexivity.
Qed.
End Inst.
