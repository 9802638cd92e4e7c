(* Op_bra_ket returns the matrix elements between the states of a block, when the array g[] does not matter. *)
From Verif Require Import AuxN SpecC SpecSymm SpecSector SpecBasis SpecIndex SpecOps SpecProj SpecShift M_symm M_index M_ops M_opstr M_symop M_inplace M_shift
  P_symm P_norm P_symminst P_index P_mat P_proj P_ops P_symop P_symopinst P_inplace P_shift.
Local Open Scope nat_scope.

Definition cell_num (c : cell) : C := match c with CVal z => z | _ => C0 end.

Section BraKet.
Variables (M : nat) (nt : nat) (pers : list nat) (ms : smap) (qs : list Z).
Notation D := (fun s : N => (s < N.of_nat M)%N).
Hypothesis HG : good_maps D nt pers ms.
Hypothesis Hnt : nt <= 32.
Variables (S : N -> Prop) (sts : list N).
Hypothesis SD : forall s, S s -> D s.
Hypothesis SC : closed_under S nt ms.
Hypothesis HE : enumerates sts S.
Variable L : list (N * Z).
Hypothesis HL : lists_decreasing (in_block S nt pers qs ms) L.
Variable pcon : option (N -> bool).
Hypothesis HS : match pcon with Some p => forall x, D x -> (p x = true <-> S x) | None => forall x, D x -> S x end.
Notation act := (gact ms).
Notation valid := (valid nt pers).
Notation ph := (ph pers ms qs).
Notation st i := (fst (nth i L (0%N, 0%Z))).
Notation nn i := (snd (nth i L (0%N, 0%Z))).
Notation is_rep := (is_rep nt ms).
Notation wt := (wt pers ms qs L).

Definition junk_free (Am : cmat) (s : N) : Prop :=
  (forall d, nth d qs 0%Z = 0%Z) \/ (pcon = None /\ forall t, D t -> Am t s <> C0 -> is_rep t -> t = s).
Lemma trivial_phase g : (forall d, nth d qs 0%Z = 0%Z) -> g_phase pers qs nt g = C1.
Proof.
  intros Hq. unfold g_phase. replace (Rsum (seq 0 nt) _) with 0%R; [rewrite Ropp_0, cis_0; reflexivity|]. symmetry.
  assert (X : forall l f, (forall k : nat, In k l -> f k = 0%R) -> Rsum l f = 0%R).
  { induction l as [|a l IH]; intros f Hf; [reflexivity|]. cbn [Rsum fold_right]. fold (Rsum l f). rewrite (Hf a), IH by (intros; try apply Hf; cbn; auto). ring. }
  apply X. intros k _. unfold ks. rewrite Hq. unfold Rdiv. ring.
Qed.
Lemma check_rep x : D x -> is_rep x -> exists y, check_state (group_order pers) pers qs ms nt x = Some (Norm y) /\
  ((compatible pers qs ms x /\ y = INR (stabilisers pers ms x)) \/ (~ compatible pers qs ms x /\ y = 0%R)).
Proof.
  intros Hx Hr. destruct (Nat.eq_dec nt 0) as [E0|N0].
  - unfold check_state. rewrite E0. cbn [Nat.eqb orb]. exists 1%R. split; [reflexivity|]. left.
    assert (EP : pers = []).
    { pose proof (gm_len _ _ _ _ HG) as Hlen. destruct pers; [reflexivity|]. rewrite E0 in Hlen. discriminate Hlen. }
    rewrite EP. split.
    + intros g [Hl _] _. destruct g; [|discriminate Hl]. unfold theta. cbn. apply C_eq; cbn; rewrite ?cos_0, ?sin_0; ring.
    + unfold stabilisers. cbn [group]. cbn [filter]. change (gact ms [] x) with (x, 1%Z). cbn [fst]. rewrite N.eqb_refl. reflexivity.
  - destruct (norm_spec D nt pers ms qs x (group_order pers) HG Hx (Coq.Init.Logic.conj (proj1 (Nat.neq_0_lt_0 nt) N0) Hnt) ltac:(rewrite (prodp_order D nt pers ms HG); lia)) as [[_ (t & Ht & Hlt)]|[_ [[Hc E]|[Hc E]]]].
    + apply Hr in Ht. lia.
    + eexists. split; [exact E|]. left. split; [exact Hc|reflexivity].
    + eexists. split; [exact E|]. right. split; [exact Hc|reflexivity].
Qed.
Lemma S_orb r g : valid g -> D r -> S (fst (act g r)) -> S r.
Proof.
  intros Hg Hr H. destruct HE as [_ Hin]. rewrite <- (act_inv D nt pers ms HG g r Hg Hr).
  apply (act_S D nt pers ms S sts SD SC Hin); [apply (valid_ginv D nt pers ms HG)|exact H].
Qed.
Lemma step_ok real op Am J i g : acts_as M op Am -> i < length L -> length g = nt -> junk_free (fun t u => J * Am t u)%C (st i) ->
  exists c b g', bra_ket_step real pcon pers qs ms nt op J g (st i) = Some (c, b, g') /\ length g' = nt /\ c <> CInf /\
    (c <> CNan -> In b (map fst L)) /\
    forall j, j < length L -> (if (b =? st j)%N then cell_num c else C0) = as_type real (Csum sts (fun t => wt i j t * (J * Am t (st i)))%C).
Proof.
  intros Hop Hi Hg Hj. destruct HE as [Hnd Hin]. destruct (L_nth nt pers ms qs S L HL i Hi) as (Si & Ri & Ci & Ni).
  destruct (Hop (st i) J (SD _ Si)) as (r & m & E & Hr & HA). unfold bra_ket_step. rewrite E.
  assert (Sum : forall j, Csum sts (fun t => wt i j t * (J * Am t (st i)))%C = Csum sts (fun t => if (t =? r)%N then (wt i j t * m)%C else C0)).
  { intros j. apply Csum_ext. intros t Ht. rewrite HA by (apply SD, Hin, Ht). destruct (t =? r)%N; [reflexivity|ring]. }
  assert (InS : forall j, S r -> Csum sts (fun t => if (t =? r)%N then (wt i j t * m)%C else C0) = (wt i j r * m)%C).
  { intros j Sr. rewrite (Csum_single sts _ r Hnd); [rewrite N.eqb_refl; reflexivity|apply Hin, Sr|].
    intros x _ Hx. destruct (N.eqb_spec x r); [congruence|reflexivity]. }
  assert (OutS : forall j, ~ S r -> Csum sts (fun t => if (t =? r)%N then (wt i j t * m)%C else C0) = C0).
  { intros j Nr. apply Csum_zero. intros x Hx. destruct (N.eqb_spec x r) as [->|]; [|reflexivity]. exfalso. apply Nr, Hin, Hx. }
  assert (Z0 : (if false then C0 else C0) = C0) by reflexivity.
  destruct (N.eqb_spec r (st i)) as [Er|Hd].
  - do 3 eexists. split; [reflexivity|]. split; [exact Hg|]. split; [congruence|]. split; [intros _; apply in_map, nth_In, Hi|].
    assert (Em : (match pcon with Some _ => (m * g_phase pers qs nt g)%C | None => m end) = m).
    { destruct Hj as [Hq|[Hp _]]; [|rewrite Hp; reflexivity]. destruct pcon; [|reflexivity]. rewrite trivial_phase by exact Hq. ring. }
    rewrite Em. intros j Hj'. rewrite Sum, InS by (rewrite Er; exact Si). cbn [cell_num]. rewrite Er. destruct (N.eqb_spec (st i) (st j)) as [Ee|Hn].
    + assert (i = j) by (apply (L_inj nt pers ms qs S L HL); assumption). subst j.
      rewrite (wt_orbit M nt pers ms qs HG S sts SD Hin L HL i i (st i) (repeat 0 nt) Hi Hi Si (valid_zero D nt pers ms HG)); [|rewrite (act_zero D nt pers ms HG); reflexivity].
      rewrite (ph_zero M nt pers ms qs HG S SD). replace (IZR (nn i) / IZR (nn i))%R with 1%R; [rewrite sqrt_1; f_equal; replace (RtoC 1) with C1 by reflexivity; ring|].
      pose proof (stab_ge1 D nt pers ms HG _ (SD _ Si)). rewrite Ni, <- INR_IZR_INZ. field. apply not_0_INR. lia.
    + rewrite (wt_zero M nt pers ms qs HG S SD L HL i j (st i) (repeat 0 nt) Hi Hj' Si (valid_zero D nt pers ms HG)); rewrite ?(act_zero D nt pers ms HG); cbn [fst];
        [replace (C0 * m)%C with C0 by ring; rewrite as_type_0; reflexivity|exact Ri|exact Hn].
  - destruct (ref_spec M nt pers ms HG Hnt r g Hr Hg) as (rr & g' & sg & h & Ef & Vh & Ea & Rrep & Lg & Cs). rewrite Ef.
    assert (Erep : fst (act h r) = rr) by (rewrite Ea; reflexivity).
    assert (Drr : D rr) by (rewrite <- Erep; apply (act_dom D nt pers ms HG); assumption).
    assert (NONE : forall b, (forall j, j < length L -> Csum sts (fun t => if (t =? r)%N then (wt i j t * m)%C else C0) = C0) ->
       forall j, j < length L -> (if (b =? st j)%N then cell_num CNan else C0) = as_type real (Csum sts (fun t => wt i j t * (J * Am t (st i)))%C)).
    { intros b Hz j Hj'. rewrite Sum, Hz by exact Hj'. rewrite as_type_0. cbn [cell_num]. destruct (b =? st j)%N; reflexivity. }
    destruct (match pcon with Some p => p rr | None => true end) eqn:Ep.
    + assert (Srr : S rr) by (destruct pcon as [p|]; [apply HS; assumption|apply HS, Drr]).
      assert (Sr : S r) by (apply (S_orb r h Vh Hr); rewrite Erep; exact Srr).
      destruct (check_rep rr Drr Rrep) as (y & Ec & Cy). rewrite Ec. destruct Cy as [[Cc Ey]|[Cc Ey]].
      * pose proof (stab_ge1 D nt pers ms HG _ Drr) as Sg1. assert (Y1 : (1 <= y)%R) by (rewrite Ey; apply (le_INR 1), Sg1).
        replace (match pcon with Some _ => if Rlt_dec 0 y then true else false | None => if Rle_dec 1 y then true else false end) with true
          by (destruct pcon; [destruct (Rlt_dec 0 y); [reflexivity|lra]|destruct (Rle_dec 1 y); [reflexivity|lra]]).
        destruct (check_rep (st i) (SD _ Si) Ri) as (z & Ez & Cz). rewrite Ez. destruct Cz as [[_ Zz]|[X _]]; [|contradiction].
        pose proof (stab_ge1 D nt pers ms HG _ (SD _ Si)) as Sg2. assert (Z1 : (1 <= z)%R) by (rewrite Zz; apply (le_INR 1), Sg2).
        destruct (Req_EM_T z 0); [lra|].
        assert (InL : In (rr, Z.of_nat (stabilisers pers ms rr)) L) by (apply HL; split; [exact Srr|]; split; [exact Rrep|]; split; [exact Cc|reflexivity]).
        do 3 eexists. split; [reflexivity|]. split; [exact Lg|]. split; [discriminate|]. split; [intros _; exact (in_map fst _ _ InL)|].
        intros j Hj'. rewrite Sum, InS by exact Sr. cbn [cell_num]. destruct (N.eqb_spec rr (st j)) as [Ee|Hn].
        -- rewrite (wt_orbit M nt pers ms qs HG S sts SD Hin L HL i j r h Hi Hj' Sr Vh) by congruence. f_equal.
           destruct (L_nth nt pers ms qs S L HL j Hj') as (_ & _ & _ & Nj). rewrite Ni, Nj, <- !INR_IZR_INZ, <- Ee, <- Ey, <- Zz.
           assert (Ph : (m * g_phase pers qs nt g' * RtoC (IZR sg))%C = (m * ph h r)%C).
           { unfold P_proj.ph. rewrite Ea. cbn [snd]. destruct Cs as [(Er & -> & ->)|[_ ->]].
             - destruct Hj as [Hq|[_ Hq]].
               + rewrite !trivial_phase by exact Hq. rewrite <- (g_phase_theta M nt pers ms HG qs (repeat 0 nt)), trivial_phase by exact Hq. ring.
               + assert (m = C0) as ->; [|ring].
                 assert (Dm : m = C0 \/ m <> C0).
                 { destruct (Req_EM_T (fst m) 0) as [M1|M1]; [|right; intros EE; apply M1; rewrite EE; reflexivity].
                   destruct (Req_EM_T (snd m) 0) as [M2|M2]; [left; apply C_eq; assumption|right; intros EE; apply M2; rewrite EE; reflexivity]. }
                 destruct Dm as [Dm|Dm]; [exact Dm|]. exfalso. apply Hd. apply Hq; [exact Hr| |rewrite <- Er; exact Rrep]. rewrite HA, N.eqb_refl by exact Hr. exact Dm.
             - rewrite (g_phase_theta M nt pers ms HG qs h). ring. }
           transitivity ((m * g_phase pers qs nt g' * RtoC (IZR sg)) * RtoC (sqrt (y / z)))%C; [ring|]. rewrite Ph. ring.
        -- rewrite (wt_zero M nt pers ms qs HG S SD L HL i j r h Hi Hj' Sr Vh); [replace (C0 * m)%C with C0 by ring; rewrite as_type_0; reflexivity|rewrite Erep; exact Rrep|rewrite Erep; exact Hn].
      * replace (match pcon with Some _ => if Rlt_dec 0 y then true else false | None => if Rle_dec 1 y then true else false end) with false
          by (subst y; destruct pcon; [destruct (Rlt_dec 0 0); [lra|reflexivity]|destruct (Rle_dec 1 0); [lra|reflexivity]]).
        do 3 eexists. split; [reflexivity|]. split; [exact Lg|]. split; [discriminate|]. split; [intros X; contradiction|]. apply NONE. intros j Hj'. rewrite InS by exact Sr.
        rewrite (wt_zero M nt pers ms qs HG S SD L HL i j r h Hi Hj' Sr Vh); [ring|rewrite Erep; exact Rrep|]. rewrite Erep. intros Ee. apply Cc. rewrite Ee. apply (L_nth nt pers ms qs S L HL j Hj').
    + do 3 eexists. split; [reflexivity|]. split; [exact Lg|]. split; [discriminate|]. split; [intros X; contradiction|]. apply NONE. intros j Hj'. apply OutS. intros Sr.
      assert (Srr : S rr) by (rewrite <- Erep; apply (act_S D nt pers ms S sts SD SC Hin); assumption).
      destruct pcon as [p|]; [|discriminate]. apply HS in Srr; [congruence|exact Drr].
Qed.
(* what one entry has to be *)
Definition cell_ok real (Am : cmat) (s : N) (x : cell * N) : Prop :=
  fst x <> CInf /\ (fst x <> CNan -> In (snd x) (map fst L)) /\
  forall i j, i < length L -> st i = s -> j < length L -> (if (snd x =? st j)%N then cell_num (fst x) else C0) = as_type real (Csum sts (fun t => wt i j t * Am t s))%C.
Lemma In_index s : In s (map fst L) -> exists i, i < length L /\ st i = s.
Proof.
  intros H. apply in_map_iff in H. destruct H as (y & <- & Hy). destruct (In_nth L y (0%N, 0%Z) Hy) as (i & Hi & E). exists i. rewrite E. auto.
Qed.
Lemma thread_ok real op Am J kets : acts_as M op Am -> Forall (fun s => In s (map fst L) /\ junk_free (fun t u => J * Am t u)%C s) kets -> forall g, length g = nt ->
  exists l, bra_ket_thread real pcon pers qs ms nt op J g kets = Some l /\ Forall2 (cell_ok real (fun t u => J * Am t u)%C) kets l.
Proof.
  intros Hop HF. induction HF as [|s kets [Hs Hj] HF IH]; intros g Hg; [exists []; split; [reflexivity|constructor]|].
  destruct (In_index s Hs) as (i & Hi & Ei). rewrite <- Ei in Hj. destruct (step_ok real op Am J i g Hop Hi Hg Hj) as (c & b & g' & E & Lg & NI & Hb & Hv).
  destruct (IH g' Lg) as (l & El & Fl). rewrite Ei in E. exists ((c, b) :: l). cbn [bra_ket_thread]. rewrite E, El. split; [reflexivity|]. constructor; [|exact Fl].
  split; [exact NI|]. split; [exact Hb|]. cbn [fst snd]. intros i' j Hi' Ei' Hj'. assert (i' = i) by (apply (L_inj nt pers ms qs S L HL); [assumption|assumption|congruence]). subst i'.
  rewrite (Hv j Hj'), Ei. reflexivity.
Qed.
Lemma core_bk_ok real op Am J kets : acts_as M op Am -> Forall (fun s => In s (map fst L) /\ junk_free (fun t u => J * Am t u)%C s) kets ->
  (exists o, bra_ket_core real pcon pers qs ms nt op J kets (Some o)) /\
  forall res, bra_ket_core real pcon pers qs ms nt op J kets res -> exists o, res = Some o /\ Forall2 (cell_ok real (fun t u => J * Am t u)%C) kets o.
Proof.
  intros Hop HF. split.
  - destruct (thread_ok real op Am J kets Hop HF (repeat 0 nt) (repeat_length _ _)) as (l & El & _). exists l. exists [(repeat 0 nt, kets)]. cbn [map snd concat fst all_some].
    rewrite El, app_nil_r. split; [reflexivity|]. split; [intros p [<-|[]]; apply repeat_length|]. cbn [concat]. rewrite app_nil_r. reflexivity.
  - intros res (parts & Ek & Hg & ->). subst kets. induction parts as [|[g ks0] parts IH]; cbn [map concat all_some fst snd] in *; [exists []; split; [reflexivity|constructor]|].
    apply Forall_app in HF. destruct HF as [F1 F2]. destruct (thread_ok real op Am J ks0 Hop F1 g (Hg (g, ks0) (or_introl eq_refl))) as (l & El & Fl). rewrite El.
    destruct (IH F2 (fun p Hp => Hg p (or_intror Hp))) as (o & Eo & Fo). destruct (all_some _) as [q|]; [|discriminate]. injection Eo as Eo. eexists. split; [reflexivity|].
    cbn [concat]. rewrite Eo. apply Forall2_app; assumption.
Qed.

(* the returned triples *)
Definition bk_value (b s : N) (out : list (cell * N * N)) : C :=
  Csum out (fun e => if ((snd (fst e) =? b)%N && (snd e =? s)%N)%bool then cell_num (fst (fst e)) else C0).
Lemma keep_value reduce x b s : bk_value b s (keep_entry reduce x) = if ((snd (fst x) =? b)%N && (snd x =? s)%N)%bool then cell_num (fst (fst x)) else C0.
Proof.
  destruct x as [[c b'] s']. unfold keep_entry, bk_value. cbn [fst snd]. destruct c as [| |z].
  - destruct reduce; rewrite ?Csum_cons, Csum_nil; cbn [fst snd cell_num]; destruct ((b' =? b)%N && (s' =? s)%N)%bool; ring.
  - rewrite Csum_cons, Csum_nil. cbn [fst snd cell_num]. destruct ((b' =? b)%N && (s' =? s)%N)%bool; ring.
  - destruct (reduce && Czero z)%bool eqn:E.
    + rewrite Csum_nil. cbn [cell_num]. apply andb_prop in E. destruct E as [_ E]. unfold Czero, Rzero in E.
      destruct (Req_EM_T (fst z) 0) as [E1|]; [|discriminate]. destruct (Req_EM_T (snd z) 0) as [E2|]; [|discriminate].
      replace z with C0 by (symmetry; apply C_eq; assumption). destruct ((b' =? b)%N && (s' =? s)%N)%bool; reflexivity.
    + rewrite Csum_cons, Csum_nil. cbn [fst snd cell_num]. destruct ((b' =? b)%N && (s' =? s)%N)%bool; ring.
Qed.
Lemma bk_app b s l l' : bk_value b s (l ++ l') = (bk_value b s l + bk_value b s l')%C.
Proof. unfold bk_value. apply Csum_app. Qed.
Lemma bk_scale x b s l : bk_value b s (map (scale_cell x) l) = (bk_value b s l * RtoC x)%C.
Proof.
  unfold bk_value. rewrite Csum_map, <- Csum_mul_r. apply Csum_ext. intros [[c b'] s'] _. unfold scale_cell. cbn [fst snd].
  destruct c; cbn [fst snd cell_num]; destruct (_ && _)%bool; ring.
Qed.
Lemma keeps_value reduce real Am b s kets o : NoDup kets -> Forall2 (cell_ok real Am) kets o -> In s kets -> In s (map fst L) -> In b (map fst L) ->
  exists i j, i < length L /\ j < length L /\ st i = s /\ st j = b /\ bk_value b s (flat_map (keep_entry reduce) (combine o kets)) = as_type real (Csum sts (fun t => wt i j t * Am t s))%C.
Proof.
  intros ND HF Hs HsL Hb. destruct (In_index s HsL) as (i & Hi & Ei). destruct (In_index b Hb) as (j & Hj & Ej). exists i, j. do 4 (split; [assumption|]).
  assert (Z : forall kets o, Forall2 (cell_ok real Am) kets o -> ~ In s kets -> bk_value b s (flat_map (keep_entry reduce) (combine o kets)) = C0).
  { clear. intros kets o HF. induction HF as [|k x kets o Hx HF IH]; intros Hn; [unfold bk_value; apply Csum_nil|]. cbn [combine flat_map]. rewrite bk_app, keep_value, IH by (intros X; apply Hn; right; exact X).
    cbn [fst snd]. destruct (N.eqb_spec k s) as [->|_]; [exfalso; apply Hn; left; reflexivity|]. rewrite andb_false_r. ring. }
  induction HF as [|k x kets o Hx HF IH]; [destruct Hs|]. cbn [combine flat_map]. rewrite bk_app, keep_value. cbn [fst snd]. inversion ND as [|? ? N1 N2]; subst.
  destruct (N.eqb_spec k (st i)) as [->|Hk].
  - rewrite Z by assumption. rewrite andb_true_r. destruct Hx as (_ & _ & Hx). rewrite <- (Hx i j Hi eq_refl Hj). ring.
  - rewrite andb_false_r. destruct Hs as [Hs|Hs]; [congruence|]. rewrite IH by assumption. ring.
Qed.

Variables (n_sites : nat) (allowed : list ascii) (scale : list ascii -> R) (op : list (ascii * nat) -> N -> C -> option (N * C)).
Variable mat : list (ascii * nat) -> cmat.
Notation okl := (okl n_sites allowed).
Hypothesis Hop : forall l, okl l -> acts_as M (op l) (mat l).
Hypothesis Hsc0 : forall l, scale l <> 0%R.
Notation OB := (fun real l J kets reduce => Op_bra_ket real pcon pers qs ms nt n_sites allowed scale op l J kets reduce).
Lemma Op_bra_ket_ok real l J kets reduce : okl l -> NoDup kets -> Forall (fun s => In s (map fst L) /\ junk_free (fun t u => J * mat l t u)%C s) kets ->
  (exists out, OB real l J kets reduce (Some out)) /\ ~ OB real l J kets reduce None /\
  forall out, OB real l J kets reduce (Some out) ->
    (forall s i j, In s kets -> i < length L -> j < length L -> st i = s ->
      bk_value (st j) s out = as_type real (Csum sts (fun t => wt i j t * (J * RtoC (scale (map fst l)) * mat l t s)))%C) /\
    (reduce = true -> forall e, In e out -> (exists z, fst (fst e) = CVal z /\ z <> C0) /\ In (snd (fst e)) (map fst L) /\ In (snd e) kets) /\
    (reduce = false -> map snd out = kets).
Proof.
  intros Hl ND HF. pose proof (proj1 (okl_checks M n_sites allowed scale op mat Hop l) Hl) as [E1 E2]. unfold Op_bra_ket. rewrite E1, E2.
  destruct (core_bk_ok real (op l) (mat l) J kets (Hop l Hl) HF) as [[o Ho] Hall]. split; [|split].
  - eexists. exists (Some o). split; [exact Ho|reflexivity].
  - intros (out & Hc & E). destruct (Hall _ Hc) as (o' & -> & _). discriminate.
  - intros out (oo & Hc & E). destruct (Hall _ Hc) as (o' & -> & Fo). injection E as ->. split; [|split].
    + intros s i j Hs Hi Hj Ei. assert (HsL : In s (map fst L)) by (rewrite Forall_forall in HF; apply (HF s Hs)).
      destruct (keeps_value reduce real (fun t u => J * mat l t u)%C (st j) s kets o' ND Fo Hs HsL (in_map fst _ _ (nth_In L _ Hj))) as (i' & j' & Hi' & Hj' & Ei' & Ej' & EV).
      assert (i' = i) by (apply (L_inj nt pers ms qs S L HL); [assumption|assumption|congruence]). assert (j' = j) by (apply (L_inj nt pers ms qs S L HL); assumption). subst i' j'.
      rewrite bk_scale, EV, <- as_type_R, <- Csum_mul_r. f_equal. apply Csum_ext. intros t _. ring.
    + intros -> e He. apply in_map_iff in He. destruct He as (e0 & <- & He). apply in_flat_map in He. destruct He as ([[c b] s] & Hx & He).
      assert (CO : (c <> CInf /\ (c <> CNan -> In b (map fst L))) /\ In s kets).
      { clear - Hx Fo. induction Fo as [|k x kets o Hk HF IH]; [destruct Hx|]. cbn [combine] in Hx. destruct Hx as [Hx|Hx].
        - injection Hx as -> ->. destruct Hk as (K1 & K2 & _). cbn [fst snd] in *. split; [split; assumption|left; reflexivity].
        - destruct (IH Hx) as [I1 I2]. split; [exact I1|right; exact I2]. }
      destruct CO as [[C1' C2'] C3']. unfold keep_entry in He. cbn [fst snd] in He. destruct c as [| |z]; [destruct He|contradiction|]. cbn [andb] in He.
      destruct (Czero z) eqn:Ez; [destruct He|]. destruct He as [<-|[]]. unfold scale_cell. cbn [fst snd]. split; [|split; [apply C2'; discriminate|exact C3']].
      eexists. split; [reflexivity|]. intros EE. specialize (Hsc0 (map fst l)). set (x := scale (map fst l)) in *.
      assert (F1 : (fst z * x)%R = 0%R) by (replace (fst z * x)%R with (fst (z * RtoC x)%C) by (cbn; ring); rewrite EE; reflexivity).
      assert (F2 : (snd z * x)%R = 0%R) by (replace (snd z * x)%R with (snd (z * RtoC x)%C) by (cbn; ring); rewrite EE; reflexivity).
      apply Rmult_integral in F1. apply Rmult_integral in F2. unfold Czero, Rzero in Ez. destruct (Req_EM_T (fst z) 0); [|tauto]. destruct (Req_EM_T (snd z) 0); [discriminate|tauto].
    + intros ->. rewrite map_map. assert (ES : forall e, snd (scale_cell (scale (map fst l)) e) = snd e) by (intros [[c b] s]; unfold scale_cell; cbn [fst snd]; destruct c; reflexivity).
      rewrite (map_ext _ _ ES). clear - Fo. induction Fo as [|k x kets o Hk HF IH]; [reflexivity|]. cbn [combine flat_map]. rewrite map_app, IH. destruct x as [c b].
      destruct c; cbn [keep_entry fst snd andb app map]; try reflexivity.
Qed.
Lemma bra_ket_terms real ts kets reduce outs : Forall (fun x => okl (fst x)) ts -> NoDup kets ->
  (forall x s, In x ts -> In s kets -> junk_free (fun t u => snd x * mat (fst x) t u)%C s) -> incl kets (map fst L) -> commutes_with_maps S nt ms (H_total scale mat ts) ->
  Forall2 (fun x out => OB real (fst x) (snd x) kets reduce (Some out)) ts outs ->
  forall b s, In s kets -> In b (map fst L) -> Csum outs (bk_value b s) = as_type real (reduced sts pers qs ms (H_total scale mat ts) b s).
Proof.
  intros Hts ND HJ Hk HC HF b s Hs Hb. destruct (In_index b Hb) as (j & Hj & Ej). destruct (In_index s (Hk s Hs)) as (i & Hi & Ei). destruct HE as [Hnd Hin].
  destruct (L_nth nt pers ms qs S L HL i Hi) as (Si & _). destruct (L_nth nt pers ms qs S L HL j Hj) as (Sj & _).
  rewrite <- Ej, <- Ei. unfold reduced. rewrite (reduced_entry D nt pers ms qs HG S sts SD SC Hnd Hin (H_total scale mat ts) HC (st i) (st j) Si Sj). rewrite Ei.
  assert (G : Csum outs (bk_value (st j) s) = as_type real (Csum ts (fun x => Csum sts (fun t => wt i j t * (snd x * RtoC (scale (map fst (fst x))) * mat (fst x) t s))))%C).
  { clear HC. induction HF as [|x out ts outs Hx HF IH]; [rewrite !Csum_nil, as_type_0; reflexivity|]. rewrite !Csum_cons, as_type_add.
    inversion Hts as [|? ? T1 T2]; subst. rewrite (IH T2 (fun y u Hy Hu => HJ y u (or_intror Hy) Hu)). f_equal.
    destruct (Op_bra_ket_ok real (fst x) (snd x) kets reduce T1 ND) as (_ & _ & HV).
    { apply Forall_forall. intros u Hu. split; [apply Hk, Hu|apply HJ; [left; reflexivity|exact Hu]]. }
    destruct (HV out Hx) as (V & _). apply V; [exact Hs|exact Hi|exact Hj|reflexivity]. }
  rewrite G. f_equal. rewrite Csum_swap, <- Csum_mul_l. apply Csum_ext. intros t _. unfold H_total, P_symop.wt. rewrite Csum_mul_l, Ei. ring.
Qed.
End BraKet.

Section Inst.
Variables (B : N) (n : nat) (pers : list nat) (qs : list Z) (ms : smap) (S : N -> Prop) (sts : list N) (L : list (N * Z)).
Let M := N.to_nat (B ^ N.of_nat n).
Hypothesis HG : good_maps (fun s => (s < B ^ N.of_nat n)%N) (length pers) pers ms.
Hypothesis Hnt : length pers <= 32.
Hypothesis SD : forall s, S s -> (s < B ^ N.of_nat n)%N.
Hypothesis HE : enumerates sts S.
Hypothesis SC : closed_under S (length pers) ms.
Hypothesis HL : lists_decreasing (in_block S (length pers) pers qs ms) L.
Variable pcon : option (N -> bool).
Hypothesis HS : match pcon with Some p => forall x, (x < B ^ N.of_nat n)%N -> (p x = true <-> S x) | None => forall x, (x < B ^ N.of_nat n)%N -> S x end.
Variables (allowed : list ascii) (scale : list ascii -> R) (op : list (ascii * nat) -> N -> C -> option (N * C)) (mat mat0 : ascii -> nat -> cmat).
Hypothesis Hop : forall l, Forall (fun oi => In (fst oi) allowed /\ snd oi < n) l -> acts_as M (op l) (string_matrix M mat0 l).
Hypothesis Hsc : forall l r s, string_matrix M mat l r s = (RtoC (scale (map fst l)) * string_matrix M mat0 l r s)%C.
Hypothesis Hsc0 : forall l, scale l <> 0%R.
Lemma bra_ket_lattice real ts kets reduce : Forall (fun t => Forall (fun oi => In (fst oi) allowed /\ snd oi < n) (fst t)) ts ->
  commutes_with_maps S (length pers) ms (lattice_operator M mat ts) -> NoDup kets -> incl kets (map fst L) ->
  no_stale_phase (match pcon with Some _ => true | None => false end) M (length pers) qs ms kets (term_matrices M mat ts) ->
  let run x := Op_bra_ket real pcon pers qs ms (length pers) n allowed scale op (fst x) (snd x) kets reduce in
  (forall x, In x ts -> (exists out, run x (Some out)) /\ ~ run x None /\ forall out, run x (Some out) ->
     (reduce = true -> forall e, In e out -> (exists z, fst (fst e) = CVal z /\ z <> C0) /\ In (snd (fst e)) (map fst L) /\ In (snd e) kets) /\
     (reduce = false -> map snd out = kets)) /\
  forall outs, Forall2 (fun x out => run x (Some out)) ts outs -> forall b s, In s kets -> In b (map fst L) ->
    Csum outs (fun out => Csum out (fun e => if ((snd (fst e) =? b)%N && (snd e =? s)%N)%bool then cell_num (fst (fst e)) else C0))
    = as_type real (reduced sts pers qs ms (lattice_operator M mat ts) b s).
Proof.
  intros Hts HC ND Hk HJ run. assert (HG2 := HG' B n pers ms HG). assert (SD2 := SD' B n S SD).
  assert (HS2 : match pcon with Some p => forall x, (x < N.of_nat M)%N -> (p x = true <-> S x) | None => forall x, (x < N.of_nat M)%N -> S x end).
  { unfold M. rewrite N2Nat.id. exact HS. }
  assert (J2 : forall x s, In x ts -> In s kets -> junk_free M (length pers) ms qs pcon (fun t u => snd x * string_matrix M mat0 (fst x) t u)%C s).
  { intros x s Hx Hs. destruct HJ as [HJ|[E HJ]]; [left; exact HJ|right]. split; [destruct pcon; [discriminate|reflexivity]|]. intros t Ht Hn Hr.
    apply (HJ (fun r s => snd x * string_matrix M mat (fst x) r s)%C s t); [apply in_map_iff; exists x; split; [reflexivity|exact Hx]|exact Hs|exact Ht| |exact Hr].
    intros EE. rewrite Hsc in EE. apply Hn. specialize (Hsc0 (map fst (fst x))). set (w := scale (map fst (fst x))) in *.
    transitivity (RtoC (/ w) * (snd x * (RtoC w * string_matrix M mat0 (fst x) t s)))%C; [|rewrite EE; ring].
    transitivity ((RtoC (/ w) * RtoC w) * (snd x * string_matrix M mat0 (fst x) t s))%C; [|ring].
    rewrite <- RtoC_mul. replace (/ w * w)%R with 1%R by (field; exact Hsc0). replace (RtoC 1) with C1 by reflexivity. ring. }
  split.
  - intros x Hx. destruct (Op_bra_ket_ok M (length pers) pers ms qs HG2 Hnt S sts SD2 SC HE L HL pcon HS2 n allowed scale op (string_matrix M mat0) Hop Hsc0 real (fst x) (snd x) kets reduce) as (R1 & R2 & R3).
    + rewrite Forall_forall in Hts. apply Hts, Hx.
    + exact ND.
    + apply Forall_forall. intros s Hs. split; [apply Hk, Hs|apply J2; assumption].
    + split; [exact R1|]. split; [exact R2|]. intros out Ho. destruct (R3 out Ho) as (_ & A1 & A2). split; assumption.
  - intros outs HF b s Hs Hb. assert (TL : forall t u, H_total scale (string_matrix M mat0) ts t u = lattice_operator M mat ts t u) by (intros t u; unfold M; apply (total_lattice B n scale mat mat0 Hsc ts t u)).
    assert (HC2 : commutes_with_maps S (length pers) ms (H_total scale (string_matrix M mat0) ts)) by (intros d r u Hd Hr Hu; rewrite !TL; apply HC; assumption).
    pose proof (bra_ket_terms M (length pers) pers ms qs HG2 Hnt S sts SD2 SC HE L HL pcon HS2 n allowed scale op (string_matrix M mat0) Hop Hsc0 real ts kets reduce outs Hts ND J2 Hk HC2 HF b s Hs Hb) as E.
    unfold bk_value in E. rewrite E. f_equal. unfold reduced. apply Csum_ext. intros t _. apply Csum_ext. intros u _. rewrite TL. reflexivity.
Qed.
End Inst.
