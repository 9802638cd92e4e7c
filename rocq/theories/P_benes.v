From Verif Require Import AuxN SpecBits M_benes P_bitcount.
Local Open Scope N_scope.

(* ---------- small facts about bits ---------- *)
Lemma testbit_bit i p : N.testbit (bit i) p = (p =? i).
Proof. unfold bit. rewrite N.shiftl_1_l, N.pow2_bits_eqb. apply N.eqb_sym. Qed.

Lemma testbit_add_bit h i p : N.testbit (N.lor h (bit i)) p = N.testbit h p || (p =? i).
Proof. rewrite N.lor_spec, testbit_bit. reflexivity. Qed.

Lemma land_bit_zero i h : (N.land (bit i) h =? 0) = negb (N.testbit h i).
Proof.
  destruct (N.testbit h i) eqn:E; cbn [negb].
  - apply N.eqb_neq. intros C. assert (X : N.testbit (N.land (bit i) h) i = true).
    { rewrite N.land_spec, testbit_bit, N.eqb_refl, E. reflexivity. }
    rewrite C, N.bits_0 in X. discriminate.
  - apply N.eqb_eq. apply N_bits_ext; intro p. rewrite N.land_spec, testbit_bit, N.bits_0.
    destruct (N.eqb_spec p i) as [->|]; [rewrite E|]; reflexivity.
Qed.

Section Stage.
Variables (st : nat) (bits : nat).
Let stage := N.of_nat st.
Let mask := N.shiftl 1 stage.
Hypothesis Hbits : forall p, p < N.of_nat bits -> N.lxor p mask < N.of_nat bits.

Definition side (p : N) : bool := N.testbit p stage.
Definition partner (p : N) : N := N.lxor p mask.
Definition base (p : N) : N := N.ldiff p mask.

Lemma mask_bit p : N.testbit mask p = (p =? stage).
Proof. apply testbit_bit. Qed.
Lemma partner_bit p i : N.testbit (partner p) i = xorb (N.testbit p i) (i =? stage).
Proof. unfold partner. rewrite N.lxor_spec, mask_bit. reflexivity. Qed.
Lemma base_bit p i : N.testbit (base p) i = N.testbit p i && negb (i =? stage).
Proof. unfold base. rewrite N.ldiff_spec, mask_bit. reflexivity. Qed.
Lemma partner_partner p : partner (partner p) = p.
Proof.
  apply N_bits_ext; intro i. rewrite !partner_bit. destruct (N.testbit p i), (i =? stage); reflexivity.
Qed.
Lemma side_partner p : side (partner p) = negb (side p).
Proof. unfold side. rewrite partner_bit, N.eqb_refl. apply xorb_true_r. Qed.
Lemma partner_neq p : partner p <> p.
Proof. intros E. pose proof (side_partner p) as H. rewrite E in H. destruct (side p); discriminate. Qed.
Lemma base_partner p : base (partner p) = base p.
Proof.
  apply N_bits_ext; intro i. rewrite !base_bit, partner_bit. destruct (N.testbit p i), (i =? stage); reflexivity.
Qed.
Lemma side_base p : side (base p) = false.
Proof. unfold side. rewrite base_bit, N.eqb_refl. apply andb_false_r. Qed.
Lemma base_eq p q : base p = base q -> q = p \/ q = partner p.
Proof.
  intros E. destruct (Bool.bool_dec (side q) (side p)) as [S|S].
  - left. apply N_bits_ext; intro i. destruct (N.eqb_spec i stage) as [->|Ne]; [exact S|].
    assert (X : N.testbit (base p) i = N.testbit (base q) i) by (rewrite E; reflexivity).
    rewrite !base_bit in X. apply N.eqb_neq in Ne. rewrite Ne in X. cbn in X. rewrite !andb_true_r in X. symmetry; exact X.
  - right. apply N_bits_ext; intro i. rewrite partner_bit. destruct (N.eqb_spec i stage) as [->|Ne].
    + change (N.testbit q stage) with (side q). change (N.testbit p stage) with (side p).
      destruct (side q), (side p); try reflexivity; exfalso; apply S; reflexivity.
    + assert (X : N.testbit (base p) i = N.testbit (base q) i) by (rewrite E; reflexivity).
      rewrite !base_bit in X. apply N.eqb_neq in Ne. rewrite Ne in X. cbn in X. rewrite !andb_true_r in X.
      rewrite xorb_false_r. symmetry; exact X.
Qed.
Lemma base_cases p : base p = p /\ side p = false \/ base p = partner p /\ side p = true.
Proof.
  assert (X : base (base p) = base p) by (apply N_bits_ext; intro i; rewrite !base_bit; destruct (N.testbit p i), (i =? stage); reflexivity).
  destruct (base_eq p (base p)) as [E|E]; [symmetry; exact X| |].
  - left. split; [exact E|]. rewrite <- E. apply side_base.
  - right. split; [exact E|]. pose proof (side_base p) as H. rewrite E, side_partner in H. destruct (side p); [reflexivity|discriminate].
Qed.
Lemma same_side p q : (N.land (N.lxor p q) mask =? 0) = Bool.eqb (side p) (side q).
Proof.
  rewrite N.land_comm. unfold mask. change (N.shiftl 1 stage) with (bit stage). rewrite land_bit_zero, N.lxor_spec.
  unfold side. destruct (N.testbit p stage), (N.testbit q stage); reflexivity.
Qed.

(* the permutation of positions performed by a configuration mask *)
Definition sw (cfg p : N) : N := if N.testbit cfg (base p) then partner p else p.

Lemma sw_sw cfg p : sw cfg (sw cfg p) = p.
Proof.
  unfold sw at 2. destruct (N.testbit cfg (base p)) eqn:E; unfold sw.
  - rewrite base_partner, E. apply partner_partner.
  - rewrite E. reflexivity.
Qed.
Lemma sw_0 p : sw 0 p = p.
Proof. unfold sw. rewrite N.bits_0. reflexivity. Qed.

Definition ok_cfg (cfg : N) := forall i, N.testbit cfg i = true -> side i = false /\ i < N.of_nat bits.

(* ---------- arrays and their inverses ---------- *)
Definition consist (a inv : arr) : Prop := forall p l, a p = Some l <-> inv l = Some p.

Lemma upd_eq a i v : upd a i v i = v.
Proof. unfold upd. rewrite N.eqb_refl. reflexivity. Qed.
Lemma upd_neq a i v j : j <> i -> upd a i v j = a j.
Proof. intros H. unfold upd. apply N.eqb_neq in H. rewrite H. reflexivity. Qed.

Lemma exchange_val a i p : exchange a i (partner i) p = if base p =? base i then a (partner p) else a p.
Proof.
  unfold exchange. destruct (N.eqb_spec (base p) (base i)) as [E|E].
  - symmetry in E. destruct (base_eq i p E) as [->| ->].
    + rewrite upd_neq by (intros C; symmetry in C; revert C; apply partner_neq). apply upd_eq.
    + rewrite upd_eq, partner_partner. reflexivity.
  - rewrite !upd_neq; [reflexivity| |].
    + intros ->. apply E; reflexivity.
    + intros ->. apply E, base_partner.
Qed.

Lemma consist_inj a inv p q l : consist a inv -> a p = Some l -> a q = Some l -> p = q.
Proof. intros C H1 H2. apply C in H1. apply C in H2. rewrite H1 in H2. injection H2 as ->. reflexivity. Qed.

Lemma cross_ok a inv i l : consist a inv -> a i = Some l ->
  exists a' inv', cross a inv mask i = Some (a', inv') /\ consist a' inv' /\
    (forall p, a' p = if base p =? base i then a (partner p) else a p).
Proof.
  intros C Hi. unfold cross. change (N.lxor i mask) with (partner i).
  rewrite exchange_val, base_partner, N.eqb_refl, partner_partner, Hi.
  eexists. eexists. split; [reflexivity|]. split; [|intros p; apply exchange_val].
  rewrite exchange_val, N.eqb_refl.
  intros p m. rewrite exchange_val. destruct (N.eqb_spec (base p) (base i)) as [E|E].
  - symmetry in E. destruct (base_eq i p E) as [->| ->].
    + destruct (a (partner i)) as [l'|] eqn:Ep.
      * destruct (N.eq_dec m l') as [->|Ne].
        -- rewrite upd_eq. tauto.
        -- rewrite upd_neq by assumption. destruct (N.eq_dec m l) as [->|Ne2].
           ++ rewrite upd_eq. split; [intros X; injection X as ->; exfalso; apply Ne; reflexivity|].
              intros X. injection X as X. exfalso; revert X; apply partner_neq.
           ++ rewrite upd_neq by assumption. split; [intros X; injection X as ->; exfalso; apply Ne; reflexivity|].
              intros X. apply C in X. rewrite Hi in X. injection X as ->. exfalso; apply Ne2; reflexivity.
      * destruct (N.eq_dec m l) as [->|Ne2].
        -- rewrite upd_eq. split; [discriminate|]. intros X. injection X as X. exfalso; revert X; apply partner_neq.
        -- rewrite upd_neq by assumption. split; [discriminate|].
           intros X. apply C in X. rewrite Hi in X. injection X as ->. exfalso; apply Ne2; reflexivity.
    + rewrite partner_partner, Hi. destruct (a (partner i)) as [l'|] eqn:Ep.
      * assert (Nl : l <> l').
        { intros <-. apply (partner_neq i). eapply consist_inj; eassumption. }
        destruct (N.eq_dec m l') as [->|Ne].
        -- rewrite upd_eq. split; [intros X; injection X as ->; exfalso; apply Nl; reflexivity|].
           intros X. injection X as X. exfalso. symmetry in X. revert X; apply partner_neq.
        -- rewrite upd_neq by assumption. destruct (N.eq_dec m l) as [->|Ne2].
           ++ rewrite upd_eq. tauto.
           ++ rewrite upd_neq by assumption. split; [intros X; injection X as ->; exfalso; apply Ne2; reflexivity|].
              intros X. apply C in X. rewrite Ep in X. injection X as ->. exfalso; apply Ne; reflexivity.
      * destruct (N.eq_dec m l) as [->|Ne2].
        -- rewrite upd_eq. tauto.
        -- rewrite upd_neq by assumption. split; [intros X; injection X as ->; exfalso; apply Ne2; reflexivity|].
           intros X. apply C in X. rewrite Ep in X. discriminate.
  - assert (Np : p <> i) by (intros ->; apply E; reflexivity).
    assert (Np2 : p <> partner i) by (intros ->; apply E, base_partner).
    assert (D : forall o, a p = Some o -> o <> l).
    { intros o Ho ->. apply Np. eapply consist_inj; eassumption. }
    destruct (a (partner i)) as [l'|] eqn:Ep.
    + destruct (N.eq_dec m l') as [->|Ne].
      * rewrite upd_eq. split.
        -- intros X. exfalso. apply Np2. eapply consist_inj; eassumption.
        -- intros X. injection X as X. exfalso; apply Np; symmetry; exact X.
      * rewrite upd_neq by assumption. destruct (N.eq_dec m l) as [->|Ne2].
        -- rewrite upd_eq. split; [intros X; exfalso; eapply D; [exact X|reflexivity]|].
           intros X. injection X as X. exfalso; apply Np2; symmetry; exact X.
        -- rewrite upd_neq by assumption. apply C.
    + destruct (N.eq_dec m l) as [->|Ne2].
      * rewrite upd_eq. split; [intros X; exfalso; eapply D; [exact X|reflexivity]|].
        intros X. injection X as X. exfalso; apply Np2; symmetry; exact X.
      * rewrite upd_neq by assumption. apply C.
Qed.

(* ---------- the invariant ---------- *)
Variables (src0 tgt0 : arr).

Record common (s : bstate) : Prop := {
  c_src : consist (b_src s) (b_isrc s);
  c_tgt : consist (b_tgt s) (b_itgt s);
  c_lab : forall l, b_isrc s l = None <-> b_itgt s l = None;
  c_bnd1 : forall p l, b_src s p = Some l -> p < N.of_nat bits;
  c_bnd2 : forall p l, b_tgt s p = Some l -> p < N.of_nat bits;
  c_sw1 : forall p, b_src s p = src0 (sw (b_csrc s) p);
  c_sw2 : forall p, b_tgt s p = tgt0 (sw (b_ctgt s) p);
  c_ok1 : ok_cfg (b_csrc s);
  c_ok2 : ok_cfg (b_ctgt s);
  c_good : forall l p q, b_isrc s l = Some p -> N.testbit (b_set s) p = true -> b_itgt s l = Some q -> side p = side q;
  (* target pairs: an unassigned label has an untouched pair and an unassigned partner label *)
  c_tp : forall q l p, b_tgt s q = Some l -> b_isrc s l = Some p -> N.testbit (b_set s) p = false ->
     N.testbit (b_ctgt s) (base q) = false /\
     (forall l' p', b_tgt s (partner q) = Some l' -> b_isrc s l' = Some p' -> N.testbit (b_set s) p' = false);
  c_lab_set : forall p, N.testbit (b_set s) p = true -> b_src s p <> None
}.

Definition open_at (s : bstate) (p : N) : Prop := b_src s p <> None /\ N.testbit (b_set s) p = false.

(* source pairs outside the excluded bases *)
Definition src_clean (s : bstate) (ex : N -> Prop) : Prop :=
  forall p, open_at s p -> ~ ex (base p) ->
    N.testbit (b_csrc s) (base p) = false /\ N.testbit (b_set s) (partner p) = false.

(* loop head of the walk started at position a, now at c *)
Record at_head (s : bstate) (a c : N) : Prop := {
  h_common : common s;
  h_clean : src_clean s (fun b => b = base a \/ b = base c);
  h_open : open_at s c;
  h_side : side c = side a;
  h_start : c = a \/ (N.testbit (b_set s) (partner c) = true /\ N.testbit (b_set s) a = true /\ base c <> base a)
}.

(* what a walk from a guarantees *)
Record walked (s s' : bstate) (a : N) : Prop := {
  w_common : common s';
  w_clean : src_clean s' (fun b => b = base a);
  w_done : N.testbit (b_set s') a = true;
  w_open : forall p, open_at s' p -> open_at s p \/ open_at s (partner p);
  w_partner : open_at s' (partner a) -> open_at s (partner a)
}.

(* assigning the label at c: after marking c and fixing the target side *)
Lemma tb_or h i p : N.testbit (N.lor h (bit i)) p = true <-> N.testbit h p = true \/ p = i.
Proof. rewrite testbit_add_bit, orb_true_iff, N.eqb_eq. tauto. Qed.
Lemma tb_or_f h i p : N.testbit (N.lor h (bit i)) p = false <-> N.testbit h p = false /\ p <> i.
Proof. rewrite testbit_add_bit, orb_false_iff, N.eqb_neq. tauto. Qed.

Lemma sw_add cfg i p : N.testbit cfg (base i) = false ->
  sw (N.lor cfg (bit (base i))) p = if base p =? base i then partner (sw cfg p) else sw cfg p.
Proof.
  intros H. unfold sw. rewrite testbit_add_bit. destruct (N.eqb_spec (base p) (base i)) as [E|E].
  - rewrite E, H. reflexivity.
  - rewrite orb_false_r. reflexivity.
Qed.

Lemma sw_partner cfg p : sw cfg (partner p) = partner (sw cfg p).
Proof. unfold sw. rewrite base_partner. destruct (N.testbit cfg (base p)); reflexivity. Qed.

Lemma base_lt p : p < N.of_nat bits -> base p < N.of_nat bits.
Proof. intros H. destruct (base_cases p) as [[-> _]|[-> _]]; [assumption|apply Hbits; assumption]. Qed.

Lemma ok_add cfg i : ok_cfg cfg -> i < N.of_nat bits -> ok_cfg (N.lor cfg (bit (base i))).
Proof.
  intros O H j Hj. apply tb_or in Hj. destruct Hj as [Hj| ->]; [apply O; assumption|].
  split; [apply side_base|apply base_lt; assumption].
Qed.

(* the target half of a round *)
Lemma target_half s c l : common s -> b_src s c = Some l -> N.testbit (b_set s) c = false ->
  exists q, b_itgt s l = Some q /\ b_tgt s q = Some l /\
  exists q' tgt itgt ctgt,
   (if N.land (N.lxor c q) mask =? 0
    then Some (N.lxor q mask, b_tgt s, b_itgt s, b_ctgt s)
    else match cross (b_tgt s) (b_itgt s) mask q with
         | None => None
         | Some (t', i') => Some (q, t', i', N.lor (b_ctgt s) (bit (N.ldiff q mask)))
         end) = Some (q', tgt, itgt, ctgt) /\
   consist tgt itgt /\ (forall m, itgt m = None <-> b_itgt s m = None) /\
   (forall p m, tgt p = Some m -> p < N.of_nat bits) /\
   (forall p, tgt p = tgt0 (sw ctgt p)) /\ ok_cfg ctgt /\
   base q' = base q /\ side q' = negb (side c) /\ tgt (partner q') = Some l /\
   (forall p, base p <> base q -> tgt p = b_tgt s p /\ N.testbit ctgt (base p) = N.testbit (b_ctgt s) (base p)) /\
   (forall p m, tgt p = Some m -> base p = base q -> exists p', b_tgt s p' = Some m /\ base p' = base q).
Proof.
  intros C Hl Hu.
  assert (Hil : b_isrc s l = Some c) by (apply (c_src s C); assumption).
  destruct (b_itgt s l) as [q|] eqn:Eq.
  2:{ apply (c_lab s C) in Eq. rewrite Eq in Hil. discriminate. }
  exists q. split; [reflexivity|].
  assert (Htq : b_tgt s q = Some l) by (apply (c_tgt s C); assumption).
  split; [assumption|].
  rewrite same_side. destruct (Bool.eqb (side c) (side q)) eqn:Es.
  - apply Bool.eqb_prop in Es. eexists _, _, _, _. split; [reflexivity|]. change (N.lxor q mask) with (partner q).
    split; [apply (c_tgt s C)|]. split; [tauto|]. split; [apply (c_bnd2 s C)|]. split; [apply (c_sw2 s C)|].
    split; [apply (c_ok2 s C)|]. split; [apply base_partner|]. split; [rewrite side_partner, Es; reflexivity|].
    split; [rewrite partner_partner; assumption|]. split; [intros; split; reflexivity|].
    intros p m Hp Hb. exists p. split; assumption.
  - destruct (cross_ok _ _ q l (c_tgt s C) Htq) as (t' & i' & Ec & Cc & Ev). rewrite Ec.
    eexists _, _, _, _. split; [reflexivity|].
    assert (Huq : N.testbit (b_ctgt s) (base q) = false) by (eapply (c_tp s C); eassumption).
    split; [assumption|].
    assert (Hex : forall m, (exists p, t' p = Some m) <-> exists p, b_tgt s p = Some m).
    { intros m. split; intros [p Hp].
      - rewrite Ev in Hp. destruct (base p =? base q); eexists; exact Hp.
      - destruct (N.eqb_spec (base p) (base q)) as [E|E].
        + exists (partner p). rewrite Ev, base_partner, (proj2 (N.eqb_eq _ _) E), partner_partner. assumption.
        + exists p. rewrite Ev, (proj2 (N.eqb_neq _ _) E). assumption. }
    split.
    { intros m. specialize (Hex m). split; intros Hn.
      - destruct (b_itgt s m) as [p|] eqn:Em; [|reflexivity]. exfalso.
        destruct (proj2 Hex) as [p' Hp']; [exists p; apply (c_tgt s C); assumption|].
        apply Cc in Hp'. rewrite Hn in Hp'. discriminate.
      - destruct (i' m) as [p|] eqn:Em; [|reflexivity]. exfalso.
        destruct (proj1 Hex) as [p' Hp']; [exists p; apply Cc; assumption|].
        apply (c_tgt s C) in Hp'. rewrite Hn in Hp'. discriminate. }
    split.
    { intros p m Hp. rewrite Ev in Hp. destruct (base p =? base q); [|eapply (c_bnd2 s C); eassumption].
      apply (c_bnd2 s C) in Hp. apply Hbits in Hp. fold (partner (partner p)) in Hp. rewrite partner_partner in Hp. assumption. }
    split.
    { intros p. change (N.ldiff q mask) with (base q). rewrite sw_add by assumption. rewrite Ev.
      destruct (base p =? base q); [|apply (c_sw2 s C)].
      rewrite (c_sw2 s C), sw_partner. reflexivity. }
    split; [apply ok_add; [apply (c_ok2 s C)|eapply (c_bnd2 s C); eassumption]|].
    split; [reflexivity|].
    split; [destruct (side c), (side q); try reflexivity; discriminate|].
    split; [rewrite Ev, base_partner, N.eqb_refl, partner_partner; assumption|].
    split.
    { intros p Hp. rewrite Ev, (proj2 (N.eqb_neq _ _) Hp). split; [reflexivity|].
      change (N.ldiff q mask) with (base q). rewrite testbit_add_bit, (proj2 (N.eqb_neq _ _) Hp). apply orb_false_r. }
    intros p m Hp Hb. rewrite Ev, (proj2 (N.eqb_eq _ _) Hb) in Hp. exists (partner p). split; [assumption|].
    rewrite base_partner; assumption.
Qed.

(* ---- the state after one round; src', isrc', csrc', set2 describe the source half ---- *)
Section Round.
Variables (s : bstate) (a c l q q' : N) (tgt itgt : arr) (ctgt : N).
Variables (src' isrc' : arr) (csrc' set2 : N).
Hypothesis Hh : at_head s a c.
Hypothesis Hl : b_src s c = Some l.
Hypothesis Hq : b_tgt s q = Some l.
Hypothesis T1 : consist tgt itgt.
Hypothesis T2 : forall m, itgt m = None <-> b_itgt s m = None.
Hypothesis T3 : forall p m, tgt p = Some m -> p < N.of_nat bits.
Hypothesis T4 : forall p, tgt p = tgt0 (sw ctgt p).
Hypothesis T5 : ok_cfg ctgt.
Hypothesis T6 : base q' = base q.
Hypothesis T7 : side q' = negb (side c).
Hypothesis T8 : tgt (partner q') = Some l.
Hypothesis T9 : forall p, base p <> base q -> tgt p = b_tgt s p /\ N.testbit ctgt (base p) = N.testbit (b_ctgt s) (base p).
Hypothesis T10 : forall p m, tgt p = Some m -> base p = base q -> exists p', b_tgt s p' = Some m /\ base p' = base q.
Hypothesis S1 : consist src' isrc'.
Hypothesis S2 : forall m, isrc' m = None <-> b_isrc s m = None.
Hypothesis S3 : forall p m, src' p = Some m -> p < N.of_nat bits.
Hypothesis S4 : forall p, src' p = src0 (sw csrc' p).
Hypothesis S5 : ok_cfg csrc'.
(* every label keeps its pair and the status of its position *)
Hypothesis S6 : forall P m, src' P = Some m ->
  exists P0, b_src s P0 = Some m /\ base P0 = base P /\
    (P0 = P \/ (N.testbit (b_set s) P0 = false /\ N.testbit (b_set s) P = false)).
Hypothesis S7 : src' c = Some l.
Hypothesis M1 : forall P, N.testbit set2 P = true <->
  N.testbit (b_set s) P = true \/ P = c \/ (exists e, tgt q' = Some e /\ src' P = Some e).
Hypothesis M2 : forall P e, tgt q' = Some e -> src' P = Some e -> side P = side q'.
Hypothesis M3 : forall P, N.testbit set2 P = true -> src' P <> None.

Lemma unassigned_pair m p P : tgt p = Some m -> base p = base q -> b_src s P = Some m ->
  N.testbit (b_set s) P = false.
Proof.
  intros Hp Hb HP. pose proof (h_common s a c Hh) as C.
  destruct (T10 p m Hp Hb) as (p' & Hp' & Hb').
  destruct (h_open s a c Hh) as [_ Hu].
  assert (Hil : b_isrc s l = Some c) by (apply (c_src s C); assumption).
  destruct (base_eq q p') as [->| ->]; [symmetry; assumption| |].
  - rewrite Hq in Hp'. injection Hp' as <-.
    assert (P = c) by (eapply consist_inj; [apply (c_src s C)|eassumption|assumption]). subst P. assumption.
  - destruct (c_tp s C q l c Hq Hil Hu) as [_ X]. eapply X; [eassumption|]. apply (c_src s C). assumption.
Qed.

Lemma pair_labels m p : tgt p = Some m -> base p = base q -> m = l \/ tgt q' = Some m.
Proof.
  intros Hp Hb. destruct (base_eq q' p) as [->| ->]; [rewrite T6; symmetry; assumption| |].
  - right; assumption.
  - left. rewrite T8 in Hp. injection Hp as <-. reflexivity.
Qed.

Lemma round_common : common (mkB src' isrc' tgt itgt csrc' ctgt set2).
Proof.
  pose proof (h_common s a c Hh) as C. destruct (h_open s a c Hh) as [_ Hu].
  split; cbn [b_src b_isrc b_tgt b_itgt b_csrc b_ctgt b_set]; try assumption.
  - intros m. rewrite S2, T2. apply (c_lab s C).
  - intros m P Q HP HM HQ. apply S1 in HP. apply T1 in HQ. apply M1 in HM.
    destruct HM as [HM|[->|(e & He & HPe)]].
    + destruct (S6 P m HP) as (P0 & HP0 & Hb0 & [->|[_ X]]); [|rewrite HM in X; discriminate].
      destruct (N.eq_dec (base Q) (base q)) as [Eb|Nb].
      * exfalso. pose proof (unassigned_pair m Q P HQ Eb HP0) as X. rewrite HM in X. discriminate.
      * destruct (T9 Q Nb) as [E _]. rewrite E in HQ.
        apply (c_good s C m); [apply (c_src s C); assumption|assumption|apply (c_tgt s C); assumption].
    + rewrite S7 in HP. injection HP as <-. apply T1 in HQ.
      assert (X : itgt l = Some (partner q')) by (apply T1; assumption). rewrite X in HQ. injection HQ as <-.
      rewrite side_partner, T7. destruct (side c); reflexivity.
    + rewrite HP in HPe. injection HPe as <-.
      assert (Q = q') by (eapply consist_inj; [exact T1|eassumption|eassumption]). subst Q. eapply M2; eassumption.
  - intros Q m P HQ HP HM. apply S1 in HP.
    assert (Nb : base Q <> base q).
    { intros Eb. assert (X : N.testbit set2 P = true); [|rewrite X in HM; discriminate].
      apply M1. right. destruct (pair_labels m Q HQ Eb) as [->|E].
      - left. eapply consist_inj; [exact S1|eassumption|eassumption].
      - right. exists m. split; assumption. }
    destruct (T9 Q Nb) as [E Ec]. rewrite E in HQ.
    assert (HM1 : N.testbit (b_set s) P = false).
    { destruct (N.testbit (b_set s) P) eqn:X; [|reflexivity]. rewrite (proj2 (M1 P)) in HM by (left; assumption). discriminate. }
    destruct (S6 P m HP) as (P0 & HP0 & Hb0 & HPP).
    assert (HM0 : N.testbit (b_set s) P0 = false) by (destruct HPP as [->|[X _]]; assumption).
    destruct (c_tp s C Q m P0 HQ (proj1 (c_src s C _ _) HP0) HM0) as [X1 X2].
    split; [rewrite Ec; assumption|].
    intros m' P' HQ' HP'. apply S1 in HP'.
    assert (Nb' : base (partner Q) <> base q) by (rewrite base_partner; assumption).
    destruct (T9 _ Nb') as [E' _]. rewrite E' in HQ'.
    destruct (S6 P' m' HP') as (P1 & HP1 & Hb1 & HPP1).
    assert (HM' : N.testbit (b_set s) P1 = false) by (eapply X2; [exact HQ'|apply (c_src s C); assumption]).
    assert (HMP' : N.testbit (b_set s) P' = false) by (destruct HPP1 as [<-|[_ Y]]; assumption).
    destruct (N.testbit set2 P') eqn:Y; [|reflexivity]. exfalso. apply M1 in Y. destruct Y as [Y|[->|(e & He & Hpe)]].
    + rewrite HMP' in Y. discriminate.
    + rewrite S7 in HP'. injection HP' as <-. apply Nb'.
      assert (partner Q = q) by (eapply consist_inj; [apply (c_tgt s C)|eassumption|eassumption]). congruence.
    + rewrite HP' in Hpe. injection Hpe as <-.
      rewrite <- E' in HQ'. assert (partner Q = q') by (eapply consist_inj; [exact T1|eassumption|eassumption]).
      apply Nb'. congruence.
Qed.
End Round.

(* ---- the source half ---- *)
Lemma source_half s p e : common s -> b_src s p = Some e ->
  exists src' isrc', cross (b_src s) (b_isrc s) mask p = Some (src', isrc') /\
   consist src' isrc' /\ (forall m, isrc' m = None <-> b_isrc s m = None) /\
   (forall P m, src' P = Some m -> P < N.of_nat bits) /\
   (N.testbit (b_csrc s) (base p) = false -> forall P, src' P = src0 (sw (N.lor (b_csrc s) (bit (base p))) P)) /\
   ok_cfg (N.lor (b_csrc s) (bit (base p))) /\
   (forall P, src' P = if base P =? base p then b_src s (partner P) else b_src s P).
Proof.
  intros C Hp. destruct (cross_ok _ _ p e (c_src s C) Hp) as (t' & i' & Ec & Cc & Ev). rewrite Ec.
  exists t', i'. split; [reflexivity|]. split; [assumption|].
  assert (Hex : forall m, (exists p, t' p = Some m) <-> exists p, b_src s p = Some m).
  { intros m. split; intros [P HP].
    - rewrite Ev in HP. destruct (base P =? base p); eexists; exact HP.
    - destruct (N.eqb_spec (base P) (base p)) as [E|E].
      + exists (partner P). rewrite Ev, base_partner, (proj2 (N.eqb_eq _ _) E), partner_partner. assumption.
      + exists P. rewrite Ev, (proj2 (N.eqb_neq _ _) E). assumption. }
  split.
  { intros m. specialize (Hex m). split; intros Hn.
    - destruct (b_isrc s m) as [P|] eqn:Em; [|reflexivity]. exfalso.
      destruct (proj2 Hex) as [P' HP']; [exists P; apply (c_src s C); assumption|].
      apply Cc in HP'. rewrite Hn in HP'. discriminate.
    - destruct (i' m) as [P|] eqn:Em; [|reflexivity]. exfalso.
      destruct (proj1 Hex) as [P' HP']; [exists P; apply Cc; assumption|].
      apply (c_src s C) in HP'. rewrite Hn in HP'. discriminate. }
  split.
  { intros P m HP. rewrite Ev in HP. destruct (base P =? base p); [|eapply (c_bnd1 s C); eassumption].
    apply (c_bnd1 s C) in HP. apply Hbits in HP. fold (partner (partner P)) in HP. rewrite partner_partner in HP. assumption. }
  split.
  { intros Hz P. rewrite sw_add by assumption. rewrite Ev.
    destruct (base P =? base p); [|apply (c_sw1 s C)].
    rewrite (c_sw1 s C), sw_partner. reflexivity. }
  split; [apply ok_add; [apply (c_ok1 s C)|eapply (c_bnd1 s C); eassumption]|assumption].
Qed.

Lemma walked_trans s s2 s' a : walked s2 s' a ->
  (forall p, open_at s2 p -> open_at s p \/ open_at s (partner p)) ->
  (open_at s2 (partner a) -> open_at s (partner a)) -> walked s s' a.
Proof.
  intros W H1 H2. destruct W as [W1 W2 W3 W4 W5]. split; try assumption.
  - intros p Hp. destruct (W4 p Hp) as [X|X]; apply H1 in X; [assumption|].
    rewrite partner_partner in X. tauto.
  - intros Hp. apply H2, W5, Hp.
Qed.

Definition unset (s : bstate) : nat := (bits - particles (b_set s) bits)%nat.

Lemma count_upto_lt f g n i : (forall j, (j < n)%nat -> f j = true -> g j = true) -> (i < n)%nat ->
  f i = false -> g i = true -> (count_upto f n < count_upto g n)%nat.
Proof.
  induction n as [|n IH]; intros H Hi Hf Hg; [lia|]. cbn [count_upto].
  assert (Hle : forall m, (m <= n)%nat -> (count_upto f m <= count_upto g m)%nat).
  { induction m as [|m IHm]; intros Hm; cbn [count_upto]; [lia|].
    assert (X : f m = true -> g m = true) by (apply H; lia). specialize (IHm ltac:(lia)).
    destruct (f m), (g m); try lia; rewrite X in *; try lia; reflexivity. }
  destruct (Nat.eq_dec i n) as [->|Ne].
  - rewrite Hf, Hg. specialize (Hle n ltac:(lia)). lia.
  - assert (X : f n = true -> g n = true) by (apply H; lia).
    specialize (IH ltac:(intros; apply H; [lia|assumption]) ltac:(lia) Hf Hg).
    destruct (f n), (g n); lia.
Qed.

Lemma walk_ok : forall fuel s a c, at_head s a c -> (unset s < fuel)%nat ->
  exists s', walk fuel mask s c = Some s' /\ walked s s' a.
Proof.
  induction fuel as [|fuel IH]; intros s a c Hh Hf; [lia|].
  pose proof (h_common s a c Hh) as C. destruct (h_open s a c Hh) as [Hc Hu].
  cbn [walk]. destruct (b_src s c) as [l|] eqn:El; [|exfalso; apply Hc; reflexivity].
  destruct (target_half s c l C El Hu) as
    (q & Eq & Htq & q' & tgt & itgt & ctgt & EX & T1 & T2 & T3 & T4 & T5 & T6 & T7 & T8 & T9 & T10).
  rewrite Eq, Htq, EX. clear EX.
  pose proof (unassigned_pair s a c l q tgt Hh El Htq T10) as Hun.
  destruct (tgt q') as [e|] eqn:Ee.
  2:{ (* no partner label at the target *)
    eexists. split; [reflexivity|].
    assert (RC : common (mkB (b_src s) (b_isrc s) tgt itgt (b_csrc s) ctgt (N.lor (b_set s) (bit c)))).
    { apply (round_common s a c l q q'); try assumption; try apply C; try tauto.
      - intros P m HP. exists P. repeat split; [assumption|left; reflexivity].
      - intros P. rewrite tb_or. rewrite Ee. split; [tauto|]. intros [X|[X|(x & X & _)]]; [tauto|tauto|discriminate].
      - intros P x X. rewrite Ee in X; discriminate.
      - intros P HP. apply tb_or in HP. destruct HP as [HP| ->]; [apply (c_lab_set s C); assumption|rewrite El; discriminate]. }
    split; [assumption| | | |].
    - intros P [HP1 HP2] Hb. cbn [b_src b_set b_csrc] in *. apply tb_or_f in HP2. destruct HP2 as [HP2 Nc].
      destruct (N.eq_dec (base P) (base c)) as [Ec|Nc2].
      + exfalso. destruct (h_start s a c Hh) as [->|(X & _ & _)]; [apply Hb; assumption|].
        destruct (base_eq c P) as [->| ->]; [symmetry; assumption|apply Nc; reflexivity|]. rewrite X in HP2. discriminate.
      + destruct (h_clean s a c Hh P) as [X1 X2]; [split; assumption|tauto|].
        split; [assumption|]. apply tb_or_f. split; [assumption|]. intros <-. apply Nc2. symmetry. apply base_partner.
    - cbn [b_set]. apply tb_or. destruct (h_start s a c Hh) as [->|(_ & X & _)]; tauto.
    - intros P [HP1 HP2]. cbn [b_src b_set] in *. apply tb_or_f in HP2. left. split; tauto.
    - intros [HP1 HP2]. cbn [b_src b_set] in *. apply tb_or_f in HP2. split; tauto. }
  (* partner label e at q' *)
  assert (Hpe : exists p, b_isrc s e = Some p).
  { destruct (b_isrc s e) as [p|] eqn:Ep; [eexists; reflexivity|]. exfalso.
    apply (c_lab s C) in Ep. apply T2 in Ep. apply T1 in Ee. rewrite Ep in Ee. discriminate. }
  destruct Hpe as [p Ep]. rewrite Ep.
  assert (Hp : b_src s p = Some e) by (apply (c_src s C); assumption).
  assert (Hpu : N.testbit (b_set s) p = false) by (eapply Hun; [exact Ee|assumption|assumption]).
  assert (Hpc : p <> c).
  { intros ->. rewrite El in Hp. injection Hp as ->. apply (partner_neq q').
    eapply consist_inj; [exact T1|eassumption|eassumption]. }
  (* the pair of p *)
  assert (Hcase : (base p = base a \/ base p = base c) /\ p = partner a /\ side p = side q' \/
     base p <> base a /\ base p <> base c /\ N.testbit (b_csrc s) (base p) = false /\ N.testbit (b_set s) (partner p) = false).
  { assert (D : base p = base a -> p = partner a /\ side p = side q').
    { intros E. destruct (base_eq a p) as [->| ->]; [symmetry; assumption| |].
      - exfalso. destruct (h_start s a c Hh) as [->|(_ & X & _)]; [apply Hpc; reflexivity|]. rewrite X in Hpu; discriminate.
      - split; [reflexivity|]. rewrite side_partner, T7, (h_side s a c Hh). reflexivity. }
    destruct (N.eq_dec (base p) (base a)) as [E|Na]; [left; split; [tauto|apply D; assumption]|].
    destruct (N.eq_dec (base p) (base c)) as [E|Nc].
    { destruct (base_eq c p) as [->| ->]; [symmetry; assumption|exfalso; apply Hpc; reflexivity|].
      destruct (h_start s a c Hh) as [->|(X & _ & _)]; [rewrite base_partner in Na; exfalso; apply Na; reflexivity|].
      rewrite X in Hpu. discriminate. }
    right. destruct (h_clean s a c Hh p) as [X1 X2]; [split; [rewrite Hp; discriminate|assumption]|tauto|]. tauto. }
  (* common description of the state after the source half *)
  assert (Hsrc : exists ps src' isrc' csrc',
     (if N.land (N.lxor p q') mask =? 0
      then Some (N.lxor p mask, b_src s, b_isrc s, b_csrc s, N.lor (N.lor (b_set s) (bit c)) (bit p))
      else match cross (b_src s) (b_isrc s) mask p with
           | None => None
           | Some (a', i') => Some (p, a', i', N.lor (b_csrc s) (bit (N.ldiff p mask)),
                                    N.lor (N.lor (b_set s) (bit c)) (bit (N.lxor p mask)))
           end) = Some (partner ps, src', isrc', csrc', N.lor (N.lor (b_set s) (bit c)) (bit ps)) /\
     base ps = base p /\ side ps = side q' /\ src' ps = Some e /\ src' c = Some l /\
     consist src' isrc' /\ (forall m, isrc' m = None <-> b_isrc s m = None) /\
     (forall P m, src' P = Some m -> P < N.of_nat bits) /\
     (forall P, src' P = src0 (sw csrc' P)) /\ ok_cfg csrc' /\
     (forall P, base P <> base p -> src' P = b_src s P /\ N.testbit csrc' (base P) = N.testbit (b_csrc s) (base P)) /\
     ((forall P, src' P = b_src s P) /\ ps = p \/
      base p <> base a /\ N.testbit (b_set s) (partner p) = false /\
      forall P, src' P = if base P =? base p then b_src s (partner P) else b_src s P)).
  { rewrite same_side. destruct (Bool.eqb (side p) (side q')) eqn:Es.
    - apply Bool.eqb_prop in Es. exists p. eexists _, _, _. split; [reflexivity|].
      split; [reflexivity|]. split; [assumption|]. split; [assumption|]. split; [assumption|].
      split; [apply C|]. split; [tauto|]. split; [apply (c_bnd1 s C)|]. split; [apply (c_sw1 s C)|].
      split; [apply (c_ok1 s C)|]. split; [intros; split; reflexivity|]. left. split; reflexivity.
    - destruct Hcase as [(_ & _ & X)|(Na & Nc & Z1 & Z2)]; [rewrite X, Bool.eqb_reflx in Es; discriminate|].
      destruct (source_half s p e C Hp) as (src' & isrc' & EX & R1 & R2 & R3 & R4 & R5 & R6). rewrite EX.
      exists (partner p). eexists _, _, _. split; [rewrite partner_partner; reflexivity|].
      split; [apply base_partner|].
      split; [rewrite side_partner; destruct (side p), (side q'); try reflexivity; discriminate|].
      split; [rewrite R6, base_partner, N.eqb_refl, partner_partner; assumption|].
      split; [rewrite R6; rewrite (proj2 (N.eqb_neq _ _)) by (intros X; apply Nc; symmetry; exact X); assumption|].
      split; [assumption|]. split; [assumption|]. split; [assumption|]. split; [apply R4; assumption|]. split; [assumption|].
      split.
      { intros P HP. rewrite R6, (proj2 (N.eqb_neq _ _) HP). split; [reflexivity|].
        change (N.ldiff p mask) with (base p). rewrite testbit_add_bit, (proj2 (N.eqb_neq _ _) HP). apply orb_false_r. }
      right. split; [assumption|]. split; [assumption|exact R6]. }
  destruct Hsrc as (ps & src' & isrc' & csrc' & EX & B1 & B2 & B3 & B4 & S1 & S2 & S3 & S4 & S5 & B5 & B6).
  rewrite EX. clear EX.
  set (set2 := N.lor (N.lor (b_set s) (bit c)) (bit ps)).
  set (s2 := mkB src' isrc' tgt itgt csrc' ctgt set2).
  assert (M : forall P, N.testbit set2 P = true <-> N.testbit (b_set s) P = true \/ P = c \/ P = ps).
  { intros P. unfold set2. rewrite !tb_or. tauto. }
  assert (Mf : forall P, N.testbit set2 P = false <-> N.testbit (b_set s) P = false /\ P <> c /\ P <> ps).
  { intros P. unfold set2. rewrite !tb_or_f. tauto. }
  assert (S6 : forall P m, src' P = Some m -> exists P0, b_src s P0 = Some m /\ base P0 = base P /\
     (P0 = P \/ (N.testbit (b_set s) P0 = false /\ N.testbit (b_set s) P = false))).
  { intros P m HP. destruct B6 as [[X _]|(Na & Z & X)]; rewrite X in HP.
    - exists P. repeat split; [assumption|left; reflexivity].
    - destruct (N.eqb_spec (base P) (base p)) as [E|E].
      + exists (partner P). split; [assumption|]. split; [apply base_partner|]. right.
        symmetry in E. destruct (base_eq p P E) as [->| ->].
        * split; assumption.
        * rewrite partner_partner. split; assumption.
      + exists P. repeat split; [assumption|left; reflexivity]. }
  assert (C2 : common s2).
  { unfold s2. apply (round_common s a c l q q'); try assumption.
    - intros P. rewrite M. rewrite Ee. split.
      + intros [X|[X| ->]]; [tauto|tauto|]. right; right. exists e. split; [reflexivity|assumption].
      + intros [X|[X|(x & X & Y)]]; [tauto|tauto|]. injection X as <-. right; right.
        eapply consist_inj; [exact S1|eassumption|eassumption].
    - intros P x X Y. rewrite Ee in X. injection X as <-.
      assert (P = ps) by (eapply consist_inj; [exact S1|eassumption|eassumption]). subst P. assumption.
    - intros P HP. apply M in HP. destruct HP as [HP|[->| ->]]; [|rewrite B4; discriminate|rewrite B3; discriminate].
      destruct B6 as [[X _]|(Na & Z & X)]; rewrite X; [apply (c_lab_set s C); assumption|].
      destruct (N.eqb_spec (base P) (base p)) as [E|E]; [|apply (c_lab_set s C); assumption].
      exfalso. symmetry in E. destruct (base_eq p P E) as [->| ->]; congruence. }
  assert (O2 : forall P, open_at s2 P -> open_at s P \/ open_at s (partner P)).
  { intros P [HP1 HP2]. cbn [b_src b_set s2] in *. destruct (src' P) as [m|] eqn:EP; [|exfalso; apply HP1; reflexivity].
    apply Mf in HP2. destruct HP2 as (HP2 & _ & _). destruct (S6 P m EP) as (P0 & X1 & X2 & X3).
    symmetry in X2. destruct (base_eq P P0 X2) as [->| ->].
    - left. split; [rewrite X1; discriminate|assumption].
    - right. split; [rewrite X1; discriminate|]. destruct X3 as [X3|[X3 _]]; [rewrite X3; assumption|assumption]. }
  assert (P2 : open_at s2 (partner a) -> open_at s (partner a)).
  { intros [HP1 HP2]. cbn [b_src b_set s2] in *. apply Mf in HP2. destruct HP2 as (HP2 & _ & _). split; [|assumption].
    destruct B6 as [[X _]|(Na & Z & X)]; rewrite X in HP1; [assumption|].
    destruct (N.eqb_spec (base (partner a)) (base p)) as [E|E]; [|assumption].
    exfalso. apply Na. rewrite base_partner in E. symmetry; assumption. }
  assert (Ha2 : N.testbit set2 a = true).
  { apply M. destruct (h_start s a c Hh) as [->|(_ & X & _)]; tauto. }
  assert (Clean2 : forall P, open_at s2 P -> base P <> base a -> base P <> base p ->
     N.testbit csrc' (base P) = false /\ N.testbit set2 (partner P) = false).
  { intros P [HP1 HP2] Na Np. cbn [b_src b_set s2] in *. apply Mf in HP2. destruct HP2 as (HP2 & Nc & Nps).
    destruct (B5 P Np) as [X1 X2]. rewrite X1 in HP1. rewrite X2.
    destruct (N.eq_dec (base P) (base c)) as [Ec|Nc2].
    - exfalso. destruct (h_start s a c Hh) as [->|(X & _ & _)]; [apply Na; assumption|].
      destruct (base_eq c P) as [->| ->]; [symmetry; assumption|apply Nc; reflexivity|]. rewrite X in HP2. discriminate.
    - destruct (h_clean s a c Hh P) as [Y1 Y2]; [split; assumption|tauto|]. split; [assumption|].
      apply Mf. split; [assumption|]. split.
      + intros E. apply Nc2. rewrite <- E. symmetry. apply base_partner.
      + intros E. apply Np. rewrite <- B1, <- E. symmetry. apply base_partner. }
  (* leaving the loop here is fine whenever the other position of the pair is not open *)
  assert (Stop : ~ open_at s2 (partner ps) -> walked s s2 a).
  { intros Hn. split; [assumption| |assumption|assumption|assumption].
    intros P HP Na. destruct (N.eq_dec (base P) (base p)) as [E|Np]; [|apply Clean2; assumption].
    exfalso. rewrite <- B1 in E. symmetry in E. destruct (base_eq ps P E) as [->| ->]; [|apply Hn; assumption].
    destruct HP as [_ HP2]. cbn [b_set s2] in HP2. apply Mf in HP2. tauto. }
  destruct (src' (partner ps)) as [m|] eqn:En.
  2:{ exists s2. split; [reflexivity|]. apply Stop. intros [X _]. apply X. exact En. }
  rewrite land_bit_zero. destruct (N.testbit set2 (partner ps)) eqn:Eh; cbn [negb].
  { exists s2. split; [reflexivity|]. apply Stop. intros [_ X]. cbn [b_set s2] in X. rewrite Eh in X. discriminate. }
  assert (Hfar : base p <> base a /\ base p <> base c).
  { destruct Hcase as [(_ & X & Y)|X]; [exfalso|tauto]. subst p.
    destruct B6 as [[_ Z]|(Z & _)]; [|apply Z, base_partner]. subst ps. rewrite partner_partner, Ha2 in Eh. discriminate. }
  destruct (IH s2 a (partner ps)) as (s' & E' & W').
  { split.
    - assumption.
    - intros P HP Hn. apply Clean2; [assumption|tauto|]. intros X. apply Hn. right. rewrite base_partner, B1. assumption.
    - split; [cbn [b_src s2]; rewrite En; discriminate|exact Eh].
    - rewrite side_partner, B2, T7, (h_side s a c Hh). destruct (side a); reflexivity.
    - right. cbn [b_set s2]. rewrite partner_partner, base_partner, B1. split; [apply M; tauto|]. split; [assumption|apply Hfar]. }
  { unfold unset in *. cbn [b_set s2].
    assert (Hcb : c < N.of_nat bits) by (eapply (c_bnd1 s C); eassumption).
    assert (X : (particles (b_set s) bits < particles set2 bits)%nat).
    { apply (count_upto_lt _ _ _ (N.to_nat c)); unfold occupied.
      - intros j _ Hj. apply M. tauto.
      - clear -Hcb. lia.
      - rewrite N2Nat.id. assumption.
      - rewrite N2Nat.id. apply M. tauto. }
    pose proof (particles_le set2 bits) as Y. clear -X Y Hf. lia. }
  exists s'. split; [exact E'|]. eapply walked_trans; eassumption.
Qed.

(* ---- one pass over a pair, the whole stage ---- *)
Lemma aux_ok s a : common s -> src_clean s (fun b => b = base a) ->
  exists s', aux_step bits mask s a = Some s' /\ common s' /\ src_clean s' (fun b => b = base a) /\
    ~ open_at s' a /\ (forall p, open_at s' p -> open_at s p \/ open_at s (partner p)) /\
    (open_at s' (partner a) -> open_at s (partner a)).
Proof.
  intros C K. unfold aux_step. rewrite land_bit_zero. destruct (N.testbit (b_set s) a) eqn:Es; cbn [negb].
  { exists s. split; [reflexivity|]. split; [assumption|]. split; [assumption|]. split; [|tauto].
    intros [_ X]. rewrite Es in X. discriminate. }
  destruct (b_src s a) as [l|] eqn:El.
  2:{ exists s. split; [reflexivity|]. split; [assumption|]. split; [assumption|]. split; [|tauto].
      intros [X _]. apply X. assumption. }
  destruct (walk_ok (S bits) s a a) as (s' & E' & [W1 W2 W3 W4 W5]).
  { split; [assumption| | |reflexivity|left; reflexivity].
    - intros p Hp Hn. apply K; tauto.
    - split; [rewrite El; discriminate|assumption]. }
  { unfold unset. clear. lia. }
  exists s'. split; [assumption|]. split; [assumption|]. split; [assumption|]. split; [|split; assumption].
  intros [_ X]. rewrite W3 in X. discriminate.
Qed.

Lemma low_partner p : side p = false -> p + mask = partner p.
Proof.
  intros H. unfold partner. apply N.add_nocarry_lxor. apply N_bits_ext; intro i.
  rewrite N.land_spec, mask_bit, N.bits_0. destruct (N.eqb_spec i stage) as [->|]; [|apply andb_false_r].
  unfold side in H. rewrite H. reflexivity.
Qed.
Lemma high_partner p : side p = true -> p = partner p + mask.
Proof. intros H. rewrite low_partner; [symmetry; apply partner_partner|]. rewrite side_partner, H. reflexivity. Qed.

Lemma base_le p : base p <= p.
Proof.
  destruct (base_cases p) as [[-> _]|[-> H]]; [apply N.le_refl|]. rewrite (high_partner p H) at 2. apply N.le_add_r.
Qed.

Definition stage_inv (j : N) (s : bstate) : Prop :=
  common s /\ src_clean s (fun _ => False) /\ forall p, base p < j -> ~ open_at s p.

Lemma main_ok s j : stage_inv j s -> exists s', main_step bits st (Some s) j = Some s' /\ stage_inv (j + 1) s'.
Proof.
  intros (C & K & D). unfold main_step. fold stage. fold mask.
  assert (Hlow : (N.land j mask =? 0) = negb (side j)).
  { rewrite N.land_comm. apply land_bit_zero. }
  rewrite Hlow. destruct (side j) eqn:Ej; cbn [negb].
  { exists s. split; [reflexivity|]. split; [assumption|]. split; [assumption|].
    intros p Hp Ho. assert (base p <> j) by (intros X; pose proof (side_base p) as Y; rewrite X, Ej in Y; discriminate).
    apply (D p); [lia|assumption]. }
  rewrite N.shiftl_0_l, N.add_0_r.
  destruct (aux_ok s j C) as (s1 & E1 & C1 & K1 & N1 & O1 & P1).
  { intros p Hp _. apply K; tauto. }
  rewrite E1.
  rewrite (low_partner j Ej).
  destruct (aux_ok s1 (partner j) C1) as (s2 & E2 & C2 & K2 & N2 & O2 & P2).
  { intros p Hp Hn. apply K1; [assumption|]. rewrite base_partner in Hn. assumption. }
  rewrite E2. exists s2. split; [reflexivity|].
  assert (Hj : base j = j) by (destruct (base_cases j) as [[X _]|[_ X]]; [assumption|rewrite Ej in X; discriminate]).
  assert (Dj : forall p, base p = j -> ~ open_at s2 p).
  { intros p Hp. rewrite <- Hj in Hp. symmetry in Hp. destruct (base_eq j p Hp) as [->| ->]; [|assumption].
    intros X. apply N1. rewrite partner_partner in P2. apply P2. exact X. }
  split; [assumption|]. split.
  - intros p Hp _. apply K2; [assumption|]. rewrite base_partner, Hj. intros X. exact (Dj p X Hp).
  - intros p Hp Ho. destruct (N.eq_dec (base p) j) as [E|Ne]; [exact (Dj p E Ho)|].
    assert (Hlt : base p < j) by lia. assert (Hlt2 : base (partner p) < j) by (rewrite base_partner; assumption).
    destruct (O2 p Ho) as [X|X]; apply O1 in X; rewrite ?partner_partner in X; destruct X as [X|X];
      revert X; apply D; assumption.
Qed.

Lemma fold_main_ok : forall n j s, stage_inv (N.of_nat j) s ->
  exists s', fold_left (main_step bits st) (map N.of_nat (seq j n)) (Some s) = Some s' /\ stage_inv (N.of_nat (j + n)) s'.
Proof.
  induction n as [|n IH]; intros j s H; cbn [seq map fold_left].
  - exists s. rewrite Nat.add_0_r. split; [reflexivity|assumption].
  - destruct (main_ok s (N.of_nat j) H) as (s1 & E1 & H1). rewrite E1.
    destruct (IH (S j) s1) as (s' & E' & H').
    { replace (N.of_nat (S j)) with (N.of_nat j + 1) by lia. assumption. }
    exists s'. split; [exact E'|]. replace (j + S n)%nat with (S j + n)%nat by lia. assumption.
Qed.
End Stage.

Lemma gen_stage_ok st bits src isrc tgt itgt :
  (forall p, p < N.of_nat bits -> N.lxor p (N.shiftl 1 (N.of_nat st)) < N.of_nat bits) ->
  consist src isrc -> consist tgt itgt -> (forall l, isrc l = None <-> itgt l = None) ->
  (forall p l, src p = Some l -> p < N.of_nat bits) -> (forall p l, tgt p = Some l -> p < N.of_nat bits) ->
  exists s, gen_stage bits st src isrc tgt itgt = Some s /\
    common st bits src tgt s /\
    forall l p q, b_isrc s l = Some p -> b_itgt s l = Some q -> N.testbit p (N.of_nat st) = N.testbit q (N.of_nat st).
Proof.
  intros Hb C1 C2 L B1 B2.
  destruct (fold_main_ok st bits Hb src tgt bits 0 (mkB src isrc tgt itgt 0 0 0)) as (s & E & C & _ & D).
  { split; [|split].
    - split; cbn [b_src b_isrc b_tgt b_itgt b_csrc b_ctgt b_set]; try assumption.
      + intros p. rewrite sw_0. reflexivity.
      + intros p. rewrite sw_0. reflexivity.
      + intros i Hi. rewrite N.bits_0 in Hi. discriminate.
      + intros i Hi. rewrite N.bits_0 in Hi. discriminate.
      + intros l p q _ Hi. rewrite N.bits_0 in Hi. discriminate.
      + intros q l p _ _ _. split; [apply N.bits_0|]. intros; apply N.bits_0.
      + intros p Hi. rewrite N.bits_0 in Hi. discriminate.
    - intros p _ _. cbn [b_csrc b_set]. split; apply N.bits_0.
    - intros p Hp. exfalso. lia. }
  exists s. split; [exact E|]. split; [assumption|].
  intros l p q Hp Hq. apply (c_good _ _ _ _ _ C l p q); try assumption.
  destruct (N.testbit (b_set s) p) eqn:Es; [reflexivity|]. exfalso.
  assert (Hs : b_src s p = Some l) by (apply (c_src _ _ _ _ _ C); assumption).
  apply (D p).
  - pose proof (c_bnd1 _ _ _ _ _ C p l Hs). pose proof (base_le st p). lia.
  - split; [rewrite Hs; discriminate|assumption].
Qed.

(* ---------- network on words ---------- *)
Lemma step_bit st bits x cfg p :
  (forall p, p < N.of_nat bits -> N.lxor p (N.shiftl 1 (N.of_nat st)) < N.of_nat bits) ->
  ok_cfg st bits cfg ->
  N.testbit (bit_permute_step (N.of_nat bits) x cfg (2 ^ N.of_nat st)) p = N.testbit x (sw st cfg p).
Proof.
  intros Hb Ok. unfold bit_permute_step. set (w := N.of_nat bits). set (sh := 2 ^ N.of_nat st).
  assert (Esh : sh = N.shiftl 1 (N.of_nat st)) by (unfold sh; rewrite N.shiftl_1_l; reflexivity).
  rewrite !N.lxor_spec. set (t := N.land (N.lxor (N.shiftr x sh) x) cfg).
  assert (Et : forall i, N.testbit t i = xorb (N.testbit x (i + sh)) (N.testbit x i) && N.testbit cfg i).
  { intros i. unfold t. rewrite N.land_spec, N.lxor_spec, N.shiftr_spec'. reflexivity. }
  assert (E3 : N.testbit (N.shiftl t sh mod 2 ^ w) p = (p <? w) && (sh <=? p) && N.testbit t (p - sh)).
  { destruct (N.ltb_spec p w) as [L|L]; cbn [andb].
    - rewrite N.mod_pow2_bits_low by assumption. destruct (N.leb_spec sh p) as [L2|L2].
      + rewrite N.shiftl_spec_high' by assumption. reflexivity.
      + rewrite N.shiftl_spec_low by assumption. reflexivity.
    - apply N.mod_pow2_bits_high. assumption. }
  rewrite E3. clear E3.
  destruct (side st p) eqn:Es.
  - assert (Hc : N.testbit cfg p = false).
    { destruct (N.testbit cfg p) eqn:X; [|reflexivity]. apply Ok in X. rewrite Es in X. destruct X; discriminate. }
    rewrite (Et p), Hc, andb_false_r, xorb_false_r.
    pose proof (high_partner st p Es) as Hh. rewrite <- Esh in Hh.
    assert (Hge : sh <=? p = true) by (apply N.leb_le; lia). rewrite Hge, andb_true_r.
    replace (p - sh) with (partner st p) by lia.
    destruct (base_cases st p) as [[_ X]|[Hbp _]]; [rewrite X in Es; discriminate|].
    unfold sw. rewrite Hbp. rewrite Et, <- Hh.
    destruct (N.testbit cfg (partner st p)) eqn:Ec.
    + apply Ok in Ec. destruct Ec as [_ Ec]. apply Hb in Ec.
      change (N.lxor (partner st p) (N.shiftl 1 (N.of_nat st))) with (partner st (partner st p)) in Ec.
      rewrite partner_partner in Ec. fold w in Ec. apply N.ltb_lt in Ec. rewrite Ec.
      destruct (N.testbit x p), (N.testbit x (partner st p)); reflexivity.
    + rewrite andb_false_r, andb_false_r, xorb_false_r. reflexivity.
  - pose proof (low_partner st p Es) as Hlo. rewrite <- Esh in Hlo.
    destruct (base_cases st p) as [[Hbp _]|[_ X]]; [|rewrite X in Es; discriminate].
    unfold sw. rewrite Hbp.
    assert (Z : (p <? w) && (sh <=? p) && N.testbit t (p - sh) = false).
    { destruct (N.leb_spec sh p) as [L2|L2]; [|rewrite andb_false_r; reflexivity].
      rewrite Et. destruct (N.testbit cfg (p - sh)) eqn:Ec; [|rewrite andb_false_r, andb_false_r; reflexivity].
      apply Ok in Ec. destruct Ec as [Ec _]. exfalso.
      pose proof (low_partner st (p - sh) Ec) as Y. rewrite <- Esh in Y.
      assert (p = partner st (p - sh)) by lia. rewrite H in Es. rewrite side_partner, Ec in Es. discriminate. }
    rewrite Z, xorb_false_r, Et, Hlo.
    destruct (N.testbit cfg p); [|rewrite andb_false_r; apply xorb_false_r].
    rewrite andb_true_r. destruct (N.testbit x p), (N.testbit x (partner st p)); reflexivity.
Qed.

(* position maps of the two half networks *)
Fixpoint pm (ld : nat) (cfg : nat -> N) (p : N) : N :=
  match ld with O => p | S k => sw k (cfg k) (pm k cfg p) end.
Fixpoint ipm (ld : nat) (cfg : nat -> N) (p : N) : N :=
  match ld with O => p | S k => ipm k cfg (sw k (cfg k) p) end.

Lemma pm_ipm ld cfg p : pm ld cfg (ipm ld cfg p) = p.
Proof.
  revert p. induction ld as [|k IH]; intros p; cbn [pm ipm]; [reflexivity|]. rewrite IH. apply sw_sw.
Qed.

Section Net.
Variable L : nat.
Let bits := Nat.pow 2 L.

Lemma pow_bits : N.of_nat bits = 2 ^ N.of_nat L.
Proof. unfold bits. rewrite Nat2N.inj_pow. reflexivity. Qed.

Lemma pair_in_range k p : (k < L)%nat -> p < N.of_nat bits -> N.lxor p (N.shiftl 1 (N.of_nat k)) < N.of_nat bits.
Proof.
  intros Hk Hp. rewrite pow_bits in *. apply lxor_lt; [assumption|]. rewrite N.shiftl_1_l. apply N.pow_lt_mono_r; lia.
Qed.

Lemma bfly_bit ld cfg x p : (ld <= L)%nat -> (forall k, (k < ld)%nat -> ok_cfg k bits (cfg k)) ->
  N.testbit (bfly (N.of_nat bits) ld cfg x) p = N.testbit x (pm ld cfg p).
Proof.
  revert x p. induction ld as [|k IH]; intros x p Hl Ok; cbn [bfly pm]; [reflexivity|].
  rewrite IH by (try lia; intros; apply Ok; lia). apply step_bit; [intros; apply pair_in_range; [lia|assumption]|apply Ok; lia].
Qed.

Lemma ibfly_bit ld cfg x p : (ld <= L)%nat -> (forall k, (k < ld)%nat -> ok_cfg k bits (cfg k)) ->
  N.testbit (ibfly (N.of_nat bits) ld cfg x) p = N.testbit x (ipm ld cfg p).
Proof.
  revert p. induction ld as [|k IH]; intros p Hl Ok; cbn [ibfly ipm]; [reflexivity|].
  rewrite step_bit by (try (intros; apply pair_in_range; [lia|assumption]); apply Ok; lia).
  apply IH; [lia|intros; apply Ok; lia].
Qed.

Lemma gen_stages_ok : forall ld src isrc tgt itgt, (ld <= L)%nat ->
  consist src isrc -> consist tgt itgt -> (forall l, isrc l = None <-> itgt l = None) ->
  (forall p l, src p = Some l -> p < N.of_nat bits) -> (forall p l, tgt p = Some l -> p < N.of_nat bits) ->
  (forall l p q, isrc l = Some p -> itgt l = Some q -> forall i, N.of_nat ld <= i -> N.testbit p i = N.testbit q i) ->
  exists c1 c2, gen_stages bits ld src isrc tgt itgt = Some (c1, c2) /\
    (forall k, (k < ld)%nat -> ok_cfg k bits (c1 k)) /\ (forall k, (k < ld)%nat -> ok_cfg k bits (c2 k)) /\
    forall p, src (pm ld c1 p) = tgt (pm ld c2 p).
Proof.
  induction ld as [|k IH]; intros src isrc tgt itgt Hl C1 C2 Lb B1 B2 Ag; cbn [gen_stages].
  - eexists _, _. split; [reflexivity|]. split; [intros; lia|]. split; [intros; lia|].
    intros p. cbn [pm].
    assert (X : forall l p, src p = Some l <-> tgt p = Some l).
    { intros l r. split; intros H.
      - apply C1 in H. destruct (itgt l) as [q|] eqn:Eq; [|apply Lb in Eq; rewrite Eq in H; discriminate].
        assert (r = q) by (apply N_bits_ext; intro i; eapply Ag; [eassumption|eassumption|lia]). subst q. apply C2; assumption.
      - apply C2 in H. destruct (isrc l) as [q|] eqn:Eq; [|apply Lb in Eq; rewrite Eq in H; discriminate].
        assert (q = r) by (apply N_bits_ext; intro i; eapply Ag; [eassumption|eassumption|lia]). subst q. apply C1; assumption. }
    destruct (src p) as [l|] eqn:E1; [symmetry; apply X; assumption|].
    destruct (tgt p) as [l|] eqn:E2; [|reflexivity]. apply X in E2. rewrite E1 in E2. discriminate.
  - destruct (gen_stage_ok k bits src isrc tgt itgt) as (s & E & C & Sd); try assumption.
    { intros; apply pair_in_range; [lia|assumption]. }
    rewrite E.
    destruct (IH (b_src s) (b_isrc s) (b_tgt s) (b_itgt s)) as (c1 & c2 & E' & O1 & O2 & F); try apply C; [lia| |].
    { intros l p q Hp Hq i Hi. destruct (N.eq_dec i (N.of_nat k)) as [->|Ne]; [eapply Sd; eassumption|].
      apply (c_src _ _ _ _ _ C) in Hp. apply (c_tgt _ _ _ _ _ C) in Hq.
      rewrite (c_sw1 _ _ _ _ _ C) in Hp. rewrite (c_sw2 _ _ _ _ _ C) in Hq. apply C1 in Hp. apply C2 in Hq.
      assert (X : N.testbit (sw k (b_csrc s) p) i = N.testbit (sw k (b_ctgt s) q) i) by (eapply Ag; [eassumption|eassumption|lia]).
      assert (Y : forall c r, N.testbit (sw k c r) i = N.testbit r i).
      { intros c r. unfold sw. destruct (N.testbit c (base k r)); [|reflexivity].
        rewrite partner_bit. apply N.eqb_neq in Ne. rewrite Ne. apply xorb_false_r. }
      rewrite !Y in X. assumption. }
    rewrite E'. eexists _, _. split; [reflexivity|].
    assert (PM : forall (c : nat -> N) v j p, (j <= k)%nat -> pm j (fun i => if Nat.eqb i k then v else c i) p = pm j c p).
    { intros c v. induction j as [|j IHj]; intros p Hj; cbn [pm]; [reflexivity|].
      rewrite IHj by lia. replace (Nat.eqb j k) with false by (symmetry; apply Nat.eqb_neq; lia). reflexivity. }
    split; [|split].
    + intros j Hj. destruct (Nat.eqb_spec j k) as [->|]; [apply (c_ok1 _ _ _ _ _ C)|apply O1; lia].
    + intros j Hj. destruct (Nat.eqb_spec j k) as [->|]; [apply (c_ok2 _ _ _ _ _ C)|apply O2; lia].
    + intros p. cbn [pm]. rewrite !PM, Nat.eqb_refl by lia.
      rewrite <- (c_sw1 _ _ _ _ _ C), <- (c_sw2 _ _ _ _ _ C). apply F.
Qed.

Lemma in_iota i : In i (iota bits) <-> i < N.of_nat bits.
Proof.
  unfold iota. rewrite in_map_iff. split.
  - intros (j & <- & Hj). apply in_seq in Hj. lia.
  - intros H. exists (N.to_nat i). split; [apply N2Nat.id|]. apply in_seq. lia.
Qed.

Lemma invert_perm_fold (src : arr) : (forall i j l, src i = Some l -> src j = Some l -> i = j) ->
  forall lst acc l i,
   fold_left (fun tgt i => match src i with Some v => upd tgt v (Some i) | None => tgt end) lst acc l = Some i <->
   (In i lst /\ src i = Some l) \/ ((forall j, In j lst -> src j <> Some l) /\ acc l = Some i).
Proof.
  intros Inj. induction lst as [|x lst IH]; intros acc l i; cbn [fold_left In].
  - split; [intros H; right; split; [tauto|assumption]|intros [[[] _]|[_ H]]; assumption].
  - rewrite IH. destruct (src x) as [v|] eqn:Ex.
    + destruct (N.eq_dec l v) as [->|Ne].
      * rewrite upd_eq. split.
        -- intros [[H1 H2]|[H1 H2]]; [left; tauto|]. injection H2 as <-. left. split; [left; reflexivity|assumption].
        -- intros [[[->|H1] H2]|[H1 H2]].
           ++ destruct (in_dec N.eq_dec i lst) as [I|I]; [left; split; assumption|].
              right. split; [|reflexivity]. intros j Hj E. assert (j = i) by (eapply Inj; eassumption). subst j. contradiction.
           ++ left; split; assumption.
           ++ exfalso. apply (H1 x); [left; reflexivity|assumption].
      * rewrite upd_neq by assumption. split.
        -- intros [[H1 H2]|[H1 H2]]; [left; tauto|]. right. split; [|assumption].
           intros j [<-|Hj]; [rewrite Ex; intros X; injection X as ->; apply Ne; reflexivity|apply H1; assumption].
        -- intros [[[->|H1] H2]|[H1 H2]].
           ++ rewrite Ex in H2. injection H2 as ->. exfalso; apply Ne; reflexivity.
           ++ left; split; assumption.
           ++ right. split; [intros j Hj; apply H1; right; assumption|assumption].
    + split.
      * intros [[H1 H2]|[H1 H2]]; [left; tauto|]. right. split; [|assumption].
        intros j [<-|Hj]; [rewrite Ex; discriminate|apply H1; assumption].
      * intros [[[->|H1] H2]|[H1 H2]].
        -- rewrite Ex in H2; discriminate.
        -- left; split; assumption.
        -- right. split; [intros j Hj; apply H1; right; assumption|assumption].
Qed.

Lemma invert_perm_spec src : (forall i j l, src i = Some l -> src j = Some l -> i = j) ->
  forall l i, invert_perm bits src l = Some i <-> i < N.of_nat bits /\ src i = Some l.
Proof.
  intros Inj l i. unfold invert_perm. rewrite invert_perm_fold by assumption. rewrite in_iota. unfold empty_arr. split.
  - intros [H|[_ H]]; [assumption|discriminate].
  - tauto.
Qed.

Lemma tgt_init (c_tgt : arr) : forall lst acc p,
  fold_left (fun a s => match c_tgt s with Some _ => upd a s (Some s) | None => a end) lst acc p =
  if existsb (N.eqb p) lst then match c_tgt p with Some _ => Some p | None => acc p end else acc p.
Proof.
  induction lst as [|x lst IH]; intros acc p; cbn [fold_left existsb]; [reflexivity|].
  rewrite IH. destruct (N.eqb_spec p x) as [->|Ne]; cbn [orb].
  - destruct (c_tgt x) eqn:E; [|destruct (existsb (N.eqb x) lst); reflexivity].
    rewrite upd_eq. destruct (existsb (N.eqb x) lst); reflexivity.
  - destruct (c_tgt x) eqn:E; [rewrite upd_neq by assumption|]; reflexivity.
Qed.

Lemma tgt_init_spec (c_tgt : arr) p s :
  fold_left (fun a s => match c_tgt s with Some _ => upd a s (Some s) | None => a end) (iota bits) empty_arr p = Some s <->
  p = s /\ s < N.of_nat bits /\ c_tgt s <> None.
Proof.
  rewrite tgt_init. unfold empty_arr.
  assert (X : existsb (N.eqb p) (iota bits) = true <-> p < N.of_nat bits).
  { rewrite existsb_exists, <- in_iota. split.
    - intros (y & Hy & E). apply N.eqb_eq in E. subst. assumption.
    - intros H. exists p. split; [assumption|apply N.eqb_refl]. }
  destruct (existsb (N.eqb p) (iota bits)).
  - destruct (c_tgt p) as [v|] eqn:E.
    + split; [intros H; injection H as <-; repeat split; [apply X; reflexivity|rewrite E; discriminate]|].
      intros (-> & _ & _). reflexivity.
    + split; [discriminate|]. intros (-> & _ & H). contradiction.
  - split; [discriminate|]. intros (-> & H & _). apply X in H. discriminate.
Qed.

Theorem benes_ok (c_tgt : arr) :
  (forall i j v, c_tgt i = Some v -> c_tgt j = Some v -> i = j) ->
  (forall i v, c_tgt i = Some v -> i < N.of_nat bits /\ v < N.of_nat bits) ->
  exists net, gen_benes L c_tgt = Some net /\
    (forall x s v, c_tgt s = Some v -> N.testbit (benes_bwd L net x) v = N.testbit x s) /\
    (forall v, (forall s, c_tgt s <> Some v) ->
       exists s, c_tgt s = None /\ forall x, N.testbit (benes_bwd L net x) v = N.testbit x s) /\
    (forall x s v, c_tgt s = Some v -> N.testbit (benes_fwd L net x) s = N.testbit x v).
Proof.
  intros Inj Rng. unfold gen_benes. fold bits.
  set (tgt := fold_left (fun a s => match c_tgt s with Some _ => upd a s (Some s) | None => a end) (iota bits) empty_arr).
  change (fold_left (fun a s => match c_tgt s with Some v => upd a v (Some s) | None => a end) (iota bits) empty_arr)
    with (invert_perm bits c_tgt).
  set (src := invert_perm bits c_tgt).
  assert (Hsrc : forall p l, src p = Some l <-> c_tgt l = Some p).
  { intros p l. unfold src. rewrite invert_perm_spec by assumption. split; [tauto|]. intros H. split; [exact (proj1 (Rng _ _ H))|assumption]. }
  assert (Htgt : forall p l, tgt p = Some l <-> p = l /\ c_tgt l <> None).
  { intros p l. unfold tgt. rewrite tgt_init_spec. split; [tauto|]. intros [-> H]. split; [reflexivity|]. split; [|assumption].
    destruct (c_tgt l) as [v|] eqn:E; [|contradiction]. exact (proj1 (Rng _ _ E)). }
  assert (Isrc : forall i j l, src i = Some l -> src j = Some l -> i = j).
  { intros i j l Hi Hj. apply Hsrc in Hi. apply Hsrc in Hj. rewrite Hi in Hj. injection Hj as ->. reflexivity. }
  assert (Itgt : forall i j l, tgt i = Some l -> tgt j = Some l -> i = j).
  { intros i j l Hi Hj. apply Htgt in Hi. apply Htgt in Hj. destruct Hi as [-> _], Hj as [-> _]. reflexivity. }
  assert (Bs : forall p l, src p = Some l -> p < N.of_nat bits).
  { intros p l H. apply Hsrc in H. exact (proj2 (Rng _ _ H)). }
  assert (Bt : forall p l, tgt p = Some l -> p < N.of_nat bits).
  { intros p l H. apply Htgt in H. destruct H as [-> H]. destruct (c_tgt l) as [v|] eqn:E; [|contradiction]. exact (proj1 (Rng _ _ E)). }
  assert (Cs : consist src (invert_perm bits src)).
  { intros p l. rewrite invert_perm_spec by assumption. split; [|tauto]. intros H. split; [eapply Bs; eassumption|assumption]. }
  assert (Ct : consist tgt (invert_perm bits tgt)).
  { intros p l. rewrite invert_perm_spec by assumption. split; [|tauto]. intros H. split; [eapply Bt; eassumption|assumption]. }
  destruct (gen_stages_ok L src (invert_perm bits src) tgt (invert_perm bits tgt)) as (c1 & c2 & E & O1 & O2 & F);
    try assumption; [lia| | |].
  { intros l. split; intros H.
    - destruct (invert_perm bits tgt l) as [q|] eqn:Eq; [|reflexivity]. apply Ct in Eq. apply Htgt in Eq. destruct Eq as [-> Eq].
      destruct (c_tgt l) as [v|] eqn:Ev; [|contradiction]. apply Hsrc in Ev. apply Cs in Ev. rewrite H in Ev. discriminate.
    - destruct (invert_perm bits src l) as [q|] eqn:Eq; [|reflexivity]. apply Cs in Eq. apply Hsrc in Eq.
      assert (X : tgt l = Some l) by (apply Htgt; split; [reflexivity|rewrite Eq; discriminate]).
      apply Ct in X. rewrite H in X. discriminate. }
  { intros l p q Hp Hq i Hi. apply Cs, Bs in Hp. apply Ct, Bt in Hq. rewrite pow_bits in *.
    rewrite (testbit_small p (N.of_nat L) i), (testbit_small q (N.of_nat L) i) by assumption. reflexivity. }
  exists (c1, c2). split; [assumption|].
  assert (Bw : forall x v, N.testbit (benes_bwd L (c1, c2) x) v = N.testbit x (pm L c2 (ipm L c1 v))).
  { intros x v. unfold benes_bwd. cbn [fst snd]. fold bits. rewrite ibfly_bit, bfly_bit by (lia || assumption). reflexivity. }
  split; [|split].
  - intros x s v Hv. rewrite Bw. f_equal.
    assert (X : tgt (pm L c2 (ipm L c1 v)) = Some s) by (rewrite <- F, pm_ipm; apply Hsrc; assumption).
    apply Htgt in X. apply X.
  - intros v Hv. exists (pm L c2 (ipm L c1 v)). split; [|intros x; apply Bw].
    assert (X : tgt (pm L c2 (ipm L c1 v)) = None).
    { rewrite <- F, pm_ipm. destruct (src v) as [s|] eqn:Es; [|reflexivity]. apply Hsrc in Es. exfalso; exact (Hv s Es). }
    destruct (c_tgt (pm L c2 (ipm L c1 v))) as [u|] eqn:Eu; [|reflexivity]. exfalso.
    assert (Y : tgt (pm L c2 (ipm L c1 v)) = Some (pm L c2 (ipm L c1 v))) by (apply Htgt; split; [reflexivity|rewrite Eu; discriminate]).
    rewrite X in Y. discriminate.
  - intros x s v Hv. unfold benes_fwd. cbn [fst snd]. fold bits. rewrite ibfly_bit, bfly_bit by (lia || assumption). f_equal.
    assert (X : src (pm L c1 (ipm L c2 s)) = Some s) by (rewrite F, pm_ipm; apply Htgt; split; [reflexivity|rewrite Hv; discriminate]).
    apply Hsrc in X. rewrite Hv in X. injection X as ->. reflexivity.
Qed.
End Net.
