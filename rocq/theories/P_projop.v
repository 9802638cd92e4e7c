(* The projector and the vector transformations are given by the symmetrised states. *)
From Verif Require Import AuxN SpecC SpecSymm SpecSector SpecBasis SpecIndex SpecOps SpecProj M_symm M_index M_proj P_symm P_norm P_symminst P_index P_proj P_symop.
Local Open Scope nat_scope.

Fixpoint wordr (d : nat) (g : list nat) : list nat := match g with [] => [] | x :: g' => repeat d x ++ wordr (S d) g' end.
Lemma wordr_word g : word g = wordr 0 g.
Proof.
  unfold word. enough (H : forall g k, flat_map (fun d => repeat d (nth (d - k) g 0)) (seq k (length g)) = wordr k g).
  { rewrite <- H. apply flat_map_ext. intros d. rewrite Nat.sub_0_r. reflexivity. }
  clear g. induction g as [|x g IH]; intros k; [reflexivity|]. cbn [length seq flat_map wordr]. rewrite Nat.sub_diag. cbn [nth]. f_equal.
  rewrite <- IH. rewrite !flat_map_concat_map. f_equal. apply map_ext_in. intros d Hd. apply in_seq in Hd. replace (d - k) with (S (d - S k)) by lia. reflexivity.
Qed.
Fixpoint thr (qs : list Z) (pers : list nat) (d : nat) (g : list nat) : R := match g with [] => 0%R | x :: g' => (ks qs pers d * INR x + thr qs pers (S d) g')%R end.
Lemma thr_theta qs pers g : length g = length pers -> theta qs pers g = thr qs pers 0 g.
Proof.
  intros E. unfold theta. rewrite <- E. enough (H : forall g k, Rsum (seq k (length g)) (fun d => ks qs pers d * INR (nth (d - k) g 0%nat))%R = thr qs pers k g).
  { rewrite <- H. apply Rsum_ext. intros d _. rewrite Nat.sub_0_r. reflexivity. }
  clear E g. induction g as [|x g IH]; intros k; [reflexivity|]. cbn [length seq thr]. unfold Rsum. cbn [fold_right]. rewrite Nat.sub_diag. cbn [nth]. f_equal.
  rewrite <- IH. apply Rsum_ext. intros d Hd. apply in_seq in Hd. replace (d - k) with (S (d - S k)) by lia. reflexivity.
Qed.
Lemma fold_prod l : fold_left Nat.mul l 1 = group_order l.
Proof.
  assert (H : forall l a, fold_left Nat.mul l a = a * group_order l); [|rewrite H; lia].
  clear. induction l as [|x l IH]; intros a; cbn [fold_left group_order fold_right]; [lia|]. rewrite IH. unfold group_order. lia.
Qed.
Lemma cis_step q j : cis (q * INR (S j)) = (cis (q * INR j) * cis q)%C.
Proof. rewrite <- cis_add. f_equal. rewrite S_INR. ring. Qed.

Section Walk.
Variables (D : N -> Prop) (nt : nat) (pers : list nat) (ms : smap) (qs : list Z).
Hypothesis HG : good_maps D nt pers ms.
Notation P d := (nth d pers 0).
Notation T d := (sact ms d).
Notation kq d := (ks qs pers d).

(* the visited (state, sign) and factors *)
Fixpoint wl (dir : R) (rem depth : nat) (x : N * Z) (c : C) : list (N * Z * C) :=
  match rem with
  | O => [(x, c)]
  | S rem' => flat_map (fun j => wl dir rem' (S depth) (Nat.iter j (T depth) x) (c * cis (dir * kq depth * INR j))%C) (seq 0 (P depth))
  end.
Lemma wl_group dir rem : forall depth x c, depth + rem = nt ->
  wl dir rem depth x c = map (fun g => (sapply ms (wordr depth g) x, (c * cis (dir * thr qs pers depth g))%C)) (group (skipn depth pers)).
Proof.
  pose proof (gm_len _ _ _ _ HG) as HL. induction rem as [|rem IH]; intros depth x c Hd.
  - rewrite skipn_all2 by lia. cbn [wl group map wordr thr sapply fold_left]. rewrite Rmult_0_r, cis_0. f_equal. f_equal. ring.
  - assert (E : skipn depth pers = P depth :: skipn (S depth) pers).
    { clear - HL Hd. revert depth Hd HL. revert nt. induction pers as [|p l IHl]; intros nt depth Hd HL; [cbn in HL; lia|]. destruct depth as [|depth]; [reflexivity|].
      cbn [skipn nth]. apply (IHl (pred nt)); cbn [length] in *; lia. }
    rewrite E. cbn [wl group]. rewrite !flat_map_concat_map, concat_map, !map_map. f_equal. apply map_ext. intros j. rewrite IH by lia. rewrite map_map.
    apply map_ext. intros g. cbn [wordr thr]. rewrite (sapply_app ms), (sapply_repeat ms). f_equal.
    replace (dir * (kq depth * INR j + thr qs pers (S depth) g))%R with (dir * kq depth * INR j + dir * thr qs pers (S depth) g)%R by ring. rewrite cis_add. ring.
Qed.
Lemma wl_top dir s c : wl dir nt 0 (s, 1%Z) c = map (fun g => (gact ms g s, (c * cis (dir * theta qs pers g))%C)) (group pers).
Proof.
  rewrite (wl_group dir nt 0 (s, 1%Z) c eq_refl). cbn [skipn]. apply map_ext_in. intros g Hg. apply (group_in pers ms) in Hg. destruct Hg as [Hg _].
  unfold gact. rewrite wordr_word, (thr_theta qs pers g Hg). reflexivity.
Qed.

Section Upd.
Context {X : Type}.
Variable upd : N -> Z -> C -> X -> X * bool.
Fixpoint upd_all (l : list (N * Z * C)) (o : X) : X * bool :=
  match l with [] => (o, true) | (x, c) :: l' => let (o', ok) := upd (fst x) (snd x) c o in if ok then upd_all l' o' else (o', false) end.
Lemma upd_all_app l l' o : upd_all (l ++ l') o = let (o', ok) := upd_all l o in if ok then upd_all l' o' else (o', false).
Proof. revert o. induction l as [|[x c] l IH]; intros o; [reflexivity|]. cbn [app upd_all]. destruct (upd _ _ c o) as [o' []]; [apply IH|reflexivity]. Qed.
Lemma walk_upd dir rem : forall depth s ph c o, depth + rem = nt -> D s ->
  exists ph', walk_rep upd dir pers qs ms rem depth s c (ph, o) = ((ph', fst (upd_all (wl dir rem depth (s, ph) c) o)), snd (upd_all (wl dir rem depth (s, ph) c) o)) /\
    (snd (upd_all (wl dir rem depth (s, ph) c) o) = true -> ph' = ph).
Proof.
  induction rem as [|rem IH]; intros depth s ph c o Hd Hs.
  - exists ph. split; [|reflexivity]. cbn [walk_rep wl upd_all fst snd]. destruct (upd s ph c o) as [o' []]; reflexivity.
  - assert (Hdn : depth < nt) by lia. set (cc := cis (dir * (2 * PI * IZR (nth depth qs 0%Z) / INR (nth depth pers 0%nat)))).
    set (step := fun st : N * C * (Z * X) =>
        let (po', ok) := walk_rep upd dir pers qs ms rem (S depth) (fst (fst st)) (snd (fst st)) (snd st) in
        if ok then ((fst (ms depth (fst (fst st))), (snd (fst st) * cc)%C, ((fst po' * snd (ms depth (fst (fst st))))%Z, snd po')), true)
        else ((fst (fst st), snd (fst st), po'), false)).
    (* j iterations starting with iteration i *)
    assert (G : forall j i o, let x := Nat.iter i (T depth) (s, ph) in let l := flat_map (fun k => wl dir rem (S depth) (Nat.iter k (T depth) (s, ph)) (c * cis (dir * kq depth * INR k))%C) (seq i j) in
      exists st, loop_err j step (fst x, (c * cis (dir * kq depth * INR i))%C, (snd x, o)) = (st, snd (upd_all l o)) /\ snd (snd st) = fst (upd_all l o) /\
        (snd (upd_all l o) = true -> fst (snd st) = snd (Nat.iter (i + j) (T depth) (s, ph)))).
    { induction j as [|j IHj]; intros i o0 x l.
      - eexists. split; [reflexivity|]. split; [reflexivity|]. intros _. rewrite Nat.add_0_r. reflexivity.
      - cbn [loop_err]. unfold l. cbn [seq flat_map]. rewrite upd_all_app. unfold step at 1. cbn [fst snd].
        assert (Dx : D (fst x)) by (apply (iterT_dom D nt pers ms HG); assumption).
        destruct (IH (S depth) (fst x) (snd x) (c * cis (dir * kq depth * INR i))%C o0 ltac:(lia) Dx) as (ph' & E & Hph). rewrite E. fold x. rewrite <- surjective_pairing in E, Hph |- *.
        destruct (upd_all (wl dir rem (S depth) x (c * cis (dir * kq depth * INR i))%C) o0) as [o' ok] eqn:EU. cbn [fst snd] in E, Hph |- *.
        destruct ok.
        + rewrite (Hph eq_refl). specialize (IHj (S i) o'). cbv zeta in IHj. rewrite iter_S in IHj. fold x in IHj. unfold sact in IHj at 1 2. cbn [fst snd] in IHj.
          rewrite cis_step in IHj. replace (c * (cis (dir * kq depth * INR i) * cis (dir * kq depth)))%C with (c * cis (dir * kq depth * INR i) * cc)%C in IHj by (unfold cc, ks; ring).
          replace (i + S j) with (S i + j) by lia. exact IHj.
        + eexists. split; [reflexivity|]. split; [reflexivity|]. discriminate. }
    cbn [walk_rep]. change (cis (dir * (2 * PI * IZR (nth depth qs 0%Z) / INR (nth depth pers 0%nat)))) with cc. fold step.
    specialize (G (P depth) 0 o). cbv zeta in G. cbn [Nat.iter nat_rect fst snd INR] in G. rewrite Rmult_0_r, cis_0 in G. replace (c * C1)%C with c in G by ring.
    cbn [wl]. destruct G as (st & E & E1 & E2). rewrite E. cbn [Nat.add] in E2. destruct st as [st0 [ph' o']]. cbn [fst snd] in E1, E2 |- *.
    exists ph'. rewrite E1. split; [reflexivity|]. intros H. rewrite (E2 H). change (nth depth pers 0) with (P depth). rewrite (T_period D nt pers ms HG depth (s, ph) Hdn Hs). reflexivity.
Qed.
End Upd.

(* adding up *)
Definition all_real : Prop := forall d, d < nt -> sin (kq d) = 0%R.
Lemma wl_real rem : forall dir depth x c, (dir = 1 \/ dir = -1)%R -> depth + rem = nt -> all_real -> snd c = 0%R -> Forall (fun v => snd (snd v) = 0%R) (wl dir rem depth x c).
Proof.
  induction rem as [|rem IH]; intros dir depth x c Hdir Hd HR Hc; cbn [wl]; [constructor; [exact Hc|constructor]|].
  apply Forall_flat_map. apply Forall_forall. intros j _. apply IH; [exact Hdir|lia|exact HR|].
  assert (K : forall j, snd (cis (dir * kq depth * INR j)) = 0%R).
  { assert (K1 : snd (cis (dir * kq depth)) = 0%R).
    { cbn [cis snd]. pose proof (HR depth ltac:(lia)). destruct Hdir as [-> | ->]; [rewrite Rmult_1_l; exact H|]. replace (-1 * kq depth)%R with (- kq depth)%R by ring. rewrite sin_neg, H. ring. }
    induction j0 as [|j0 IHj]; [cbn [INR]; rewrite Rmult_0_r, cis_0; reflexivity|]. rewrite cis_step. unfold Cmul. cbn [snd]. rewrite IHj, K1. ring. }
  unfold Cmul. cbn [snd]. rewrite Hc, K. ring.
Qed.
Lemma not_too_complex real c : real = false \/ snd c = 0%R -> too_complex real c = false.
Proof.
  unfold too_complex. intros [->|H]; [reflexivity|]. rewrite H, Rabs_R0. destruct (Rlt_dec (11 / 10 ^ 16) 0) as [L|]; [|rewrite andb_false_r; reflexivity].
  exfalso. assert (0 < 11 / 10 ^ 16)%R by (apply Rdiv_lt_0_compat; [lra|apply pow_lt; lra]). lra.
Qed.
Lemma real_part_as real c : real_part real c = as_type real c. Proof. reflexivity. Qed.
Lemma upd_all_sum real (tgt : N -> Z) (val : N -> C) l : forall out,
  let r := upd_all (fun s ph c out => update_out real c ph (val s) (tgt s) out) l out in
  (snd r = true -> forall i, fst r i = (out i + Csum l (fun v => if (i =? tgt (fst (fst v)))%Z then RtoC (IZR (snd (fst v))) * as_type real (snd v) * val (fst (fst v)) else C0))%C) /\
  (real = false \/ Forall (fun v => snd (snd v) = 0%R) l -> snd r = true).
Proof.
  induction l as [|[x c] l IH]; intros out r.
  - split; [|reflexivity]. intros _ i. unfold r. cbn [upd_all fst]. rewrite Csum_nil. ring.
  - unfold r. cbn [upd_all]. destruct (update_out real c (snd x) (val (fst x)) (tgt (fst x)) out) as [out' ok] eqn:EU. unfold update_out in EU.
    destruct (too_complex real c) eqn:E; injection EU as <- <-; cbn [fst snd].
    + split; [discriminate|]. intros H. rewrite not_too_complex in E; [discriminate|]. destruct H as [H|H]; [left; exact H|right]. inversion H. assumption.
    + match goal with |- context [upd_all _ l ?o] => set (out' := o) end. destruct (IH out') as [H1 H2]. split.
      * intros Hok i. rewrite (H1 Hok i), Csum_cons. unfold out'. cbn [fst snd]. destruct (i =? tgt (fst x))%Z; [rewrite real_part_as|]; ring.
      * intros H. apply H2. destruct H as [H|H]; [left; exact H|right]. inversion H. assumption.
Qed.

(* ---- one representative ---- *)
Variables (S : N -> Prop) (sts : list N).
Hypothesis SD : forall s, S s -> D s.
Hypothesis SC : closed_under S nt ms.
Hypothesis Hnd : NoDup sts.
Hypothesis Hin : forall s, In s sts <-> S s.
Variable idx : N -> Z.
(* states that have a row *)
Variable E : N -> Prop.
Hypothesis SE : forall s, S s -> E s.
Hypothesis idx_inj : forall s t, S s -> E t -> idx s = idx t -> s = t.
Notation V := (symm_state pers qs ms).
Notation stn s := (Z.of_nat (stabilisers pers ms s)).
Lemma rep_factor_nrm s : rep_factor pers (stn s) = nrm pers ms s.
Proof. unfold rep_factor, nrm. rewrite fold_prod, <- INR_IZR_INZ. f_equal. unfold Rdiv. ring. Qed.
Lemma rep_factor_real n : snd (rep_factor pers n) = 0%R. Proof. reflexivity. Qed.
Lemma as_type_mulR real x z : as_type real (RtoC x * z)%C = (RtoC x * as_type real z)%C.
Proof. destruct real; cbn; apply C_eq; cbn; ring. Qed.
Lemma as_type_if real (b : bool) z : as_type real (if b then z else C0) = if b then as_type real z else C0.
Proof. destruct b; [reflexivity|apply as_type_0]. Qed.
Lemma gS g s : In g (group pers) -> S s -> S (fst (gact ms g s)).
Proof. intros Hg Hs. apply (act_S D nt pers ms S sts SD SC Hin); [apply (group_valid D nt pers ms HG), Hg|exact Hs]. Qed.
Lemma from_rep_ok real s x out : S s ->
  let r := project_from_rep real idx pers qs ms nt x s (rep_factor pers (stn s)) out in
  (snd r = true -> (forall t, E t -> fst r (idx t) = (out (idx t) + as_type real (V s t) * x)%C) /\
                   (forall i, (forall g, In g (group pers) -> i <> idx (fst (gact ms g s))) -> fst r i = out i)) /\
  (real = false \/ all_real -> snd r = true).
Proof.
  intros Hs r. unfold r, project_from_rep.
  destruct (walk_upd (fun s ph c out => update_out real c ph x (idx s) out) (-1) nt 0 s 1 (rep_factor pers (stn s)) out eq_refl (SD s Hs)) as (ph' & EE & _). rewrite EE. cbn [fst snd]. clear EE r.
  destruct (upd_all_sum real idx (fun _ => x) (wl (-1) nt 0 (s, 1%Z) (rep_factor pers (stn s))) out) as [H1 H2]. cbv zeta in H1, H2. split.
  - intros Hok. specialize (H1 Hok). rewrite wl_top in H1. split.
    + intros t Ht. rewrite wl_top, H1, Csum_map. f_equal. unfold symm_state. fold (nrm pers ms s). rewrite <- rep_factor_nrm.
      transitivity (Csum (group pers) (fun g => as_type real (rep_factor pers (stn s) * (if (fst (gact ms g s) =? t)%N then RtoC (IZR (snd (gact ms g s))) * Cconj (cis (theta qs pers g)) else C0)) * x))%C.
      2:{ rewrite Csum_mul_r. f_equal. rewrite <- as_type_sum. f_equal. rewrite Csum_mul_l. reflexivity. }
      apply Csum_ext. intros g Hg. cbn [fst snd]. destruct (N.eqb_spec (fst (gact ms g s)) t) as [Et|Nt].
      * rewrite Et, Z.eqb_refl. f_equal. rewrite <- as_type_mulR. f_equal. replace (-1 * theta qs pers g)%R with (- theta qs pers g)%R by ring. rewrite <- cis_conj. ring.
      * destruct (Z.eqb_spec (idx t) (idx (fst (gact ms g s)))) as [Ei|Ni]; [exfalso; apply Nt; apply idx_inj; [apply gS; assumption|exact Ht|symmetry; exact Ei]|].
        replace (rep_factor pers (stn s) * C0)%C with C0 by ring. rewrite as_type_0. ring.
    + intros i Hi. rewrite wl_top, H1, Csum_map, Csum_zero; [ring|]. intros g Hg. cbn [fst snd]. destruct (Z.eqb_spec i (idx (fst (gact ms g s)))) as [EE|_]; [exfalso; exact (Hi g Hg EE)|reflexivity].
  - intros H. apply H2. destruct H as [H|H]; [left; exact H|right]. apply wl_real; [right; reflexivity|reflexivity|exact H|apply rep_factor_real].
Qed.
(* cj: exp(iq) at every step, otherwise exp(-iq) *)
Lemma to_rep_ok (cj real : bool) s inp out k : S s ->
  let r := to_walk real idx pers qs ms nt (if cj then 1 else -1)%R inp s (rep_factor pers (stn s)) out k in
  (snd r = true -> fst r k = (out k + Csum sts (fun t => as_type real (if cj then Cconj (V s t) else V s t) * inp (idx t)))%C /\ (forall i, i <> k -> fst r i = out i)) /\
  (real = false \/ all_real -> snd r = true).
Proof.
  intros Hs r. unfold r, to_walk. set (dir := (if cj then 1 else -1)%R).
  destruct (walk_upd (fun s ph c out => update_out real c ph (inp (idx s)) k out) dir nt 0 s 1 (rep_factor pers (stn s)) out eq_refl (SD s Hs)) as (ph' & EE & _). rewrite EE. cbn [fst snd]. clear EE r.
  destruct (upd_all_sum real (fun _ => k) (fun s => inp (idx s)) (wl dir nt 0 (s, 1%Z) (rep_factor pers (stn s))) out) as [H1 H2]. cbv zeta in H1, H2. split.
  - intros Hok. specialize (H1 Hok). rewrite wl_top in H1. split.
    + rewrite wl_top, H1, Csum_map. f_equal. rewrite Z.eqb_refl. cbn [fst snd].
      transitivity (Csum sts (fun t => Csum (group pers) (fun g => if (fst (gact ms g s) =? t)%N then RtoC (IZR (snd (gact ms g s))) * as_type real (rep_factor pers (stn s) * cis (dir * theta qs pers g)) * inp (idx t) else C0)))%C.
      * rewrite Csum_swap. apply Csum_ext. intros g Hg. rewrite (Csum_single sts _ (fst (gact ms g s)) Hnd).
        -- rewrite N.eqb_refl. reflexivity.
        -- apply Hin. apply gS; assumption.
        -- intros t _ Nt. destruct (N.eqb_spec (fst (gact ms g s)) t); [congruence|reflexivity].
      * apply Csum_ext. intros t _.
        assert (EV : (if cj then Cconj (V s t) else V s t) = Csum (group pers) (fun g => rep_factor pers (stn s) * if (fst (gact ms g s) =? t)%N then RtoC (IZR (snd (gact ms g s))) * cis (dir * theta qs pers g) else C0)%C).
        { rewrite Csum_mul_l. unfold symm_state. fold (nrm pers ms s). rewrite <- rep_factor_nrm. unfold dir. destruct cj.
          - rewrite Cconj_mul, Csum_conj. unfold rep_factor at 1. rewrite Cconj_RtoC. fold (rep_factor pers (stn s)). f_equal. apply Csum_ext. intros g _. destruct (fst (gact ms g s) =? t)%N; [|apply C_eq; cbn; ring].
            rewrite Cconj_mul, Cconj_RtoC, Cconj_invol, Rmult_1_l. reflexivity.
          - f_equal. apply Csum_ext. intros g _. destruct (fst (gact ms g s) =? t)%N; [|reflexivity]. replace (-1 * theta qs pers g)%R with (- theta qs pers g)%R by ring. rewrite <- cis_conj. reflexivity. }
        rewrite EV, as_type_sum, <- Csum_mul_r. apply Csum_ext. intros g _. destruct (fst (gact ms g s) =? t)%N.
        -- f_equal. rewrite <- as_type_mulR. f_equal. ring.
        -- replace (rep_factor pers (stn s) * C0)%C with C0 by ring. rewrite as_type_0. ring.
    + intros i Hi. rewrite wl_top, H1, Csum_map, Csum_zero; [ring|]. intros g Hg. destruct (Z.eqb_spec i k); [contradiction|reflexivity].
  - intros H. apply H2. destruct H as [H|H]; [left; exact H|right]. apply wl_real; [unfold dir; destruct cj; tauto|reflexivity|exact H|apply rep_factor_real].
Qed.
Lemma V_real s t : all_real -> forall real, as_type real (V s t) = V s t.
Proof.
  intros HR [|]; [|reflexivity]. cbn. apply C_eq; [reflexivity|]. cbn [snd RtoC]. unfold symm_state. fold (nrm pers ms s). rewrite <- rep_factor_nrm, <- Csum_mul_l.
  pose proof (wl_real nt (-1) 0 (s, 1%Z) (rep_factor pers (stn s)) ltac:(right; reflexivity) eq_refl HR eq_refl) as HF. rewrite wl_top, Forall_map, Forall_forall in HF.
  assert (K : forall (l : list (list nat)) f, (forall g, In g l -> snd (f g) = 0%R) -> snd (Csum l f) = 0%R).
  { induction l as [|g l IHl]; intros f Hf; [reflexivity|]. rewrite Csum_cons. unfold Cadd. cbn [snd]. rewrite (Hf g (or_introl eq_refl)), IHl; [ring|]. intros g' Hg'. apply Hf. right. exact Hg'. }
  symmetry. apply K. intros g Hg. specialize (HF g Hg). cbn [snd fst] in HF. destruct (fst (gact ms g s) =? t)%N; [|cbn; ring].
  replace (-1 * theta qs pers g)%R with (- theta qs pers g)%R in HF by ring. rewrite <- cis_conj in HF. cbn in *. rewrite Rmult_0_l, Rplus_0_r in *. rewrite Rmult_0_l, Rplus_0_r.
  transitivity (IZR (snd (gact ms g s)) * (1 / sqrt (IZR (stn s) * INR (fold_left Nat.mul pers 1%nat)) * - sin (theta qs pers g)))%R; [ring|]. rewrite HF. ring.
Qed.

(* ---- whole basis ---- *)
Variable L : list (N * Z).
Hypothesis HL : lists_decreasing (in_block S nt pers qs ms) L.
Notation st i := (fst (nth i L (0%N, 0%Z))).
Lemma L_at i : i < length L -> S (st i) /\ is_rep nt ms (st i) /\ compatible pers qs ms (st i) /\ snd (nth i L (0%N, 0%Z)) = stn (st i).
Proof. intros Hi. apply (L_nth nt pers ms qs S L HL i Hi). Qed.
Lemma from_disjoint i j g h : i < length L -> j < length L -> i <> j -> In g (group pers) -> In h (group pers) ->
  idx (fst (gact ms g (st i))) <> idx (fst (gact ms h (st j))).
Proof.
  intros Hi Hj Ne Hg Hh EE. destruct (L_at i Hi) as (Si & Ri & _). destruct (L_at j Hj) as (Sj & Rj & _).
  apply idx_inj in EE; [|apply gS; assumption|apply SE, gS; assumption]. apply Ne. apply (L_inj nt pers ms qs S L HL i j Hi Hj).
  pose proof (proj1 (group_valid D nt pers ms HG g) Hg) as Vg. pose proof (proj1 (group_valid D nt pers ms HG h) Hh) as Vh.
  pose proof (reach_act D nt pers ms HG g (st i) Vg (SD _ Si)) as R1. pose proof (reach_act D nt pers ms HG h (st j) Vh (SD _ Sj)) as R2.
  assert (R : reach nt ms (st i) (st j)).
  { eapply (reach_trans nt ms); [exact R1|]. rewrite EE. eapply (reach_sym D nt pers ms HG); [apply SD, Sj|exact R2]. }
  apply N.le_antisymm; [|apply Ri; exact R]. apply Rj. eapply (reach_sym D nt pers ms HG); [apply SD, Si|exact R].
Qed.
Lemma from_dense_ok real v order : Forall (fun k => k < length L) order -> forall out,
  let r := project_from_dense real idx pers qs ms nt L order v out in
  (snd r = true -> forall t, E t -> fst r (idx t) = (out (idx t) + Csum order (fun k => as_type real (V (st k) t) * v k))%C) /\
  (real = false \/ all_real -> snd r = true).
Proof.
  induction order as [|k order IH]; intros HF out r.
  - split; [|reflexivity]. intros _ t Ht. cbn [project_from_dense fst r]. unfold r. rewrite Csum_nil. cbn [project_from_dense fst]. ring.
  - inversion HF as [|? ? Hk HF']. subst. destruct (L_at k Hk) as (Sk & _ & _ & Ek). unfold r. cbn [project_from_dense]. rewrite Ek.
    destruct (from_rep_ok real (st k) (v k) out Sk) as [H1 H2]. cbv zeta in H1, H2.
    destruct (project_from_rep real idx pers qs ms nt (v k) (st k) (rep_factor pers (stn (st k))) out) as [out' ok]. cbn [fst snd] in H1, H2. destruct ok.
    + destruct (IH HF' out') as [I1 I2]. split; [|exact I2]. intros Hok t Ht. rewrite (I1 Hok t Ht), (proj1 (H1 eq_refl) t Ht), Csum_cons. ring.
    + split; [discriminate|]. intros H. exact (H2 H).
Qed.
Lemma to_dense_ok (cj real : bool) inp order : Forall (fun k => k < length L) order -> NoDup order -> forall out,
  let r := project_to_dense (to_walk real idx pers qs ms nt (if cj then 1 else -1)%R inp) pers L order out in
  (snd r = true -> forall k, fst r (Z.of_nat k) = (out (Z.of_nat k) + if existsb (Nat.eqb k) order then Csum sts (fun t => as_type real (if cj then Cconj (V (st k) t) else V (st k) t) * inp (idx t)) else C0)%C) /\
  (real = false \/ all_real -> snd r = true).
Proof.
  induction order as [|k order IH]; intros HF HN out r.
  - split; [|reflexivity]. intros _ k. unfold r. cbn [project_to_dense fst existsb]. ring.
  - inversion HF as [|? ? Hk HF']. inversion HN as [|? ? Nk HN']. subst. destruct (L_at k Hk) as (Sk & _ & _ & Ek). unfold r. cbn [project_to_dense]. rewrite Ek.
    destruct (to_rep_ok cj real (st k) inp out (Z.of_nat k) Sk) as [H1 H2]. cbv zeta in H1, H2.
    destruct (to_walk real idx pers qs ms nt (if cj then 1 else -1)%R inp (st k) (rep_factor pers (stn (st k))) out (Z.of_nat k)) as [out' ok]. cbn [fst snd] in H1, H2. destruct ok.
    + destruct (IH HF' HN' out') as [I1 I2]. split; [|exact I2]. intros Hok k'. rewrite (I1 Hok k'). cbn [existsb]. destruct (H1 eq_refl) as [A1 A2]. destruct (Nat.eqb_spec k' k) as [->|Ne]; cbn [orb].
      * rewrite A1. replace (existsb (Nat.eqb k) order) with false; [ring|]. symmetry. apply not_true_is_false. intros X. apply existsb_exists in X. destruct X as (y & Hy & Ey). apply Nat.eqb_eq in Ey. subst. contradiction.
      * rewrite A2 by lia. reflexivity.
    + split; [discriminate|]. intros H. exact (H2 H).
Qed.

(* ---- get_proj ---- *)
Lemma cc_cis d : (cos (kq d), (- sin (kq d))%R) = cis (- kq d).
Proof. unfold cis. rewrite cos_neg, sin_neg. reflexivity. Qed.
Lemma cis_per d j : d < nt -> cis (- kq d * INR (j + P d)) = cis (- kq d * INR j).
Proof.
  intros Hd. pose proof (gm_pos _ _ _ _ HG d Hd) as Hp. rewrite plus_INR.
  replace (- kq d * (INR j + INR (P d)))%R with (- kq d * INR j + 2 * PI * IZR (- nth d qs 0%Z))%R.
  - rewrite cis_add, cis_2PI. ring.
  - unfold ks. rewrite opp_IZR. field. apply not_0_INR. lia.
Qed.
Lemma helper_ok real nnt : (real = false \/ all_real) -> forall depth s sg c (Pc : Z -> C), depth + nnt = nt -> 0 < nnt -> D s -> (sg = 1 \/ sg = -1)%Z ->
  exists P', proj_helper real idx pers qs ms nnt depth ((s, sg, c), Pc) = (((s, sg, c), P'), true) /\
    forall i, P' i = (Pc i + Csum (wl (-1) nnt depth (s, sg) c) (fun v => if (i =? idx (fst (fst v)))%Z then RtoC (IZR (snd (fst v))) * snd v else C0))%C.
Proof.
  intros HR. induction nnt as [|nnt IH]; intros depth s sg c Pc Hd Hpos Hs Hsg; [lia|]. assert (Hdn : depth < nt) by lia.
  cbn [proj_helper]. change (2 * PI * IZR (nth depth qs 0%Z) / INR (nth depth pers 0%nat))%R with (kq depth). rewrite cc_cis.
  match goal with |- context [loop_err _ ?f _] => set (step := f) end.
  assert (RP : real_part real (cis (- kq depth)) = cis (- kq depth)).
  { unfold real_part. destruct real; [|reflexivity]. destruct HR as [HR|HR]; [discriminate|]. apply C_eq; [reflexivity|]. cbn. rewrite sin_neg, (HR depth Hdn). ring. }
  assert (TC : too_complex real (cis (- kq depth)) = false).
  { apply not_too_complex. destruct HR as [HR|HR]; [left; exact HR|right]. cbn. rewrite sin_neg, (HR depth Hdn). ring. }
  assert (SG : forall j, (snd (Nat.iter j (T depth) (s, sg)) = 1 \/ snd (Nat.iter j (T depth) (s, sg)) = -1)%Z).
  { induction j as [|j IHj]; [exact Hsg|]. rewrite iter_S. unfold sact at 1 3. cbn [snd].
    pose proof (gm_sign _ _ _ _ HG depth (fst (Nat.iter j (T depth) (s, sg))) Hdn (iterT_dom D nt pers ms HG depth j (s, sg) Hdn Hs)) as G.
    destruct IHj as [-> | ->], G as [-> | ->]; cbn; tauto. }
  assert (G : forall j i Q, let x := Nat.iter i (T depth) (s, sg) in
     exists Q', loop_err j step ((fst x, snd x, (c * cis (- kq depth * INR i))%C), Q) =
       (((fst (Nat.iter (i + j) (T depth) (s, sg)), snd (Nat.iter (i + j) (T depth) (s, sg)), (c * cis (- kq depth * INR (i + j)))%C), Q'), true) /\
       forall r, Q' r = (Q r + Csum (flat_map (fun k => wl (-1) nnt (Datatypes.S depth) (Nat.iter k (T depth) (s, sg)) (c * cis (-1 * kq depth * INR k))%C) (seq i j))
          (fun v => if (r =? idx (fst (fst v)))%Z then RtoC (IZR (snd (fst v))) * snd v else C0))%C).
  { induction j as [|j IHj]; intros i Q x.
    - exists Q. rewrite Nat.add_0_r. split; [reflexivity|]. intros r. cbn [seq flat_map]. rewrite Csum_nil. ring.
    - assert (Dx : D (fst x)) by (apply (iterT_dom D nt pers ms HG); assumption).
      assert (ST : exists Q1, step ((fst x, snd x, (c * cis (- kq depth * INR i))%C), Q) =
          (((fst (T depth x), snd (T depth x), (c * cis (- kq depth * INR (Datatypes.S i)))%C), Q1), true) /\
          forall r, Q1 r = (Q r + Csum (wl (-1) nnt (Datatypes.S depth) x (c * cis (-1 * kq depth * INR i))%C) (fun v => if (r =? idx (fst (fst v)))%Z then RtoC (IZR (snd (fst v))) * snd v else C0))%C).
      { unfold step. rewrite TC, RP. destruct nnt as [|nnt'].
        - eexists. split.
          + cbv beta iota zeta. match goal with |- (((_, _, ?a), _), _) = (((_, _, ?b), _), _) => assert (EC : a = b); [|rewrite EC; reflexivity] end. rewrite cis_step. specialize (SG i). fold x in SG. pose proof (Cpm (snd x) SG) as E2.
            transitivity (c * cis (- kq depth * INR i) * cis (- kq depth) * (RtoC (IZR (snd x)) * RtoC (IZR (snd x))))%C; [ring|]. rewrite E2. ring.
          + intros r. cbn [wl]. rewrite Csum_cons, Csum_nil. cbn [fst snd]. replace (-1 * kq depth * INR i)%R with (- kq depth * INR i)%R by ring. destruct (r =? idx (fst x))%Z; ring.
        - destruct (IH (Datatypes.S depth) (fst x) (snd x) (c * cis (- kq depth * INR i))%C Q ltac:(lia) ltac:(lia) Dx (SG i)) as (Q1 & E1 & H1). rewrite E1. exists Q1. split.
          + cbv beta iota zeta. match goal with |- (((_, _, ?a), _), _) = (((_, _, ?b), _), _) => assert (EC : a = b); [|rewrite EC; reflexivity] end. rewrite cis_step. ring.
          + intros r. rewrite H1, <- surjective_pairing. replace (-1 * kq depth * INR i)%R with (- kq depth * INR i)%R by ring. reflexivity. }
      destruct ST as (Q1 & E1 & H1). cbn [loop_err]. rewrite E1. destruct (IHj (Datatypes.S i) Q1) as (Q2 & E2 & H2). cbv zeta in E2. rewrite iter_S in E2. fold x in E2.
      exists Q2. rewrite E2. replace (i + Datatypes.S j) with (Datatypes.S i + j) by lia. split; [reflexivity|]. intros r. rewrite H2, H1. cbn [seq flat_map]. rewrite Csum_app. fold x. ring. }
  destruct (G (P depth) 0 Pc) as (Q & EE & H). cbv zeta in EE. cbn [Nat.iter nat_rect fst snd INR] in EE. rewrite Rmult_0_r, cis_0 in EE. replace (c * C1)%C with c in EE by ring.
  exists Q. rewrite EE. split.
  - f_equal. f_equal. cbn [Nat.add]. pose proof (T_period D nt pers ms HG depth (s, sg) Hdn Hs) as E3. change (nth depth pers 0) with (P depth). cbn [Nat.iter] in E3. rewrite E3. cbn [fst snd]. f_equal.
    pose proof (cis_per depth 0 Hdn) as E4. cbn [Nat.add INR] in E4. rewrite E4, Rmult_0_r, cis_0. ring.
  - intros i. cbn [wl]. exact (H i).
Qed.
(* a real type with a complex character is refused before anything has been modified *)
Lemma helper_refused nnt : forall depth st, depth + nnt = nt -> 0 < nnt -> (exists d, depth <= d < nt /\ too_complex true (cis (- kq d)) = true) ->
  proj_helper true idx pers qs ms nnt depth st = (st, false).
Proof.
  induction nnt as [|nnt IH]; intros depth st Hd Hpos (d & Hdd & Hc); [lia|]. cbn [proj_helper].
  change (2 * PI * IZR (nth depth qs 0%Z) / INR (nth depth pers 0%nat))%R with (kq depth). rewrite cc_cis.
  pose proof (gm_pos _ _ _ _ HG depth ltac:(lia)) as Hp. destruct (P depth) as [|p] eqn:Ep; [lia|]. cbn [loop_err].
  destruct (too_complex true (cis (- kq depth))) eqn:EE; [reflexivity|].
  destruct (Nat.eq_dec d depth) as [->|Nd]; [congruence|]. destruct nnt as [|nnt']; [lia|].
  assert (HE : exists d, Datatypes.S depth <= d < nt /\ too_complex true (cis (- kq d)) = true) by (exists d; split; [lia|exact Hc]).
  rewrite (IH (Datatypes.S depth) st ltac:(lia) ltac:(lia) HE). destruct st as [[[s sg] c] Q]. reflexivity.
Qed.
Lemma column_ok real pcon k s : S s -> (nt = 0 -> pcon = true -> idx s = Z.of_nat k) -> (real = false \/ all_real) ->
  let r := get_proj_column real pcon idx pers qs ms nt k s (stn s) in
  fst r = (s, true) /\ forall t, E t -> snd r (idx t) = V s t.
Proof.
  intros Hs Hpc HR r. pose proof (gm_len _ _ _ _ HG) as HLen. unfold r, get_proj_column. destruct (Nat.eqb_spec nt 0) as [E0|N0].
  - assert (E1 : pers = []) by (apply length_zero_iff_nil; lia). rewrite !E1.
    assert (EV : forall t, symm_state [] qs ms s t = (rep_factor [] (Z.of_nat (stabilisers [] ms s)) * if (s =? t)%N then C1 else C0)%C).
    { intros t. unfold symm_state. fold (nrm [] ms s). unfold rep_factor, nrm. rewrite <- INR_IZR_INZ. change (fold_left Nat.mul [] 1) with 1. change (group_order []) with 1.
      unfold Rdiv. rewrite Rmult_1_l. f_equal. cbn [group]. rewrite Csum_cons, Csum_nil. change (gact ms [] s) with (s, 1%Z). cbn [fst snd]. unfold theta. cbn [length seq]. cbn [Rsum fold_right]. rewrite cis_0.
      destruct (s =? t)%N; [apply C_eq; cbn; ring|ring]. }
    assert (En : rep_factor [] (Z.of_nat (stabilisers [] ms s)) = C1).
    { unfold rep_factor. change (stabilisers [] ms s) with (length (if (s =? s)%N then [@nil nat] else [])). rewrite N.eqb_refl. cbn. rewrite Rmult_1_l, sqrt_1. apply C_eq; cbn; field. }
    destruct pcon; cbn [fst snd]; (split; [reflexivity|]); intros t Ht; rewrite EV, En.
    + rewrite <- (Hpc E0 eq_refl). destruct (Z.eqb_spec (idx t) (idx s)) as [EE|Ne]; destruct (N.eqb_spec s t) as [E'|Ne']; try ring.
      * exfalso. apply Ne'. apply idx_inj; [assumption|assumption|symmetry; assumption].
      * exfalso. apply Ne. rewrite E'. reflexivity.
    + destruct (Z.eqb_spec (idx t) (idx s)) as [EE|Ne]; destruct (N.eqb_spec s t) as [E'|Ne']; try ring.
      * exfalso. apply Ne'. apply idx_inj; [assumption|assumption|symmetry; assumption].
      * exfalso. apply Ne. rewrite E'. reflexivity.
  - destruct (helper_ok real nt HR 0 s 1 (rep_factor pers (stn s)) (fun _ => C0) eq_refl ltac:(lia) (SD s Hs) ltac:(left; reflexivity)) as (Q & EE & HQ). rewrite EE. cbn [fst snd]. split; [reflexivity|].
    intros t Ht. rewrite HQ, wl_top, Csum_map. unfold symm_state. fold (nrm pers ms s). rewrite <- rep_factor_nrm, <- Csum_mul_l.
    match goal with |- (C0 + ?a)%C = _ => replace (C0 + a)%C with a by ring end. apply Csum_ext. intros g Hg. cbn [fst snd]. destruct (N.eqb_spec (fst (gact ms g s)) t) as [Et|Nt].
    + rewrite Et, Z.eqb_refl. replace (-1 * theta qs pers g)%R with (- theta qs pers g)%R by ring. rewrite <- cis_conj. ring.
    + destruct (Z.eqb_spec (idx t) (idx (fst (gact ms g s)))) as [Ei|Ni]; [exfalso; apply Nt; apply idx_inj; [apply gS; assumption|exact Ht|symmetry; exact Ei]|ring].
Qed.
End Walk.
