(* Families of words with normal forms: a head followed by translations. *)
From Verif Require Import AuxN SpecMaps SpecFermi SpecChain M_bits1d SpecChain1d SpecCheck1d M_check1d P_maps P_square P_bits1d P_bits1d4 P_bits1d5 P_check1d P_check1d2.
Local Open Scope nat_scope.

Section F.
Variables (w : btype) (k : kind) (L T : nat).
Hypothesis SF : states_fit w k L.
Notation st s := (s < levels k ^ N.of_nat (sites k L))%N.
Notation sto := (sto w k L T).
Notation sgo := (sgo w k L T).
Notation lok := (lok w k L T).
Notation rep := (repeat LT).
Notation tr := (tr w k L T).
Notation sr := (sr w k L T).
Notation LZ_ := (Z.of_nat L).
Notation TZ := (Z.of_nat T).

Definition okf (two : bool) (l : letter) : Prop := lok l /\ (if two then has_sublattices k /\ fam2 L T l else fam1 l).
Definition mf (two : bool) : e1 -> letter -> e1 := if two then m2 T else m1 T.
Definition e0 : e1 := (false, false, 0%Z).
Definition el (two : bool) (u : list letter) : e1 := fold_left (mf two) u e0.
Lemma okf_lok two u : Forall (okf two) u -> Forall lok u. Proof. apply Forall_impl. intros l []; assumption. Qed.
Lemma same_el two u v : Forall (okf two) u -> Forall (okf two) v -> eq1 L (el two u) (el two v) -> forall s, st s -> sto u s = sto v s /\ sgo u s = sgo v s.
Proof.
  intros Hu Hv E. pose proof (okf_lok two u Hu) as Lu. pose proof (okf_lok two v Hv) as Lv. destruct two.
  - assert (F2 : forall x, Forall (okf true) x -> Forall (fam2 L T) x) by (intros x; apply Forall_impl; intros l [_ []]; assumption).
    destruct u as [|a u]; [destruct v as [|b v]; [intros; split; reflexivity|]|].
    + assert (HS : has_sublattices k) by (inversion Hv as [|? ? [_ []]]; assumption). apply same2; try assumption; apply F2; assumption.
    + assert (HS : has_sublattices k) by (inversion Hu as [|? ? [_ []]]; assumption). apply same2; try assumption; apply F2; assumption.
  - assert (F1 : forall x, Forall (okf false) x -> Forall fam1 x) by (intros x; apply Forall_impl; intros l []; assumption). apply same1; try assumption; apply F1; assumption.
Qed.
(* heads *)
Definition hd2 (e : e1) : bool * bool := fst e.
Definition mh (two : bool) (h : bool * bool) (l : letter) : bool * bool := fst (mf two (h, 0%Z) l).
Lemma mf_head two e l : fst (mf two e l) = mh two (fst e) l.
Proof. destruct e as [[a b] y], two, l; reflexivity. Qed.
Lemma fold_head two g : forall e, fst (fold_left (mf two) g e) = fold_left (mh two) g (fst e).
Proof. induction g as [|l g IH]; intros e; [reflexivity|]. cbn [fold_left]. rewrite IH, mf_head. reflexivity. Qed.
Lemma mf_dvd two e l : (TZ | snd e)%Z -> (TZ | snd (mf two e l))%Z.
Proof. destruct e as [[a b] y]. intros H. destruct two, l; cbn [mf m1 m2 snd] in *; try assumption; try (apply Z.divide_sub_r; [exact H|apply Z.divide_refl]); apply Z.divide_opp_r; exact H. Qed.
Lemma mf_zero two e l : l <> LT -> snd e = 0%Z -> snd (mf two e l) = 0%Z.
Proof. destruct e as [[a b] y]. intros Hl H. cbn [snd] in H. subst y. destruct two, l; cbn [mf m1 m2 snd]; try reflexivity; try (destruct (Hl eq_refl)). Qed.
Lemma fold_rep two i : forall e, fold_left (mf two) (rep i) e = (fst e, snd e - TZ * Z.of_nat i)%Z.
Proof.
  induction i as [|i IH]; intros [[a b] y]; [cbn [repeat fold_left fst snd]; f_equal; lia|]. cbn [repeat fold_left]. rewrite IH. destruct two; cbn [mf m1 m2 fst snd]; f_equal; lia.
Qed.

Section G.
Variables (two tf : bool) (gens pres : list (list letter)).
Hypothesis HTL : 1 <= T /\ exists n, L = T * n.
Hypothesis Gok : forall g, In g gens -> Forall (okf two) g.
Hypothesis Pok : forall p, In p pres -> Forall (okf two) p.
Hypothesis GT : if tf then In [LT] gens else forall g, In g gens -> ~ In LT g.
Hypothesis Pgen : forall p, In p pres -> product_of gens p.
Hypothesis Pnil : In [] pres.
Hypothesis Pno : forall p, In p pres -> ~ In LT p.
Hypothesis Pcl : forall p g, In p pres -> In g gens -> exists p', In p' pres /\ fold_left (mh two) g (fst (el two p)) = fst (el two p').
Let n := L / T.
Lemma Ln : L = T * n. Proof. unfold n. destruct HTL as [H1 [m E]]. rewrite E. rewrite (Nat.mul_comm T m), Nat.div_mul by (clear - H1; lia). apply Nat.mul_comm. Qed.
Lemma L1' : 1 <= L. Proof. exact (HL1 w k L SF). Qed.
Lemma n1 : 1 <= n. Proof. pose proof Ln. pose proof L1'. destruct n; lia. Qed.
Lemma Pzero p : In p pres -> snd (el two p) = 0%Z.
Proof.
  intros H. apply Pno in H. unfold el. assert (G : forall e, snd e = 0%Z -> snd (fold_left (mf two) p e) = 0%Z); [|apply G; reflexivity]. induction p as [|l p IH]; intros e He; [exact He|]. cbn [fold_left]. apply IH; [intros X; apply H; right; exact X|].
  apply mf_zero; [intros ->; apply H; left; reflexivity|exact He].
Qed.
Lemma prod_ok word : product_of gens word -> Forall (okf two) word.
Proof. intros (gs & H & ->). apply Forall_forall. intros l Hl. apply in_concat in Hl. destruct Hl as (g & Hg & Hl). rewrite Forall_forall in H. pose proof (Gok g (H g Hg)) as X. rewrite Forall_forall in X. apply X, Hl. Qed.
Lemma fold_dvd g : forall e, (TZ | snd e)%Z -> (TZ | snd (fold_left (mf two) g e))%Z.
Proof. induction g as [|l g IH]; intros e He; [exact He|]. cbn [fold_left]. apply IH, mf_dvd, He. Qed.
Lemma fold_zero g : ~ In LT g -> forall e, snd e = 0%Z -> snd (fold_left (mf two) g e) = 0%Z.
Proof. intros H. induction g as [|l g IH]; intros e He; [exact He|]. cbn [fold_left]. apply IH; [intros X; apply H; right; exact X|]. apply mf_zero; [intros ->; apply H; left; reflexivity|exact He]. Qed.
Lemma norm_head gs : Forall (fun g => In g gens) gs -> forall p e, In p pres -> fst e = fst (el two p) -> (TZ | snd e)%Z -> (tf = false -> snd e = 0%Z) ->
  exists p', In p' pres /\ fst (fold_left (mf two) (concat gs) e) = fst (el two p') /\ (TZ | snd (fold_left (mf two) (concat gs) e))%Z /\ (tf = false -> snd (fold_left (mf two) (concat gs) e) = 0%Z).
Proof.
  induction 1 as [|g gs Hg _ IH]; intros p e Hp He Hd Hz; [exists p; auto|]. cbn [concat]. rewrite fold_left_app. destruct (Pcl p g Hp Hg) as (p1 & Hp1 & E1).
  apply (IH p1); [exact Hp1|rewrite fold_head, He; exact E1|apply fold_dvd, Hd|]. intros F. apply fold_zero; [|apply Hz, F]. rewrite F in GT. apply GT, Hg.
Qed.
Lemma rep_gen i : tf = true -> product_of gens (rep i).
Proof. intros F. rewrite F in GT. exists (repeat [LT] i). split; [apply Forall_forall; intros g Hg; apply repeat_spec in Hg; subst; exact GT|]. induction i as [|i IH]; [reflexivity|]. cbn [repeat concat app]. rewrite <- IH. reflexivity. Qed.
Lemma gen_app u v : product_of gens u -> product_of gens v -> product_of gens (u ++ v).
Proof. intros (a & Ha & ->) (b & Hb & ->). exists (a ++ b). split; [apply Forall_app; auto|]. rewrite concat_app. reflexivity. Qed.
Definition top (i : nat) : Prop := tf = true \/ i = 0.
Lemma pr_gen p i : In p pres -> top i -> product_of gens (p ++ rep i).
Proof. intros Hp [F| ->]; [apply gen_app; [apply Pgen, Hp|apply rep_gen, F]|]. cbn [repeat]. rewrite app_nil_r. apply Pgen, Hp. Qed.
Lemma rep_okf i : tf = true -> Forall (okf two) (rep i). Proof. intros F. apply prod_ok, rep_gen, F. Qed.
(* every word has a normal form, with the same element *)
Lemma norm_el word : product_of gens word -> exists p i, In p pres /\ top i /\ eq1 L (el two word) (el two (p ++ rep i)).
Proof.
  intros (gs & Hg & ->). destruct (norm_head gs Hg [] e0 Pnil eq_refl ltac:(apply Z.divide_0_r) ltac:(reflexivity)) as (p & Hp & E1 & [z Ez] & Zz). fold (el two (concat gs)) in *.
  pose proof Ln as HL. pose proof n1 as Hn. destruct tf eqn:F.
  - exists p, (Z.to_nat ((- z) mod Z.of_nat n)). split; [exact Hp|]. split; [left; exact F|]. unfold el at 2. rewrite fold_left_app, fold_rep. fold (el two p). split; [exact E1|]. cbn [snd]. rewrite Ez, (Pzero p Hp).
    rewrite Z2Nat.id by (apply Z.mod_pos_bound; lia). rewrite (Z.mod_eq (- z)) by lia. assert (HLz : LZ_ = (TZ * Z.of_nat n)%Z) by lia.
    replace (0 - TZ * (- z - Z.of_nat n * (- z / Z.of_nat n)))%Z with (z * TZ + (- z / Z.of_nat n) * LZ_)%Z by (rewrite HLz; ring). rewrite Z.mod_add by lia. reflexivity.
  - exists p, 0. split; [exact Hp|]. split; [right; reflexivity|]. cbn [repeat]. rewrite app_nil_r. split; [exact E1|]. rewrite (Pzero p Hp), Zz; [reflexivity|exact eq_refl].
Qed.
Lemma norm word : product_of gens word -> exists p i, In p pres /\ top i /\ eq1 L (el two word) (el two (p ++ rep i)) /\ forall s, st s -> sto word s = tr s p i /\ sgo word s = sr s p i.
Proof. intros Hw. destruct (norm_el word Hw) as (p & i & Hp & Ht & E). exists p, i. split; [exact Hp|]. split; [exact Ht|]. split; [exact E|]. unfold P_check1d2.tr, P_check1d2.sr. apply (same_el two); [apply prod_ok, Hw|apply prod_ok, pr_gen; assumption|exact E]. Qed.
Lemma plok p i : In p pres -> top i -> Forall lok (p ++ rep i). Proof. intros Hp Ht. apply (okf_lok two), prod_ok, pr_gen; assumption. Qed.
Lemma extremal_iff s : st s -> (extremal w k L T gens s <-> forall p i, In p pres -> top i -> (tr s p i <= s)%N).
Proof.
  intros Hs. split.
  - intros E p i Hp Ht. apply (E (p ++ rep i) _ (sr s p i)); [apply pr_gen; assumption|]. apply reaches_iff; [exact SF|apply plok; assumption|exact Hs|]. split; reflexivity.
  - intros E word t g Hw Hr. apply reaches_iff in Hr; [|exact SF|apply (okf_lok two), prod_ok, Hw|exact Hs]. destruct Hr as [-> _]. destruct (norm word Hw) as (p & i & Hp & Ht & _ & Q). destruct (Q s Hs) as [-> _]. apply E; assumption.
Qed.

(* ---- phases ---- *)
Variable q : quanta.
Notation ph := (phase L T q).
Notation pho := (phase_of L T q).
Definition psi (e : e1) : Z :=
  let '(a, b, y) := e in ((if a then half_turn L (if two then q_a q else q_p q) else 0) + (if b then half_turn L (if two then q_b q else q_z q) else 0) - 2 * Z.of_nat (q_k q) * y)%Z.
Definition cg (x y : Z) : Prop := ((x - y) mod (2 * LZ_) = 0)%Z.
Lemma cg_ex x y : cg x y <-> exists z, (x = y + z * (2 * LZ_))%Z.
Proof. pose proof L1'. unfold cg. rewrite Z.mod_divide by lia. split; intros [z Hz]; exists z; lia. Qed.
Definition gentle (l : letter) : Prop := match l with LP => tf = false \/ (2 * q_k q) mod L = 0 | LZ => two = false | _ => True end.
Lemma psi_step e l : okf two l -> gentle l -> (tf = false -> snd e = 0%Z) -> cg (psi (mf two e l)) (psi e + ph l).
Proof.
  pose proof L1' as HL. intros [_ Ho] Hg Hz. apply cg_ex. destruct e as [[a b] y]. cbn [snd] in Hz. unfold psi, gentle in *.
  assert (H2 : forall x b, exists z, ((if negb b then half_turn L x else 0) = (if b then half_turn L x else 0) + half_turn L x + z * (2 * LZ_))%Z).
  { intros x c. unfold half_turn. destruct (x <? 0)%Z, c; cbn [negb]; first [exists 0%Z; lia|exists (-1)%Z; lia]. }
  destruct two; cbn [mf].
  - destruct l; cbn [m2 phase fam2] in *; try destruct Ho as [_ []]; try discriminate.
    + exists 0%Z. lia.
    + destruct (H2 (q_a q) a) as [z Hz']. exists z. rewrite Hz'. ring.
    + destruct (H2 (q_b q) b) as [z Hz']. exists z. rewrite Hz'. ring.
  - destruct l; cbn [m1 phase fam1] in *; try destruct Ho.
    + exists 0%Z. lia.
    + destruct (H2 (q_p q) a) as [z Hz']. destruct Hg as [F|F].
      * rewrite (Hz F). exists z. rewrite Hz'. ring.
      * apply Nat.mod_divide in F; [|lia]. destruct F as [c Hc]. exists (z + Z.of_nat c * y)%Z. replace (2 * Z.of_nat (q_k q))%Z with (Z.of_nat c * LZ_)%Z by lia. rewrite Hz'. ring.
    + destruct (H2 (q_z q) b) as [z Hz']. exists z. rewrite Hz'. ring.
Qed.
Hypothesis Gen : forall g, In g gens -> Forall gentle g.
Lemma gen_letters word : product_of gens word -> Forall (fun l => okf two l /\ gentle l /\ (tf = false -> l <> LT)) word.
Proof.
  intros (gs & H & ->). apply Forall_forall. intros l Hl. apply in_concat in Hl. destruct Hl as (g & Hg & Hl). rewrite Forall_forall in H. specialize (H g Hg). pose proof (Gok g H) as X. pose proof (Gen g H) as Y. rewrite Forall_forall in X, Y. split; [apply X, Hl|]. split; [apply Y, Hl|]. intros F ->. rewrite F in GT. exact (GT g H Hl).
Qed.
Lemma psi_word word : Forall (fun l => okf two l /\ gentle l /\ (tf = false -> l <> LT)) word -> forall e, (tf = false -> snd e = 0%Z) -> cg (psi (fold_left (mf two) word e)) (psi e + pho word).
Proof.
  induction 1 as [|l word (H1 & H2 & H3) _ IH]; intros e He; [apply cg_ex; exists 0%Z; cbn; lia|]. cbn [fold_left phase_of fold_right]. fold (pho word).
  pose proof (IH (mf two e l) ltac:(intros F; apply mf_zero; auto)) as C1. pose proof (psi_step e l H1 H2 He) as C2. apply cg_ex in C1. apply cg_ex in C2. destruct C1 as [z1 C1], C2 as [z2 C2]. apply cg_ex. exists (z1 + z2)%Z. lia.
Qed.
Lemma psi_eq e e' : eq1 L e e' -> cg (psi e) (psi e').
Proof.
  pose proof L1' as HL. intros [E1 E2]. destruct e as [[a b] y], e' as [[a' b'] y']. cbn [fst snd] in E1, E2. inversion E1. subst a' b'. apply cg_ex. unfold psi.
  rewrite (Z.div_mod y LZ_), (Z.div_mod y' LZ_) by lia. rewrite E2. exists (Z.of_nat (q_k q) * (y' / LZ_ - y / LZ_))%Z. ring.
Qed.
Lemma phase_norm word p i : product_of gens word -> In p pres -> top i -> eq1 L (el two word) (el two (p ++ rep i)) -> cg (pho word) (pho (p ++ rep i)).
Proof.
  intros Hw Hp Ht E. pose proof (psi_word word (gen_letters _ Hw) e0 ltac:(reflexivity)) as C1. pose proof (psi_word (p ++ rep i) (gen_letters _ (pr_gen p i Hp Ht)) e0 ltac:(reflexivity)) as C2. pose proof (psi_eq _ _ E) as C3. apply cg_ex in C1. apply cg_ex in C2. apply cg_ex in C3.
  destruct C1 as [z1 C1], C2 as [z2 C2], C3 as [z3 C3]. unfold el in C3. apply cg_ex. exists (z2 - z1 + z3)%Z. lia.
Qed.
Definition good_phase (s : N) (p : list letter) (i : nat) : Prop := ((pho (p ++ rep i) + half_turn L (sr s p i)) mod (2 * LZ_) = 0)%Z.
Lemma compatible_iff s : st s -> (compatible w k L T q gens s <-> forall p i, In p pres -> top i -> tr s p i = s -> good_phase s p i).
Proof.
  intros Hs. split.
  - intros E p i Hp Ht Ei. apply (E (p ++ rep i) (sr s p i)); [apply pr_gen; assumption|]. apply reaches_iff; [exact SF|apply plok; assumption|exact Hs|]. split; [symmetry; exact Ei|reflexivity].
  - intros E word g Hw Hr. apply reaches_iff in Hr; [|exact SF|apply (okf_lok two), prod_ok, Hw|exact Hs]. destruct Hr as [E1 ->]. destruct (norm word Hw) as (p & i & Hp & Ht & Ee & Q). destruct (Q s Hs) as [Q1 ->].
    pose proof (phase_norm word p i Hw Hp Ht Ee) as C. apply cg_ex in C. destruct C as [z C]. rewrite C. pose proof L1'. replace (pho (p ++ rep i) + z * (2 * LZ_) + half_turn L (sr s p i))%Z with (pho (p ++ rep i) + half_turn L (sr s p i) + z * (2 * LZ_))%Z by lia. rewrite Z.mod_add by lia. apply E; try assumption. congruence.
Qed.
End G.
End F.
