(* The symmetry operations of a chain as a group of translations and heads. *)
From Verif Require Import AuxN SpecC SpecOps SpecMaps SpecFermi SpecChain M_bits1d SpecChain1d SpecCheck1d SpecBlock1d M_check1d P_maps P_square P_bits1d P_bits1d4 P_bits1d5 P_check1d P_check1d2 P_check1d3 P_check1d4 P_check1d5 P_block1d.
Local Open Scope nat_scope.

Section I.
Variables (w : btype) (k : kind) (L T : nat).
Hypothesis SF : states_fit w k L.
Notation st s := (s < levels k ^ N.of_nat (sites k L))%N.
Notation LZ_ := (Z.of_nat L).
Notation TZ := (Z.of_nat T).
Notation rep i := (repeat LT i).
Notation sto := (sto w k L T).
Notation sgo := (sgo w k L T).
Variables (two tf : bool) (n : nat).
(* the word of a head *)
Definition hw (h : head) : list letter := if two then (if fst h then [LA] else []) ++ (if snd h then [LB] else []) else (if fst h then [LP] else []) ++ (if snd h then [LZ] else []).
Definition eps (h : head) : bool := (tf && negb two && fst h)%bool.
Definition cnt (r : Z) : nat := Z.to_nat (r mod Z.of_nat n).
Definition X (r : Z) (h : head) (s : N) : N := sto (rep (cnt r) ++ hw h) s.
Definition G (r : Z) (h : head) (s : N) : Z := sgo (rep (cnt r) ++ hw h) s.
Variables (Hs : list head) (chi : head -> R).
Hypothesis Hnd : NoDup Hs.
Hypothesis H0 : In h0 Hs.
Hypothesis Hcl : forall g h, In g Hs -> In h Hs -> In (hx g h) Hs.
Hypothesis Ch : forall g h, In g Hs -> In h Hs -> chi (hx g h) = (chi g * chi h)%R.
Hypothesis C2 : forall g, In g Hs -> (chi g * chi g = 1)%R.
Hypothesis Hok : forall h, In h Hs -> Forall (okf w k L T two) (hw h).
Hypothesis HT : if tf then L = T * n /\ 1 <= n /\ okf w k L T two LT else n = 1.
Lemma tf_cases : (tf = true /\ L = T * n /\ 1 <= n /\ okf w k L T two LT) \/ (tf = false /\ n = 1). Proof. destruct tf; [left|right]; auto. Qed.
Lemma n_1 : 1 <= n. Proof. destruct tf_cases as [H|H]; [tauto|lia]. Qed.
Lemma cnt0 r : tf = false -> cnt r = 0. Proof. intros E. unfold cnt. destruct tf_cases as [[X _]|[_ ->]]; [congruence|]. rewrite Z.mod_1_r. reflexivity. Qed.
Lemma cnt_mod r : Z.of_nat (cnt r) = (r mod Z.of_nat n)%Z. Proof. unfold cnt. rewrite Z2Nat.id; [reflexivity|]. pose proof n_1. apply Z.mod_pos_bound. lia. Qed.
Lemma eps_hx g h : eps (hx g h) = xorb (eps g) (eps h). Proof. unfold eps, hx. destruct tf, two, g as [[] ?], h as [[] ?]; reflexivity. Qed.
Lemma rep_ok r : Forall (okf w k L T two) (rep (cnt r)).
Proof.
  destruct tf_cases as [(_ & _ & _ & H)|[E _]]; [|rewrite cnt0 by exact E; constructor]. apply Forall_forall. intros l Hl. apply repeat_spec in Hl. subst. exact H.
Qed.
Lemma word_ok r h : In h Hs -> Forall (okf w k L T two) (rep (cnt r) ++ hw h).
Proof. intros H. apply Forall_app. split; [apply rep_ok|apply Hok, H]. Qed.
Lemma fold_hw h e : In h Hs -> (tf = false -> snd e = 0%Z) -> fold_left (mf T two) (hw h) e = (hx (fst e) h, sg (eps h) (snd e)).
Proof.
  intros Hh Hz. destruct e as [[a b] y]. cbn [fst snd] in *. unfold hw, eps, mf, hx. destruct h as [c d].
  destruct tf; [|rewrite (Hz eq_refl)]; destruct two, c, d; cbn [fst snd app fold_left m1 m2 negb andb sg]; rewrite ?Bool.xorb_false_r, ?Bool.xorb_true_r; cbn [Z.opp]; reflexivity.
Qed.
Lemma fold_rep' r e : fold_left (mf T two) (rep (cnt r)) e = (fst e, (snd e - TZ * (r mod Z.of_nat n))%Z).
Proof. rewrite fold_rep, cnt_mod. reflexivity. Qed.
Lemma zero_T r : tf = false -> (TZ * (r mod Z.of_nat n) = 0)%Z. Proof. intros E. rewrite <- cnt_mod, cnt0 by exact E. lia. Qed.
Lemma el_word r h : In h Hs -> el T two (rep (cnt r) ++ hw h) = (h, sg (eps h) (- (TZ * (r mod Z.of_nat n)))).
Proof.
  intros Hh. unfold el. rewrite fold_left_app, fold_rep'. rewrite fold_hw; [|exact Hh|intros E; cbn [snd P_check1d3.e0]; rewrite zero_T by exact E; reflexivity].
  cbn [fst snd P_check1d3.e0]. f_equal. change (false, false) with h0. apply hx_0.
Qed.
Lemma sgx e x y : sg e (x + y)%Z = (sg e x + sg e y)%Z. Proof. destruct e; cbn [sg]; lia. Qed.
Lemma sgm e x m : (sg e x * m = sg e (x * m))%Z. Proof. destruct e; cbn [sg]; lia. Qed.
Lemma sgg e e' x : sg (xorb e e') x = sg e' (sg e x). Proof. destruct e, e'; cbn; lia. Qed.
Lemma modL x y : tf = true -> (exists z, x - y = z * Z.of_nat n)%Z -> (exists z, TZ * x - TZ * y = z * LZ_)%Z.
Proof. intros E [z Hz]. destruct tf_cases as [(_ & HL & _)|[X _]]; [|congruence]. exists z. rewrite HL, Nat2Z.inj_mul. rewrite <- Z.mul_sub_distr_l, Hz. ring. Qed.
Lemma mod_diff x m : (0 < m)%Z -> exists z, (x mod m - x = z * m)%Z.
Proof. intros H. exists (- (x / m))%Z. pose proof (Z.div_mod x m ltac:(lia)). nia. Qed.
Lemma eq_of u v : fst u = fst v -> (exists z, snd u - snd v = z * LZ_)%Z -> eq1 L u v.
Proof.
  intros E [z Hz]. split; [exact E|]. pose proof (HL1 w k L SF). replace (snd u) with (snd v + z * LZ_)%Z by lia. rewrite Z.mod_add by lia. reflexivity.
Qed.
Lemma mul_law r h r' h' s : In h Hs -> In h' Hs -> st s ->
  sto ((rep (cnt r) ++ hw h) ++ (rep (cnt r') ++ hw h')) s = X (r + sg (eps h) r')%Z (hx h h') s /\ sgo ((rep (cnt r) ++ hw h) ++ (rep (cnt r') ++ hw h')) s = G (r + sg (eps h) r')%Z (hx h h') s.
Proof.
  intros Hh Hh' Hs'. unfold X, G. pose proof (Hcl h h' Hh Hh') as Hhh. apply (same_el w k L T SF two); [apply Forall_app; split; apply word_ok; assumption|apply word_ok, Hhh| |exact Hs'].
  assert (E : el T two ((rep (cnt r) ++ hw h) ++ rep (cnt r') ++ hw h') = (hx h h', sg (eps h') (sg (eps h) (- (TZ * (r mod Z.of_nat n))) - TZ * (r' mod Z.of_nat n))%Z)).
  { unfold el. rewrite fold_left_app. pose proof (el_word r h Hh) as E1. unfold el in E1. rewrite E1, fold_left_app, fold_rep'. cbn [fst snd]. rewrite fold_hw; [reflexivity|exact Hh'|].
    intros E. cbn [snd]. rewrite !zero_T by exact E. destruct (eps h); reflexivity. }
  rewrite E, el_word by exact Hhh. apply eq_of; [reflexivity|]. cbn [fst snd]. rewrite eps_hx, sgg. pose proof n_1 as N1.
  destruct tf_cases as [(Et & HL & _)|[Et _]].
  2:{ rewrite !zero_T by exact Et. exists 0%Z. destruct (eps h), (eps h'); reflexivity. }
  destruct (mod_diff r (Z.of_nat n) ltac:(lia)) as [z1 E1]. destruct (mod_diff r' (Z.of_nat n) ltac:(lia)) as [z2 E2]. destruct (mod_diff (r + sg (eps h) r') (Z.of_nat n) ltac:(lia)) as [z3 E3].
  set (a := (r mod Z.of_nat n)%Z) in *. set (b := (r' mod Z.of_nat n)%Z) in *. set (c := ((r + sg (eps h) r') mod Z.of_nat n)%Z) in *. clearbody a b c.
  exists (sg (eps h') (sg (eps h) (z3 - z1)%Z - z2)). rewrite HL, Nat2Z.inj_mul.
  destruct (eps h), (eps h'); cbn [sg] in *; nia.
Qed.
Lemma chain_grp : grp n (Mst k L) Hs eps chi X G.
Proof.
  assert (St : forall s, (s < N.of_nat (Mst k L))%N <-> st s) by (intros s; unfold Mst; rewrite N2Nat.id; tauto).
  assert (Lk : forall r h, In h Hs -> Forall (lok w k L T) (rep (cnt r) ++ hw h)) by (intros r h H; apply (okf_lok w k L T two), word_ok, H).
  assert (Cn : forall r, cnt (r + Z.of_nat n) = cnt r).
  { intros r. unfold cnt. pose proof n_1. rewrite <- (Z.mul_1_l (Z.of_nat n)) at 1. rewrite Z.mod_add by lia. reflexivity. }
  constructor; try assumption.
  - exact n_1.
  - exact eps_hx.
  - intros r h s Hh Hd. apply St. apply St in Hd. apply sto_lt; [exact SF|apply Lk, Hh|exact Hd].
  - intros r h s _ _. unfold X. rewrite Cn. reflexivity.
  - intros r h s _ _. unfold G. rewrite Cn. reflexivity.
  - intros s Hd. unfold X. replace (cnt 0) with 0 by (unfold cnt; rewrite Z.mod_0_l; [reflexivity|pose proof n_1; lia]). unfold hw, h0. destruct two; reflexivity.
  - intros r h r' h' s Hh Hh' Hd. apply St in Hd. destruct (sto_app w k L T SF (rep (cnt r) ++ hw h) (rep (cnt r') ++ hw h') s (Lk _ _ Hh) (Lk _ _ Hh') Hd) as [E _].
    unfold X at 1 2. rewrite <- E. apply (mul_law r h r' h' s Hh Hh' Hd).
  - intros r h r' h' s Hh Hh' Hd. apply St in Hd. destruct (sto_app w k L T SF (rep (cnt r) ++ hw h) (rep (cnt r') ++ hw h') s (Lk _ _ Hh) (Lk _ _ Hh') Hd) as [_ E].
    unfold X at 1. unfold G at 1 2. rewrite <- E. apply (mul_law r h r' h' s Hh Hh' Hd).
  - intros r h s Hh Hd. apply St in Hd. destruct (sgo_unit w k L T SF _ s (Lk r h Hh) Hd) as [E|E]; unfold G; rewrite E; reflexivity.
Qed.
(* first the head, then i translations *)
Lemma head_first h i s : In h Hs -> st s -> (tf = true \/ i = 0) -> sto (hw h ++ rep i) s = X (sg (eps h) (Z.of_nat i)) h s /\ sgo (hw h ++ rep i) s = G (sg (eps h) (Z.of_nat i)) h s.
Proof.
  intros Hh Hd Ht. unfold X, G. apply (same_el w k L T SF two); [|apply word_ok, Hh| |exact Hd].
  - apply Forall_app. split; [apply Hok, Hh|]. destruct Ht as [Et| ->]; [|constructor]. destruct tf_cases as [(_ & _ & _ & H)|[E _]]; [|congruence]. apply Forall_forall. intros l Hl. apply repeat_spec in Hl. subst. exact H.
  - rewrite el_word by exact Hh. unfold el. rewrite fold_left_app, fold_hw by (exact Hh || reflexivity). rewrite fold_rep. cbn [fst snd P_check1d3.e0]. apply eq_of; [cbn [fst]; change (false, false) with h0; apply hx_0|]. cbn [snd].
    destruct Ht as [Et| ->].
    + destruct tf_cases as [(_ & HL & N1 & _)|[E _]]; [|congruence]. destruct (mod_diff (sg (eps h) (Z.of_nat i)) (Z.of_nat n) ltac:(lia)) as [z E]. exists (sg (eps h) z). rewrite HL, Nat2Z.inj_mul.
      set (m := (sg (eps h) (Z.of_nat i) mod Z.of_nat n)%Z) in *. clearbody m. assert (Em : m = (sg (eps h) (Z.of_nat i) + z * Z.of_nat n)%Z) by (rewrite <- E; ring). rewrite Em. destruct (eps h); cbn [sg]; ring.
    + exists 0%Z. replace (sg (eps h) (Z.of_nat 0)) with 0%Z by (destruct (eps h); reflexivity). rewrite Z.mod_0_l by (pose proof n_1; lia). destruct (eps h); cbn [sg]; lia.
Qed.
End I.
