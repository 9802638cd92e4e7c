(* Words of one-dimensional symmetry operations: normal forms. *)
From Verif Require Import AuxN SpecMaps SpecFermi SpecChain M_bits1d SpecChain1d SpecCheck1d M_check1d P_maps P_square P_bits1d P_bits1d4 P_bits1d5.
Local Open Scope nat_scope.

Lemma run_app fs gs x : run_ops (fs ++ gs) x = match run_ops fs x with Some y => run_ops gs y | None => None end.
Proof. revert x. induction fs as [|f fs IH]; intros x; [reflexivity|]. cbn [app]. rewrite !run_cons. destruct (f x); [apply IH|reflexivity]. Qed.

Lemma even_nat n : Nat.even n = true -> Z.even (Z.of_nat n) = true.
Proof. intros H. apply Nat.even_spec in H. destruct H as [h ->]. apply Z.even_spec. exists (Z.of_nat h). lia. Qed.

Section C.
Variables (w : btype) (k : kind) (L T : nat).
Hypothesis SF : states_fit w k L.
Notation A := (act w k L T).
Notation G := (good (fermionic k) (levels k) (sites k L)).
Notation st s := (s < levels k ^ N.of_nat (sites k L))%N.
Definition lmap (l : letter) : list Z :=
  match l with LT => shift_map k L (- Z.of_nat T) | LP => flip_map k L | LZ => inv_map k L | LA => chain_inv L (from_right L 0) | LB => chain_inv L (from_right L 1) end.
Definition lok (l : letter) : Prop :=
  match l with LT => T <= L /\ shift_fits w k L (- Z.of_nat T) | LP => True | LZ => has_inversion k | LA | LB => has_sublattices k end.
Lemma lgood l : lok l -> G (lmap l) (A l).
Proof.
  destruct l; cbn [lok lmap act].
  - intros [HT H]. apply good_shift; [exact SF|lia|exact H].
  - intros _. apply good_flip, SF.
  - apply good_inv, SF.
  - apply good_A, SF.
  - apply good_B, SF.
Qed.
Lemma lgoods word : Forall lok word -> Forall2 G (map lmap word) (map A word).
Proof. induction 1; constructor; auto. apply lgood; assumption. Qed.
Lemma same_walk u v : Forall lok u -> Forall lok v -> (forall j, j < sites k L -> walk (map lmap u) (j, false) = walk (map lmap v) (j, false)) ->
  forall s sg, st s -> exists y, run_ops (map A u) (s, sg) = Some y /\ run_ops (map A v) (s, sg) = Some y /\ st (fst y).
Proof. intros Hu Hv E. apply (run_rel (fermionic k) (levels k) (sites k L) (HB2 w k L SF) (map lmap u) _ (map lmap v)); [exact (HF2 w k L SF)|apply lgoods, Hu|apply lgoods, Hv|exact E]. Qed.

(* state and sign reached *)
Definition sto (word : list letter) (s : N) : N := match run_ops (map A word) (s, 1%Z) with Some (t, _) => t | None => 0%N end.
Definition sgo (word : list letter) (s : N) : Z := match run_ops (map A word) (s, 1%Z) with Some (_, g) => g | None => 0%Z end.
Definition unit_ (x : Z) : Prop := x = 1%Z \/ x = (-1)%Z.
Lemma nop_unit n : unit_ (neg_one_pow n). Proof. unfold neg_one_pow, unit_. destruct (Nat.odd n); auto. Qed.
Lemma run_scale word : Forall lok word -> forall s, st s -> exists t g, st t /\ unit_ g /\ forall sg, run_ops (map A word) (s, sg) = Some (t, (sg * g)%Z).
Proof.
  induction 1 as [|l word Hl _ IH]; intros s Hs.
  - exists s, 1%Z. split; [exact Hs|]. split; [left; reflexivity|]. intros sg. rewrite Z.mul_1_r. reflexivity.
  - destruct (lgood l Hl) as (Ac & _ & _). destruct (Ac s 1%Z Hs) as (t1 & M1 & _). destruct (IH t1 (proj1 M1)) as (t & g & Ht & Hg & E).
    exists t, ((if fermionic k then neg_one_pow (crossings (sites k L) (lmap l) s) else 1) * g)%Z. split; [exact Ht|]. split.
    + destruct (fermionic k); [|rewrite Z.mul_1_l; exact Hg]. destruct (nop_unit (crossings (sites k L) (lmap l) s)) as [-> | ->], Hg as [-> | ->]; unfold unit_; cbn; auto.
    + intros sg. cbn [map]. rewrite run_cons. destruct (Ac s sg Hs) as (t2 & M2 & ->). assert (X : t2 = t1). { destruct (lgood l Hl) as (_ & P & _). exact (moved_unique _ _ _ _ _ _ (HB2 w k L SF) P M2 M1). } subst t2. rewrite E, Z.mul_assoc. reflexivity.
Qed.
Lemma run_sto word s sg : Forall lok word -> st s -> run_ops (map A word) (s, sg) = Some (sto word s, (sg * sgo word s)%Z).
Proof. intros H Hs. destruct (run_scale word H s Hs) as (t & g & _ & _ & E). unfold sto, sgo. rewrite (E 1%Z), (E sg), Z.mul_1_l. reflexivity. Qed.
Lemma sto_lt word s : Forall lok word -> st s -> st (sto word s).
Proof. intros H Hs. destruct (run_scale word H s Hs) as (t & g & Ht & _ & E). unfold sto. rewrite (E 1%Z). exact Ht. Qed.
Lemma sgo_unit word s : Forall lok word -> st s -> unit_ (sgo word s).
Proof. intros H Hs. destruct (run_scale word H s Hs) as (t & g & _ & Hg & E). unfold sgo. rewrite (E 1%Z), Z.mul_1_l. exact Hg. Qed.
Lemma sto_app u v s : Forall lok u -> Forall lok v -> st s -> sto (u ++ v) s = sto v (sto u s) /\ sgo (u ++ v) s = (sgo u s * sgo v (sto u s))%Z.
Proof.
  intros Hu Hv Hs. assert (E : run_ops (map A (u ++ v)) (s, 1%Z) = Some (sto v (sto u s), (sgo u s * sgo v (sto u s))%Z)).
  { rewrite map_app, run_app, (run_sto u s 1%Z Hu Hs), Z.mul_1_l. apply run_sto; [exact Hv|apply sto_lt; assumption]. }
  unfold sto at 1, sgo at 1. rewrite E. split; reflexivity.
Qed.
Lemma same_sto u v : Forall lok u -> Forall lok v -> (forall j, j < sites k L -> walk (map lmap u) (j, false) = walk (map lmap v) (j, false)) -> forall s, st s -> sto u s = sto v s /\ sgo u s = sgo v s.
Proof. intros Hu Hv E s Hs. destruct (same_walk u v Hu Hv E s 1%Z Hs) as (y & E1 & E2 & _). unfold sto, sgo. rewrite E1, E2. split; reflexivity. Qed.
Lemma reaches_iff word s t g : Forall lok word -> st s -> (reaches w k L T word s t g <-> t = sto word s /\ g = sgo word s).
Proof. intros H Hs. unfold reaches. rewrite (run_sto word s 1%Z H Hs), Z.mul_1_l. split; [intros E; inversion E; auto|intros [-> ->]; reflexivity]. Qed.

(* ---- first family: T, P, Z ---- *)
Definition e1 := (bool * bool * Z)%type.
Definition m1 (e : e1) (l : letter) : e1 :=
  match e, l with (q, g, y), LT => (q, g, y - Z.of_nat T)%Z | (q, g, y), LP => (negb q, g, - y)%Z | (q, g, y), LZ => (q, negb g, y) | _, _ => e end.
Definition fam1 (l : letter) : Prop := match l with LT | LP | LZ => True | _ => False end.
Definition nf1 (e : e1) (c i : nat) (b : bool) : nat * bool :=
  let '(q, g, y) := e in ((if g then other k L c else c) + sh L y (if q then L - 1 - i else i), if g then tog k b else b).
Lemma sh_sh x y i : sh L x (sh L y i) = sh L (x + y) i.
Proof. pose proof (HL1 w k L SF) as HL. apply Nat2Z.inj. rewrite !sh_nat by exact HL. rewrite Zminus_mod_idemp_l. f_equal. lia. Qed.
Lemma sh_rev y i : i < L -> L - 1 - sh L y i = sh L (- y) (L - 1 - i).
Proof.
  intros Hi. pose proof (HL1 w k L SF) as HL. pose proof (sh_lt L y i HL). apply Nat2Z.inj. rewrite Nat2Z.inj_sub by lia. rewrite !sh_nat by exact HL.
  replace (Z.of_nat (L - 1)) with (Z.of_nat L - 1)%Z by lia. replace (Z.of_nat (L - 1 - i)) with (Z.of_nat L - 1 - Z.of_nat i)%Z by lia.
  set (a := (Z.of_nat i - y)%Z). replace (Z.of_nat L - 1 - Z.of_nat i - - y)%Z with (Z.of_nat L - 1 - a)%Z by lia. clearbody a. rewrite <- (Zminus_mod_idemp_r (Z.of_nat L - 1) a). rewrite (Z.mod_small (Z.of_nat L - 1 - _)); [reflexivity|]. pose proof (Z.mod_pos_bound a (Z.of_nat L) ltac:(lia)). lia.
Qed.
Lemma step1 l e c i b : fam1 l -> i < L -> off k L c -> step (lmap l) (nf1 e c i b) = nf1 (m1 e l) c i b.
Proof.
  intros Hl Hi Hc. pose proof (HL1 w k L SF) as HL. destruct e as [[q g] y]. unfold nf1.
  assert (Hu : (if q then L - 1 - i else i) < L) by (destruct q; lia). assert (Hc' : off k L (if g then other k L c else c)) by (destruct g; [apply other_off|]; exact Hc).
  destruct l; cbn [m1 lmap]; try destruct Hl.
  - rewrite step_shift by (try apply sh_lt; assumption). rewrite sh_sh. f_equal. f_equal. f_equal. lia.
  - rewrite step_flip by (try apply sh_lt; assumption). rewrite sh_rev by exact Hu. f_equal. f_equal. f_equal. destruct q; cbn [negb]; lia.
  - rewrite step_inv by (try apply sh_lt; assumption). destruct g; cbn [negb]; [rewrite other_other, tog_tog by exact Hc|]; reflexivity.
Qed.
Lemma walk1 word : Forall fam1 word -> forall e c i b, i < L -> off k L c -> walk (map lmap word) (nf1 e c i b) = nf1 (fold_left m1 word e) c i b.
Proof. induction 1 as [|l word Hl _ IH]; intros e c i b Hi Hc; [reflexivity|]. cbn [map walk fold_left]. rewrite step1 by assumption. apply IH; assumption. Qed.
Definition eq1 (e e' : e1) : Prop := fst e = fst e' /\ (snd e mod Z.of_nat L = snd e' mod Z.of_nat L)%Z.
Lemma sh_mod x y i : (x mod Z.of_nat L = y mod Z.of_nat L)%Z -> sh L x i = sh L y i.
Proof. intros E. unfold sh. f_equal. rewrite <- Zminus_mod_idemp_r, E, Zminus_mod_idemp_r. reflexivity. Qed.
Lemma same1 u v : Forall fam1 u -> Forall fam1 v -> Forall lok u -> Forall lok v -> eq1 (fold_left m1 u (false, false, 0%Z)) (fold_left m1 v (false, false, 0%Z)) ->
  forall s, st s -> sto u s = sto v s /\ sgo u s = sgo v s.
Proof.
  intros Fu Fv Hu Hv [E1 E2]. apply same_sto; [exact Hu|exact Hv|]. intros j Hj. pose proof (HL1 w k L SF) as HL. destruct (two_cases k L j Hj) as (c & i & -> & Hi & Hc).
  replace (c + i, false) with (nf1 (false, false, 0%Z) c i false). 2:{ unfold nf1. f_equal. f_equal. unfold sh. rewrite Z.sub_0_r, Z.mod_small by lia. lia. }
  rewrite !walk1 by assumption. destruct (fold_left m1 u _) as [[q g] y], (fold_left m1 v _) as [[q' g'] y']. cbn [fst snd] in E1, E2. inversion E1. subst q' g'. unfold nf1. rewrite (sh_mod y y') by exact E2. reflexivity.
Qed.

(* ---- second family: T by an even number of sites of an even chain, A, B, Z ---- *)
Definition m2 (e : e1) (l : letter) : e1 :=
  match e, l with (a, b, y), LT => (a, b, y - Z.of_nat T)%Z | (a, b, y), LA => (negb a, b, y) | (a, b, y), LB => (a, negb b, y) | (a, b, y), LZ => (negb a, negb b, y) | _, _ => e end.
Definition fam2 (l : letter) : Prop := match l with LT => Nat.even L = true /\ Nat.even T = true | LP => False | _ => True end.
Definition nf2 (e : e1) (i : nat) (b0 : bool) : nat * bool :=
  let '(a, b, y) := e in (sh L y i, xorb b0 (xorb (a && from_right L 0 i) (b && from_right L 1 i))).
Definition ev (e : e1) : Prop := snd e = 0%Z \/ (Nat.even L = true /\ Z.even (snd e) = true).
Lemma sh_keeps e i r : ev e -> i < L -> r < 2 -> from_right L r (sh L (snd e) i) = from_right L r i.
Proof.
  intros [E|[E1 E2]] Hi Hr.
  - rewrite E. unfold sh. rewrite Z.sub_0_r, Z.mod_small by lia. rewrite Nat2Z.id. reflexivity.
  - destruct (sh_parity w k L SF (snd e) i E1 Hi r) as [X|X]; [|lia]. rewrite E2 in X. exact X.
Qed.
Lemma step2 l e i b : has_sublattices k -> fam2 l -> i < L -> ev e -> step (lmap l) (nf2 e i b) = nf2 (m2 e l) i b /\ ev (m2 e l).
Proof.
  intros HS Hl Hi He. pose proof (HL1 w k L SF) as HL. pose proof (sh_keeps e i 0 He Hi ltac:(lia)) as K0. pose proof (sh_keeps e i 1 He Hi ltac:(lia)) as K1. destruct e as [[a c] y]. unfold nf2. cbn [snd] in K0, K1.
  pose proof (sh_lt L y i HL) as Hy. destruct l; cbn [m2 lmap]; try destruct Hl as [].
  - split.
    + change (sh L y i) with (0 + sh L y i). rewrite step_shift by (try assumption; left; reflexivity). rewrite sh_sh. cbn [Nat.add]. f_equal. f_equal. lia.
    + right. split; [assumption|]. cbn [snd]. destruct He as [E|[_ E2]]; cbn [snd] in *; [subst y|]; rewrite Z.even_sub, (even_nat T H0), ?E2; reflexivity.
  - split; [|exact He]. change (sh L y i) with (0 + sh L y i) at 1. rewrite step_inv by (try assumption; left; reflexivity).
    assert (Ex : xorb (from_right L 0 i) (from_right L 1 i) = true) by apply fr_both. destruct (sub_sites w k L SF HS) as [_ Fm]. assert (Et : forall x, tog k x = negb x) by (intros x; destruct k as [[|]|?|]; [discriminate|reflexivity|reflexivity|discriminate]).
    assert (Eo : other k L 0 = 0) by (destruct k as [[|]|?|]; [reflexivity|reflexivity|reflexivity|discriminate]). rewrite Et, Eo. cbn [Nat.add]. f_equal.
    destruct a, c, b, (from_right L 0 i), (from_right L 1 i); cbn in *; congruence.
  - split; [|exact He]. rewrite step_sub by exact Hy. rewrite K0. f_equal. destruct a, c, b, (from_right L 0 i), (from_right L 1 i); reflexivity.
  - split; [|exact He]. rewrite step_sub by exact Hy. rewrite K1. f_equal. destruct a, c, b, (from_right L 0 i), (from_right L 1 i); reflexivity.
Qed.
Lemma walk2 word : has_sublattices k -> Forall fam2 word -> forall e i b, i < L -> ev e -> walk (map lmap word) (nf2 e i b) = nf2 (fold_left m2 word e) i b.
Proof. intros HS. induction 1 as [|l word Hl _ IH]; intros e i b Hi He; [reflexivity|]. cbn [map walk fold_left]. destruct (step2 l e i b HS Hl Hi He) as [-> E]. apply IH; assumption. Qed.
Lemma same2 u v : has_sublattices k -> Forall fam2 u -> Forall fam2 v -> Forall lok u -> Forall lok v -> eq1 (fold_left m2 u (false, false, 0%Z)) (fold_left m2 v (false, false, 0%Z)) ->
  forall s, st s -> sto u s = sto v s /\ sgo u s = sgo v s.
Proof.
  intros HS Fu Fv Hu Hv [E1 E2]. apply same_sto; [exact Hu|exact Hv|]. intros j Hj. pose proof (HL1 w k L SF) as HL. apply (sub_case w k L SF j HS) in Hj.
  assert (E0 : ev (false, false, 0%Z)) by (left; reflexivity). replace (j, false) with (nf2 (false, false, 0%Z) j false). 2:{ unfold nf2. f_equal. unfold sh. rewrite Z.sub_0_r, Z.mod_small by lia. lia. }
  rewrite !walk2 by assumption. destruct (fold_left m2 u _) as [[q g] y], (fold_left m2 v _) as [[q' g'] y']. cbn [fst snd] in E1, E2. inversion E1. subst q' g'. unfold nf2. rewrite (sh_mod y y') by exact E2. reflexivity.
Qed.
End C.
