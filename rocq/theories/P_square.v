(* Lattice transformations as signed permutations, their action on states and their periods. *)
From Verif Require Import AuxN SpecDigits SpecMaps SpecLattice M_maps M_square P_maps P_period.
Local Open Scope nat_scope.

(* where a sequence of maps (applied in the order of the list) takes a site, and whether it is inverted on the way *)
Definition step (m : list Z) (p : nat * bool) : nat * bool := (target (nth (fst p) m 0%Z), xorb (snd p) (flips (nth (fst p) m 0%Z))).
Definition walk (ms : list (list Z)) (p : nat * bool) : nat * bool := fold_left (fun p m => step m p) ms p.
Definition run_maps (B : N) (n : nat) (ms : list (list Z)) (s : N) : N := fold_left (fun s m => boson_map_bits B n m s) ms s.

Section W.
Variable B : N.
Hypothesis HB : (2 <= B)%N.
Variable n : nat.
Definition flipv (b : bool) (v : N) : N := if b then (B - 1 - v)%N else v.
Lemma site_val_lt s j : (site_val B n s j < B)%N. Proof. unfold site_val, digit. apply N.mod_lt. lia. Qed.
Lemma run_walk ms : (forall m, In m ms -> signed_perm n m) -> forall s j b v, j < n -> (v < B)%N -> site_val B n s j = flipv b v ->
  fst (walk ms (j, b)) < n /\ site_val B n (run_maps B n ms s) (fst (walk ms (j, b))) = flipv (snd (walk ms (j, b))) v.
Proof.
  induction ms as [|m ms IH]; intros Hm s j b v Hj Hv Hs; [split; [exact Hj|exact Hs]|]. cbn [walk run_maps fold_left].
  assert (Pm : signed_perm n m) by (apply Hm; left; reflexivity). destruct (boson_map_bits_moved B n m s HB Pm) as [_ M]. specialize (M j Hj).
  apply IH; [intros m' I; apply Hm; right; exact I|apply signed_perm_lt; assumption|exact Hv|]. cbn [fst snd]. rewrite M, Hs. unfold flipv. destruct b, (flips (nth j m 0%Z)); cbn [xorb]; lia.
Qed.
Lemma walk_surj ms : (forall m, In m ms -> signed_perm n m) -> forall i, i < n -> exists j, j < n /\ fst (walk ms (j, false)) = i.
Proof.
  assert (E : forall ms j b, fst (walk ms (j, b)) = fst (walk ms (j, false))).
  { clear. induction ms as [|m ms IH]; intros j b; [reflexivity|]. cbn [walk fold_left]. unfold step at 2 4. cbn [fst snd]. fold (walk ms). rewrite IH, (IH _ (xorb false _)). reflexivity. }
  induction ms as [|m ms IH]; intros Hm i Hi; [exists i; auto|]. destruct (IH (fun m' I => Hm m' (or_intror I)) i Hi) as (j & Hj & Ej). destruct (tg_surj n m (Hm m (or_introl eq_refl)) j Hj) as (k & Hk & Ek).
  exists k. split; [exact Hk|]. change (walk (m :: ms) (k, false)) with (walk ms (step m (k, false))). unfold step. cbn [fst snd]. rewrite E. unfold tg in Ek. rewrite Ek. exact Ej.
Qed.
Lemma run_lt ms s : (forall m, In m ms -> signed_perm n m) -> (s < B ^ N.of_nat n)%N -> (run_maps B n ms s < B ^ N.of_nat n)%N.
Proof.
  revert s. induction ms as [|m ms IH]; intros s Hm Hs; [exact Hs|]. cbn [run_maps fold_left]. apply IH; [intros; apply Hm; right; assumption|]. apply (boson_map_bits_moved B n m s HB). apply Hm; left; reflexivity.
Qed.
Lemma walk_states ms ms' : (forall m, In m ms -> signed_perm n m) -> (forall m, In m ms' -> signed_perm n m) -> (forall j, j < n -> walk ms (j, false) = walk ms' (j, false)) ->
  forall s, (s < B ^ N.of_nat n)%N -> run_maps B n ms s = run_maps B n ms' s.
Proof.
  intros H1 H2 E s Hs. apply (vals_inj B n HB); [apply run_lt; assumption|apply run_lt; assumption|]. unfold vals. apply map_ext_in. intros i I. apply in_seq in I. destruct (walk_surj ms H1 i ltac:(lia)) as (j & Hj & Ej).
  pose proof (run_walk ms H1 s j false (site_val B n s j) Hj (site_val_lt s j) eq_refl) as [_ R1]. pose proof (run_walk ms' H2 s j false (site_val B n s j) Hj (site_val_lt s j) eq_refl) as [_ R2].
  rewrite <- E in R2 by exact Hj. rewrite Ej in R1, R2. congruence.
Qed.
End W.
Lemma run_repeat B n m k s : run_maps B n (repeat m k) s = Nat.iter k (boson_map_bits B n m) s.
Proof. revert s. induction k as [|k IH]; intros s; [reflexivity|]. cbn [repeat run_maps fold_left]. fold (run_maps B n (repeat m k) (boson_map_bits B n m s)). rewrite IH, <- iter_succ_r. reflexivity. Qed.
(* a state that tells a moved or inverted site *)
Lemma digit_pow i k : digit 2 (2 ^ N.of_nat k) i = if (i =? k)%nat then 1%N else 0%N.
Proof.
  rewrite digit2, N.pow2_bits_eqb. destruct (Nat.eqb_spec i k) as [-> |D]; [rewrite N.eqb_refl; reflexivity|]. rewrite (proj2 (N.eqb_neq _ _)) by lia. reflexivity.
Qed.
Lemma walk_detects n ms j : (forall m, In m ms -> signed_perm n m) -> j < n -> walk ms (j, false) <> (j, false) -> exists s, (s < 2 ^ N.of_nat n)%N /\ run_maps 2 n ms s <> s.
Proof.
  intros Hm Hj W. destruct (walk ms (j, false)) as [j' b] eqn:E. pose proof (fun s => run_walk 2 ltac:(lia) n ms Hm s j false (site_val 2 n s j) Hj (site_val_lt 2 ltac:(lia) n s j) eq_refl) as R. rewrite E in R. cbn [fst snd] in R.
  assert (Hj' : j' < n) by apply (R 0%N). destruct b.
  - exists 0%N. split; [apply N.neq_0_lt_0, N.pow_nonzero; lia|]. intros E0. destruct (R 0%N) as [_ R0]. rewrite E0 in R0. unfold site_val, digit, flipv in R0. rewrite !N.div_0_l in R0 by (apply N.pow_nonzero; lia). cbn in R0. discriminate.
  - assert (D : j' <> j) by (intros ->; apply W; reflexivity). exists (2 ^ N.of_nat (n - 1 - j))%N. split; [apply N.pow_lt_mono_r; lia|]. intros E0. destruct (R (2 ^ N.of_nat (n - 1 - j))%N) as [_ R0]. rewrite E0 in R0.
    unfold site_val, flipv in R0. rewrite !digit_pow in R0. rewrite Nat.eqb_refl in R0. rewrite (proj2 (Nat.eqb_neq _ _)) in R0 by lia. discriminate.
Qed.
(* the period that the basis finds *)
Lemma period_of_walk n m p : signed_perm n m -> 1 <= p -> (forall j, j < n -> walk (repeat m p) (j, false) = (j, false)) ->
  (forall q, 1 <= q < p -> exists j, j < n /\ walk (repeat m q) (j, false) <> (j, false)) -> exists fuel0, forall fuel, fuel0 <= fuel -> process_map fuel m = PM_period p.
Proof.
  intros Pm Hp Hid Hno. assert (Ln := signed_perm_length n m Pm). assert (Pm' : signed_perm (length m) m) by (rewrite Ln; exact Pm). destruct (process_map_period m Pm') as (per & f0 & Hper & Hf & HT).
  rewrite Ln in HT. destruct (HT 2%N (boson_map_bits 2 n m) ltac:(lia) (fun s _ => boson_map_bits_moved 2 n m s ltac:(lia) Pm)) as [T1 T2].
  assert (Hr : forall k m', In m' (repeat m k) -> signed_perm n m') by (intros k m' I; apply repeat_spec in I; subst m'; exact Pm).
  exists f0. intros fuel Hfu. rewrite (Hf fuel Hfu). f_equal. destruct (Nat.lt_trichotomy per p) as [L|[E|L]]; [|exact E|]; exfalso.
  - destruct (Hno per ltac:(lia)) as (j & Hj & W). destruct (walk_detects n (repeat m per) j (Hr per) Hj W) as (s & Hs & D). rewrite run_repeat in D. apply D, T1, Hs.
  - destruct (T2 p ltac:(lia)) as (s & Hs & D). apply D. rewrite <- run_repeat. exact (walk_states 2 ltac:(lia) n (repeat m p) [] (Hr p) (fun _ F => match F with end) (fun j Hj => Hid j Hj) s Hs).
Qed.

(* ---- lattice maps ---- *)
Section L.
Variables Lx Ly : nat.
Hypothesis HLx : 1 <= Lx.
Hypothesis HLy : 1 <= Ly.
Lemma site_lt x y : x < Lx -> y < Ly -> site Lx x y < Lx * Ly. Proof. unfold site. nia. Qed.
Lemma site_x x y : x < Lx -> site Lx x y mod Lx = x. Proof. intros H. unfold site. rewrite Nat.mod_add by lia. apply Nat.mod_small, H. Qed.
Lemma site_y x y : x < Lx -> site Lx x y / Lx = y. Proof. intros H. unfold site. rewrite Nat.div_add by lia. rewrite Nat.div_small by exact H. reflexivity. Qed.
Lemma site_of j : j < Lx * Ly -> j mod Lx < Lx /\ j / Lx < Ly /\ j = site Lx (j mod Lx) (j / Lx).
Proof. intros H. split; [apply Nat.mod_upper_bound; lia|]. split; [apply Nat.div_lt_upper_bound; lia|]. unfold site. rewrite (Nat.div_mod_eq j Lx) at 1. lia. Qed.
Lemma site_inj x y x' y' : x < Lx -> x' < Lx -> site Lx x y = site Lx x' y' -> x = x' /\ y = y'.
Proof. intros H1 H2 E. split; [rewrite <- (site_x x y H1), E; apply site_x, H2|rewrite <- (site_y x y H1), E; apply site_y, H2]. Qed.
Lemma nth_sites {X} (f : nat -> X) d j : j < Lx * Ly -> nth j (map f (sites Lx Ly)) d = f j.
Proof. intros H. unfold sites. rewrite (nth_indep _ d (f 0)) by (rewrite map_length, seq_length; exact H). rewrite map_nth, seq_nth by exact H. reflexivity. Qed.
Definition in_range (g : nat -> nat -> nat * nat) : Prop := forall x y, x < Lx -> y < Ly -> fst (g x y) < Lx /\ snd (g x y) < Ly.
Definition injective (g : nat -> nat -> nat * nat) : Prop := forall x y x' y', x < Lx -> y < Ly -> x' < Lx -> y' < Ly -> g x y = g x' y' -> x = x' /\ y = y'.
Lemma acts_perm m g inv : acts_as Lx Ly m g inv -> in_range g -> injective g -> signed_perm (Lx * Ly) m.
Proof.
  intros [L A] R I. unfold signed_perm. assert (E : map target m = map (fun j => site Lx (fst (g (j mod Lx) (j / Lx))) (snd (g (j mod Lx) (j / Lx)))) (seq 0 (Lx * Ly))).
  { apply (nth_ext _ _ (target 0%Z) 0); [rewrite !map_length, seq_length; exact L|]. intros j Hj. rewrite map_length, L in Hj. rewrite map_nth.
    set (f := fun j => site Lx _ _). rewrite (nth_indep _ 0 (f 0)) by (rewrite map_length, seq_length; exact Hj). rewrite map_nth, seq_nth by exact Hj. subst f. cbv beta. cbn [Nat.add].
    destruct (site_of j Hj) as (H1 & H2 & E). rewrite E at 1. apply A; assumption. }
  rewrite E. apply NoDup_Permutation_bis.
  - apply NoDup_map_in; [|apply seq_NoDup]. intros j k Hj Hk Ejk. apply in_seq in Hj, Hk. destruct (site_of j ltac:(lia)) as (A1 & A2 & Ej). destruct (site_of k ltac:(lia)) as (B1 & B2 & Ek).
    pose proof (R _ _ A1 A2) as [R1 R2]. pose proof (R _ _ B1 B2) as [R3 R4]. apply site_inj in Ejk; [|exact R1|exact R3]. destruct Ejk as [E1 E2].
    destruct (I _ _ _ _ A1 A2 B1 B2) as [F1 F2]; [destruct (g (j mod Lx) (j / Lx)), (g (k mod Lx) (k / Lx)); cbn in *; congruence|]. rewrite Ej, Ek, F1, F2. reflexivity.
  - rewrite map_length. reflexivity.
  - intros z Hz. apply in_map_iff in Hz. destruct Hz as (j & <- & Hj). apply in_seq in Hj. destruct (site_of j ltac:(lia)) as (A1 & A2 & _). destruct (R _ _ A1 A2). apply in_seq. split; [lia|]. apply site_lt; assumption.
Qed.
(* walks on coordinates *)
Definition lat := ((nat -> nat -> nat * nat) * (nat -> nat -> bool))%type.
Definition lstep (l : lat) (p : nat * nat * bool) : nat * nat * bool := (fst l (fst (fst p)) (snd (fst p)), xorb (snd p) (snd l (fst (fst p)) (snd (fst p)))).
Definition lwalk (ls : list lat) (p : nat * nat * bool) := fold_left (fun p l => lstep l p) ls p.
Lemma walk_lat ms ls : Forall2 (fun m l => acts_as Lx Ly m (fst l) (snd l) /\ in_range (fst l)) ms ls -> forall x y b, x < Lx -> y < Ly ->
  let p := lwalk ls (x, y, b) in walk ms (site Lx x y, b) = (site Lx (fst (fst p)) (snd (fst p)), snd p) /\ fst (fst p) < Lx /\ snd (fst p) < Ly.
Proof.
  intros H. induction H as [|m l ms ls [[_ A] R] H IH]; intros x y b Hx Hy; [cbn; auto|]. cbn [walk lwalk fold_left]. unfold step at 2, lstep at 2 4 6 8 10. cbn [fst snd].
  destruct (A x y Hx Hy) as [A1 A2]. rewrite A1, A2. destruct (R x y Hx Hy) as [R1 R2]. specialize (IH _ _ (xorb b (snd l x y)) R1 R2). rewrite <- surjective_pairing in IH. exact IH.
Qed.
End L.
