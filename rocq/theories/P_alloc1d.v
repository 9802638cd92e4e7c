(* Counting orbits of a cyclic group by fixed points, and the bound that the fixed points have to satisfy. *)
From Verif Require Import AuxN.
From Coq Require Import Permutation Reals Lra.
Local Open Scope nat_scope.

Definition count {A} (f : A -> bool) (l : list A) : nat := length (filter f l).
Lemma count_cons {A} (f : A -> bool) x l : count f (x :: l) = (if f x then 1 else 0) + count f l.
Proof. unfold count. cbn [filter]. destruct (f x); reflexivity. Qed.
Lemma count_app {A} (f : A -> bool) l m : count f (l ++ m) = count f l + count f m.
Proof. unfold count. rewrite filter_app, app_length. reflexivity. Qed.
Definition sum {A} (l : list A) (f : A -> nat) : nat := list_sum (map f l).
Lemma sum_cons {A} x (l : list A) f : sum (x :: l) f = f x + sum l f. Proof. reflexivity. Qed.
Lemma sum_add {A} (l : list A) f g : sum l (fun x => f x + g x) = sum l f + sum l g.
Proof. induction l as [|x l IH]; [reflexivity|]. rewrite !sum_cons, IH. lia. Qed.
Lemma sum_le {A} (l : list A) f g : (forall x, In x l -> f x <= g x) -> sum l f <= sum l g.
Proof. induction l as [|x l IH]; intros H; [apply Nat.le_0_l|]. rewrite !sum_cons. specialize (IH (fun y Hy => H y (or_intror Hy))). specialize (H x (or_introl eq_refl)). lia. Qed.
Lemma sum_zero {A} (l : list A) f : (forall x, In x l -> f x = 0) -> sum l f = 0.
Proof. induction l as [|x l IH]; intros H; [reflexivity|]. rewrite sum_cons, IH by (intros; apply H; right; assumption). rewrite (H x (or_introl eq_refl)). reflexivity. Qed.
Lemma sum_single (l : list N) (a : N) : NoDup l -> In a l -> sum l (fun t => if (a =? t)%N then 1 else 0) = 1.
Proof.
  intros Nd Ha. induction Nd as [|x l Hn Nd IH]; [destruct Ha|]. rewrite sum_cons. destruct Ha as [->|Ha].
  - rewrite N.eqb_refl, sum_zero; [reflexivity|]. intros t Ht. destruct (N.eqb_spec a t) as [->|]; [contradiction|reflexivity].
  - rewrite IH by exact Ha. destruct (N.eqb_spec a x) as [->|]; [contradiction|reflexivity].
Qed.
(* the elements of a list, sorted by an image in S *)
Lemma length_by {A} (f : A -> N) (S : list N) (l : list A) : NoDup S -> (forall x, In x l -> In (f x) S) -> length l = sum S (fun t => count (fun x => (f x =? t)%N) l).
Proof.
  intros Nd. induction l as [|x l IH]; intros H; [rewrite sum_zero; [reflexivity|intros; reflexivity]|].
  transitivity (sum S (fun t => (if (f x =? t)%N then 1 else 0) + count (fun x => (f x =? t)%N) l)).
  - rewrite sum_add, sum_single, <- IH by (try (intros; apply H; right; assumption); try assumption; apply H; left; reflexivity). reflexivity.
  - clear. unfold sum. f_equal. apply map_ext. intros t. rewrite count_cons. reflexivity.
Qed.
Lemma sum_swap {A B} (l : list A) (m : list B) (p : A -> B -> bool) : sum l (fun x => count (p x) m) = sum m (fun y => count (fun x => p x y) l).
Proof.
  induction l as [|x l IH]; [rewrite (sum_zero m); [reflexivity|intros; reflexivity]|]. rewrite sum_cons, IH.
  transitivity (sum m (fun y => (if p x y then 1 else 0) + count (fun x => p x y) l)).
  - rewrite sum_add. f_equal. clear. induction m as [|y m IH]; [reflexivity|]. rewrite count_cons, sum_cons, IH. reflexivity.
  - unfold sum. f_equal. apply map_ext. intros y. rewrite count_cons. reflexivity.
Qed.
Lemma count_incl {A} (f : A -> bool) (l m : list A) : NoDup l -> incl l m -> count f l <= count f m.
Proof. intros Nd H. unfold count. apply NoDup_incl_length; [apply NoDup_filter, Nd|]. intros x Hx. apply filter_In in Hx. apply filter_In. split; [apply H|]; tauto. Qed.
Lemma sum_incl (l m : list N) f : NoDup l -> incl l m -> sum l f <= sum m f.
Proof.
  intros Nd. revert m. induction Nd as [|x l Hn Nd IH]; intros m H; [apply Nat.le_0_l|]. rewrite sum_cons. destruct (in_split x m (H x (or_introl eq_refl))) as (m1 & m2 & ->).
  assert (E : sum (m1 ++ x :: m2) f = f x + sum (m1 ++ m2) f) by (unfold sum; rewrite !map_app, !list_sum_app; cbn [map]; change (list_sum (f x :: map f m2)) with (f x + list_sum (map f m2)); lia). rewrite E. apply Nat.add_le_mono_l. apply IH. intros y Hy. specialize (H y (or_intror Hy)). apply in_app_iff in H. apply in_app_iff. destruct H as [H|[<-|H]]; auto. contradiction.
Qed.

Section Orbits.
Variables (n : nat) (X : Z -> N -> N) (D : N -> Prop).
Notation nz := (Z.of_nat n).
Hypothesis Hn : 1 <= n.
Hypothesis XD : forall r s, D s -> D (X r s).
Hypothesis Xn : forall r s, D s -> X (r + nz)%Z s = X r s.
Hypothesis X0 : forall s, D s -> X 0%Z s = s.
Hypothesis Xm : forall r r' s, D s -> X r' (X r s) = X (r + r')%Z s.
Definition zr : list Z := map Z.of_nat (seq 0 n).
Lemma zr_in r : In r zr <-> (0 <= r < nz)%Z.
Proof. clear. unfold zr. rewrite in_map_iff. split; [intros (x & <- & H); apply in_seq in H; lia|]. intros H. exists (Z.to_nat r). split; [lia|]. apply in_seq. lia. Qed.
Lemma zr_nd : NoDup zr.
Proof. clear. apply FinFun.Injective_map_NoDup; [intros x y E; lia|apply seq_NoDup]. Qed.
Lemma Xmul (m : nat) r s : D s -> X (r + Z.of_nat m * nz)%Z s = X r s.
Proof. intros Hs. induction m as [|m IH]; [f_equal; lia|]. rewrite <- IH, <- (Xn (r + Z.of_nat m * nz) s Hs). f_equal. lia. Qed.
Lemma Xmod r s : D s -> X (r mod nz)%Z s = X r s.
Proof.
  intros Hs. pose proof (Z.div_mod r nz ltac:(lia)) as E. destruct (Z_le_gt_dec 0 (r / nz)).
  - rewrite <- (Xmul (Z.to_nat (r / nz)) (r mod nz) s Hs). f_equal. nia.
  - rewrite <- (Xmul (Z.to_nat (- (r / nz))) r s Hs). f_equal. nia.
Qed.
(* the number of translations that leave t where it is *)
Definition stab (t : N) : nat := count (fun r => (X r t =? t)%N) zr.
Theorem orbits_by_stab (E S : list N) : NoDup E -> NoDup S -> (forall u, In u E -> D u /\ forall r, In (X r u) S) ->
  (forall u u' r, In u E -> In u' E -> X r u = u' -> u = u') -> n * length E <= sum S stab.
Proof.
  intros NE NS HE Hd. set (P := list_prod E zr).
  assert (LP : length P = n * length E) by (unfold P; rewrite prod_length; unfold zr; rewrite map_length, seq_length; lia). rewrite <- LP.
  rewrite (length_by (fun p => X (snd p) (fst p)) S P NS) by (intros [u r] H; apply in_prod_iff in H; apply (proj2 (HE u (proj1 H)))).
  apply sum_le. intros t _. unfold count at 1. set (Q := filter _ P).
  assert (NQ : NoDup Q).
  { apply NoDup_filter. unfold P. clear - NE. pose proof zr_nd as Nz. induction NE as [|u E Hu NE IH]; [constructor|]. cbn [list_prod].
    assert (Na : forall (l m : list (N * Z)), NoDup l -> NoDup m -> (forall x, In x l -> ~ In x m) -> NoDup (l ++ m)).
    { intros l m Nl Nm H. induction Nl as [|x l Hx Nl IHl]; [exact Nm|]. cbn. constructor; [|apply IHl; intros y Hy; apply H; right; exact Hy]. intros Hi. apply in_app_iff in Hi. destruct Hi as [Hi|Hi]; [contradiction|]. apply (H x (or_introl eq_refl) Hi). }
    apply Na; [apply FinFun.Injective_map_NoDup; [intros x y Exy; congruence|exact Nz]|exact IH|]. intros [a r] H1 H2. apply in_map_iff in H1. destruct H1 as (r' & E1 & _). injection E1 as -> ->. apply in_prod_iff in H2. apply Hu, H2. }
  destruct Q as [|[u0 r0] Q0] eqn:EQ; [cbn; lia|].
  assert (HQ : forall u r, In (u, r) Q -> In u E /\ In r zr /\ X r u = t).
  { intros u r H. unfold Q in H. apply filter_In in H. destruct H as [H1 H2]. apply in_prod_iff in H1. apply N.eqb_eq in H2. cbn in H2. tauto. }
  rewrite <- EQ in *. assert (I0 : In (u0, r0) Q) by (rewrite EQ; left; reflexivity). destruct (HQ u0 r0 I0) as (Hu0 & Hr0 & E0). destruct (HE u0 Hu0) as [D0 _].
  assert (Same : forall u r, In (u, r) Q -> u = u0).
  { intros u r H. destruct (HQ u r H) as (Hu & Hr & Eu). symmetry. apply (Hd u0 u (r0 - r)%Z Hu0 Hu). replace (r0 - r)%Z with (r0 + - r)%Z by lia. rewrite <- Xm, E0, <- Eu, Xm by (try apply HE; assumption). replace (r + - r)%Z with 0%Z by lia. apply X0, HE, Hu. }
  assert (Dt : D t) by (rewrite <- E0; apply XD, D0).
  replace (length Q) with (length (map (fun p : N * Z => ((snd p - r0) mod nz)%Z) Q)) by apply map_length. unfold stab, count. apply NoDup_incl_length.
  - assert (Inj : forall p q, In p Q -> In q Q -> ((snd p - r0) mod nz)%Z = ((snd q - r0) mod nz)%Z -> p = q).
    { intros [u r] [u' r'] H H' Em. cbn [snd] in Em. rewrite (Same u r H), (Same u' r' H'). destruct (HQ u r H) as (_ & Hr & _), (HQ u' r' H') as (_ & Hr' & _). apply zr_in in Hr, Hr'. f_equal.
      pose proof (Z.div_mod (r - r0) nz ltac:(lia)). pose proof (Z.div_mod (r' - r0) nz ltac:(lia)). set (a := ((r - r0) / nz)%Z) in *. set (c := ((r' - r0) / nz)%Z) in *. clearbody a c. assert (a = c) by nia. nia. }
    clear - NQ Inj. induction NQ as [|p Q Hp NQ IH]; [constructor|]. cbn [map]. constructor.
    + intros H. apply in_map_iff in H. destruct H as (q & Eq & Hq). apply Hp. rewrite <- (Inj q p (or_intror Hq) (or_introl eq_refl) Eq). exact Hq.
    + apply IH. intros p' q' H1 H2. apply Inj; right; assumption.
  - intros z Hz. apply in_map_iff in Hz. destruct Hz as ([u r] & <- & H). cbn [snd]. destruct (HQ u r H) as (Hu & Hr & Eu). apply filter_In. split; [apply zr_in, Z.mod_pos_bound; lia|]. apply N.eqb_eq. rewrite Xmod by exact Dt.
    rewrite <- E0 at 1. rewrite Xm by exact D0. replace (r0 + (r - r0))%Z with r by lia. rewrite <- (Same u r H). exact Eu.
Qed.
(* the fixed points of a translation *)
Definition fixed (S : list N) (r : Z) : nat := count (fun t => (X r t =? t)%N) S.
Lemma sum_stab S : sum S stab = sum zr (fixed S).
Proof. exact (sum_swap S zr (fun t r => (X r t =? t)%N)). Qed.
Lemma fixed_0 S : (forall s, In s S -> D s) -> fixed S 0 = length S.
Proof. intros H. unfold fixed, count. induction S as [|s S IH]; [reflexivity|]. cbn [filter]. rewrite X0 by (apply H; left; reflexivity). rewrite N.eqb_refl. cbn. rewrite IH by (intros; apply H; right; assumption). reflexivity. Qed.
End Orbits.

(* the size of the arrays: K entries, D states, n translations *)
Lemma size_bound (n D K x y extra : nat) : 1 <= n -> n * K <= D + extra -> extra <= y + (n - 1) * x -> y * y <= D -> x * x * x <= D -> (n = 1 -> extra = 0) ->
  (INR K + 1 / 4 <= (1 + 1 / INR n) * INR D / INR n + INR n)%R.
Proof.
  intros Hn H1 H2 Hy Hx H0. set (N := INR n). assert (N1 : (1 <= N)%R) by (apply (le_INR 1), Hn).
  apply le_INR in H1, Hy, Hx. rewrite mult_INR, plus_INR in H1. rewrite mult_INR in Hy. rewrite !mult_INR in Hx. fold N in H1.
  assert (PD : (0 <= INR D)%R) by apply pos_INR. assert (Px : (0 <= INR x)%R) by apply pos_INR. assert (Py : (0 <= INR y)%R) by apply pos_INR.
  assert (G : (N * (INR D + INR extra) + N * N * (1 / 4) <= (N + 1) * INR D + N * N * N)%R).
  { destruct (Nat.eq_dec n 1) as [E|E].
    - rewrite (H0 E). unfold N. rewrite E. cbn. lra.
    - assert (N2 : (2 <= N)%R) by (apply (le_INR 2); lia). apply le_INR in H2. rewrite plus_INR, mult_INR, minus_INR in H2 by exact Hn. change (INR 1) with 1%R in H2. fold N in H2.
      assert (B1 : (2 * N * INR y <= INR D + N * N)%R) by (pose proof (Rle_0_sqr (INR y - N)) as Q; unfold Rsqr in Q; lra).
      assert (B2 : (2 * N * ((N - 1) * INR x) <= INR D + 2 * N * N * N - 3 / 2 * N * N)%R).
      { set (c := (5 / 6 * N)%R). set (X := INR x) in *. assert (T : (0 <= (X - c) * (X - c) * (X + 2 * c))%R) by (apply Rmult_le_pos; [apply Rle_0_sqr|unfold c; lra]).
        assert (Eq : ((X - c) * (X - c) * (X + 2 * c) = X * X * X - 25 / 12 * (N * N) * X + 125 / 108 * (N * N * N))%R) by (unfold c; field).
        rewrite Eq in T. assert (S1 : (0 <= N * X)%R) by (apply Rmult_le_pos; lra). assert (S0 : (0 <= N * N)%R) by (apply Rmult_le_pos; lra). assert (S2 : (0 <= N * N * X)%R) by (apply Rmult_le_pos; lra). assert (S3 : (0 <= N * N * (N - 2))%R) by (apply Rmult_le_pos; lra). lra. }
      assert (P2 : (N * INR extra <= N * (INR y + (N - 1) * INR x))%R) by (apply Rmult_le_compat_l; lra). nra. }
  assert (NN : (0 < N * N)%R) by nra. apply (Rmult_le_reg_r (N * N)); [exact NN|].
  replace (((1 + 1 / N) * INR D / N + N) * (N * N))%R with ((N + 1) * INR D + N * N * N)%R by (field; lra).
  assert (P1 : (N * (N * INR K) <= N * (INR D + INR extra))%R) by (apply Rmult_le_compat_l; lra). nra.
Qed.
