From Verif Require Import AuxN SpecC SpecExpm SpecEvolve M_ode.
Local Open Scope nat_scope.

Lemma pairs_pack v : pairs (flat_map (fun z : C => [fst z; snd z]) v) = v.
Proof. induction v as [|[a b] v IH]; [reflexivity|]. cbn [flat_map app pairs fst snd]. rewrite IH. reflexivity. Qed.
Lemma combine_map {A B D} (f : A -> B) (g : A -> D) l : combine (map f l) (map g l) = map (fun x => (f x, g x)) l.
Proof. induction l as [|x l IH]; [reflexivity|]. cbn. rewrite IH. reflexivity. Qed.
Lemma firstn_len {A} n (a b : list A) : length a = n -> firstn n (a ++ b) = a.
Proof. intros <-. rewrite firstn_app, firstn_all, Nat.sub_diag. cbn [firstn]. apply app_nil_r. Qed.
Lemma skipn_len {A} n (a b : list A) : length a = n -> skipn n (a ++ b) = b.
Proof. intros <-. rewrite skipn_app, skipn_all, Nat.sub_diag. reflexivity. Qed.
Lemma format_pack m s (v : list C) nn : length v = rows s * cols s -> (m = Stack -> cols s = 1) -> (m = Real -> forall z, In z v -> snd z = 0%R) ->
  format m false nn s (pack m v) = Some v.
Proof.
  intros L S Rl. unfold format. destruct m; cbn [pack].
  - assert (LR : length v = rows s) by (rewrite L, (S eq_refl); lia).
    rewrite (firstn_len (rows s)), (skipn_len (rows s)) by (rewrite map_length; exact LR). unfold reshape. rewrite !map_length; replace (@length (R * R) v) with (rows s * cols s) by (symmetry; exact L); rewrite Nat.eqb_refl.
    f_equal. rewrite combine_map. rewrite <- (map_id v) at 2. apply map_ext. intros [a b]. reflexivity.
  - unfold reshape. rewrite !map_length; replace (@length (R * R) v) with (rows s * cols s) by (symmetry; exact L); rewrite Nat.eqb_refl. f_equal. rewrite map_map. rewrite <- (map_id v) at 2. apply map_ext_in. intros [a b] I. specialize (Rl eq_refl _ I). cbn in *. subst. reflexivity.
  - rewrite pairs_pack. unfold reshape. rewrite L, Nat.eqb_refl. reflexivity.
Qed.

Lemma pack_length m v : length (pack m v) = match m with Real => length v | _ => 2 * length v end.
Proof. destruct m; cbn [pack]; rewrite ?app_length, ?map_length; [change C with (R * R)%type; lia|reflexivity|]. induction v as [|z v IH]; [reflexivity|]. cbn [flat_map app length]. rewrite IH. cbn [length]. lia. Qed.
Lemma flat_nth (v : list C) i : nth (2 * i) (flat_map (fun z : C => [fst z; snd z]) v) 0%R = fst (nth i v C0)
  /\ nth (2 * i + 1) (flat_map (fun z : C => [fst z; snd z]) v) 0%R = snd (nth i v C0).
Proof.
  revert i. induction v as [|z v IH]; intros i.
  - cbn [flat_map]. rewrite !nth_overflow by (cbn; lia). split; reflexivity.
  - destruct i as [|i]; [split; reflexivity|]. replace (2 * S i) with (S (S (2 * i))) by lia. replace (S (S (2 * i)) + 1) with (S (S (2 * i + 1))) by lia. exact (IH i).
Qed.
Lemma stores_pack m (v : list C) : (m = Real -> forall z, In z v -> snd z = 0%R) -> stores m v (pack m v).
Proof.
  intros Rl. destruct m; (split; [exact (pack_length _ v)|intros i Hi]); cbn [pack].
  - rewrite app_nth1 by (rewrite map_length; exact Hi). rewrite app_nth2 by (rewrite map_length; unfold C in *; lia). rewrite map_length.
    replace (length v + i - @length (R * R) v) with i by (unfold C; lia). split; [exact (map_nth fst v C0 i)|exact (map_nth snd v C0 i)].
  - split; [exact (map_nth fst v C0 i)|]. apply (Rl eq_refl). apply nth_In. exact Hi.
  - apply flat_nth.
Qed.
Lemma stores_real m v y : stores m v y -> m = Real -> forall z, In z v -> snd z = 0%R.
Proof. intros S -> z I. destruct S as [_ S]. destruct (In_nth _ _ C0 I) as [i [Hi <-]]. exact (proj2 (S i Hi)). Qed.
Lemma stores_eq m v y : stores m v y -> y = pack m v.
Proof.
  intros S. pose proof (stores_pack m v (stores_real m v y S)) as S'. apply (nth_ext _ _ 0%R 0%R).
  - destruct m; destruct S as [L _]; rewrite L; symmetry; exact (pack_length _ v).
  - intros p Hp. destruct m; destruct S as [L S]; destruct S' as [L' S'].
    + destruct (Nat.lt_ge_cases p (length v)) as [Lt|Ge].
      * rewrite (proj1 (S p Lt)), (proj1 (S' p Lt)). reflexivity.
      * assert (Q : p - length v < length v) by lia. pose proof (proj2 (S _ Q)) as E1. pose proof (proj2 (S' _ Q)) as E2.
        replace (length v + (p - length v)) with p in E1, E2 by lia. rewrite E1, E2. reflexivity.
    + assert (Q : p < length v) by lia. rewrite (proj1 (S p Q)), (proj1 (S' p Q)). reflexivity.
    + assert (Q : p / 2 < length v) by (apply Nat.div_lt_upper_bound; lia). pose proof (Nat.div_mod p 2 ltac:(lia)) as D. pose proof (Nat.mod_upper_bound p 2 ltac:(lia)) as U.
      destruct (S _ Q) as [A1 A2]. destruct (S' _ Q) as [B1 B2]. destruct (p mod 2) as [|[|k]]; [| |lia].
      * replace p with (2 * (p / 2)) by lia. rewrite A1, B1. reflexivity.
      * rewrite D, A2, B2. reflexivity.
Qed.

Section Plain.
Variables (flow : R -> R -> list R -> list R) (m : mode) (s : shape) (t0 nn : R) (psi : R -> list C).
Hypothesis Hlen : forall t, length (psi t) = rows s * cols s.
Hypothesis Hst : m = Stack -> cols s = 1.
Hypothesis Hreal : m = Real -> forall t z, In z (psi t) -> snd z = 0%R.
Hypothesis Hflow : forall r t, flow r t (pack m (psi r)) = pack m (psi t).
Lemma format_psi t : format m false nn s (pack m (psi t)) = Some (psi t).
Proof. apply format_pack; [apply Hlen|exact Hst|]. intros Em. apply Hreal. exact Em. Qed.
Lemma plain_list ts : forall st, v0 st = pack m (psi t0) -> y st = pack m (psi (now st)) -> (fresh st = true -> now st = t0) ->
  evolve_list flow m false nn s t0 st ts = Some (map psi ts).
Proof.
  induction ts as [|t ts IH]; intros st V Y F; [reflexivity|]. cbn [evolve_list map]. destruct (Req_EM_T t t0) as [E|NE].
  - rewrite V, format_psi. cbv zeta. change (in_place m false (psi t0) (pack m (psi t0))) with (pack m (psi t0)). rewrite IH; [subst t; reflexivity|reflexivity| |exact F]. cbn [M_ode.y M_ode.now].
    destruct (fresh st) eqn:Ef; [rewrite (F eq_refl); reflexivity|exact Y].
  - rewrite Y, Hflow, format_psi. unfold in_place. rewrite IH; [reflexivity|exact V|reflexivity|discriminate].
Qed.
End Plain.

(* imaginary time, vectors *)
Lemma Rsum_nth (v : list C) f : Rsum (seq 0 (length v)) (fun i => f (nth i v C0)) = Rsum v f.
Proof.
  induction v as [|z v IH]; [reflexivity|]. cbn [length seq]. unfold Rsum in *. cbn [fold_right nth]. rewrite <- IH. rewrite <- seq_shift. 
  f_equal. generalize (seq 0 (length v)). intros l. induction l as [|a l IHl]; [reflexivity|]. cbn [map fold_right nth]. rewrite IHl. reflexivity.
Qed.
Lemma map_nth_seq (v : list C) (f : C -> C) : map (fun p => f (nth p v C0)) (seq 0 (length v)) = map f v.
Proof. induction v as [|z v IH]; [reflexivity|]. cbn [length seq map nth]. f_equal. rewrite <- seq_shift, map_map. exact IH. Qed.
Lemma normalised_vec n nn v : length v = n -> normalised (Vec n) nn v = vscale (/ (vnorm v / nn)) v.
Proof.
  intros L. unfold normalised. cbn [cols]. transitivity (map (fun p => (RtoC (/ (vnorm v / nn)) * nth p v C0)%C) (seq 0 (length v))).
  - apply map_ext. intros p. rewrite Nat.mod_1_r. do 4 f_equal. unfold column_norm, vnorm, norm2. cbn [rows cols]. f_equal. rewrite <- L. rewrite <- (Rsum_nth v (fun z => fst z * fst z + snd z * snd z)%R).
    apply Rsum_ext. intros i _. rewrite Nat.mul_1_r, Nat.add_0_r. reflexivity.
  - exact (map_nth_seq v (fun z => (RtoC (/ (vnorm v / nn)) * z)%C)).
Qed.
Lemma vscale_scale a b v : vscale a (vscale b v) = vscale (a * b) v.
Proof. unfold vscale. rewrite map_map. apply map_ext. intros [p q]. unfold Cmul, RtoC. cbn [fst snd]. f_equal; ring. Qed.
Lemma vscale_1 v : vscale 1 v = v.
Proof. unfold vscale. rewrite <- (map_id v) at 2. apply map_ext. intros [p q]. unfold Cmul, RtoC. cbn [fst snd]. f_equal; ring. Qed.
Lemma norm2_scale c v : norm2 (vscale c v) = (c * c * norm2 v)%R.
Proof. unfold norm2, Rsum, vscale. induction v as [|[p q] v IH]; cbn [map fold_right]; [ring|]. rewrite IH. unfold Cmul, RtoC. cbn [fst snd]. ring. Qed.
Lemma vnorm_scale c v : (0 < c)%R -> vnorm (vscale c v) = (c * vnorm v)%R.
Proof. intros H. unfold vnorm. rewrite norm2_scale, sqrt_mult_alt by (apply Rle_0_sqr). rewrite sqrt_square by lra. reflexivity. Qed.
Lemma vnorm_pos v : (vnorm v <> 0 -> 0 < vnorm v)%R.
Proof. intros H. pose proof (sqrt_pos (norm2 v)) as P. unfold vnorm in *. lra. Qed.

Section Imag.
Variables (flow : R -> R -> list R -> list R) (m : mode) (n : nat) (t0 : R) (psi : R -> list C).
Hypothesis Hm : m <> Stack.
Hypothesis Hlen : forall t, length (psi t) = n.
Hypothesis Hreal : m = Real -> forall t z, In z (psi t) -> snd z = 0%R.
Hypothesis Hnz : forall t, vnorm (psi t) <> 0%R.
Hypothesis Hflow : forall c r t, (0 < c)%R -> flow r t (pack m (vscale c (psi r))) = pack m (vscale c (psi t)).
Let N := vnorm (psi t0).
Let target t := vscale (N / vnorm (psi t)) (psi t).
Lemma vscale_real c v : (m = Real -> forall z : C, In z v -> snd z = 0%R) -> m = Real -> forall z, In z (vscale c v) -> snd z = 0%R.
Proof. intros H E z I. apply in_map_iff in I. destruct I as [x [<- I]]. unfold Cmul, RtoC. cbn [fst snd]. rewrite (H E x I). ring. Qed.
Lemma format_imag c t : (0 < c)%R -> format m true N (Vec n) (pack m (vscale c (psi t))) = Some (target t).
Proof.
  intros H. pose proof (vnorm_pos _ (Hnz t)) as P. pose proof (vnorm_pos _ (Hnz t0)) as P0. fold N in P0.
  assert (L : length (vscale c (psi t)) = n) by (unfold vscale; rewrite map_length; apply Hlen).
  pose proof (format_pack m (Vec n) (vscale c (psi t)) N) as F. cbn [rows cols] in F. rewrite Nat.mul_1_r in F. specialize (F L (fun _ => eq_refl)).
  specialize (F (vscale_real c (psi t) (fun E => Hreal E t))). unfold format in *.
  match type of F with match ?X with Some _ => _ | None => _ end = _ => destruct X as [o|]; [|discriminate F] end. injection F as ->. f_equal.
  rewrite normalised_vec by exact L. rewrite vscale_scale. unfold target. f_equal. rewrite vnorm_scale by exact H. field. repeat split; lra.
Qed.
Lemma target_pos t : (0 < N / vnorm (psi t))%R.
Proof. apply Rdiv_lt_0_compat; apply vnorm_pos, Hnz. Qed.
Lemma target_t0 : target t0 = psi t0.
Proof. unfold target. fold N. replace (N / N)%R with 1%R; [apply vscale_1|]. field. exact (Hnz t0). Qed.
Lemma imag_list ts : forall st c, (0 < c)%R -> v0 st = pack m (psi t0) -> y st = pack m (vscale c (psi (now st))) -> (fresh st = true -> now st = t0) ->
  evolve_list flow m true N (Vec n) t0 st ts = Some (map target ts).
Proof.
  induction ts as [|t ts IH]; intros st c Hc V Y F; [reflexivity|]. cbn [evolve_list map]. destruct (Req_EM_T t t0) as [E|NE].
  - rewrite V. rewrite <- (vscale_1 (psi t0)), format_imag by lra. cbv zeta.
    assert (W : in_place m true (target t0) (pack m (vscale 1 (psi t0))) = pack m (psi t0)) by (unfold in_place; destruct m; [congruence| |]; rewrite target_t0; reflexivity).
    rewrite W. destruct (fresh st) eqn:Ef.
    + erewrite (IH _ 1%R); [subst t; reflexivity|lra|reflexivity| |exact F]. cbn [M_ode.y M_ode.now]. rewrite (F eq_refl), vscale_1. reflexivity.
    + erewrite (IH _ c); [subst t; reflexivity|exact Hc|reflexivity|exact Y|discriminate].
  - rewrite Y, Hflow, format_imag by exact Hc. erewrite (IH _ (N / vnorm (psi t))%R); [reflexivity|apply target_pos|exact V| |discriminate].
    cbn [M_ode.y M_ode.now]. unfold in_place. destruct m; [congruence| |]; reflexivity.
Qed.
End Imag.
