(* The product of two operators with dynamic terms, and the operations of the API. *)
From Verif Require Import AuxN SpecC SpecExpm SpecFunc SpecHam M_func P_func M_ham P_ham P_ham2 P_ham3 P_ham4.
Local Open Scope nat_scope.

Section Ops.
Variable n : nat.
Variable atol : R.
Hypothesis Hatol : (0 <= atol)%R.
Context {F Args : Type}.
Variable call : F -> Args -> R -> C.
Variable h : hashing F Args.
Hypothesis NC : no_collision h.
Notation fn := (fn F Args).
Notation dict := (dict F Args).
Notation eval := (eval call).
Notation ham := (ham F Args).
Notation dval := (dval call).
Notation dwf := (dwf h).
Notation hwf := (hwf h).
Notation fsum := (fsum call).

Definition acc_inv s0 s (d : dict) (X : R -> cmat) (E : R -> R) : Prop :=
  dwf s d /\ frame s0 s [] /\ (forall b, In b (db d) -> next s0 <= b) /\
  forall t i j, i < n -> j < n -> (Cabs (dval s d t i j - X t i j)%C <= atol * E t)%R.
Lemma acc_ext s0 s d X E X' E' : (forall t i j, i < n -> j < n -> X t i j = X' t i j) -> (forall t, E t = E' t) -> acc_inv s0 s d X E -> acc_inv s0 s d X' E'.
Proof. intros HX HE (A & B & D & G). split; [exact A|]. split; [exact B|]. split; [exact D|]. intros t i j Hi Hj. rewrite <- HX, <- HE by assumption. apply G; assumption. Qed.
Lemma wp_acc s0 s d X E f p k : acc_inv s0 s d X E -> hash h f = Some k ->
  wp (accumulate n atol F Args h d f p) s (fun s' d' => acc_inv s0 s' d' (fun t i j => X t i j + eval f t * ent p i j)%C (fun t => E t + Cabs (eval f t))%R /\
    forall e, In e d' -> In e d \/ hash h (fst e) = Some k).
Proof.
  intros (D & Fr & Fs & V) Hk. unfold accumulate. destruct (lookup_total h d f k Hk) as [o Lo]. apply wp_bind. eapply wp_lift; [exact Lo|]. destruct o as [r|].
  - eapply wp_mono; [apply (wp_merge n atol Hatol call h NC mat_add C1 d f r p s op_add D Lo)|].
    intros s' d' (D' & Fr' & Ib & (k' & Hk' & (e & Ie & He & Hr) & Hd') & V'). rewrite Hk in Hk'. injection Hk' as <-. split.
    + split; [exact D'|]. split; [eapply frame_trans; [exact Fr|exact Fr'|]; intros b [<- |[]] L; specialize (Fs _ Ib); lia|]. split.
      * intros b I. unfold db in I. apply in_map_iff in I. destruct I as (e' & <- & I). destruct (Hd' e' I) as [I1|[_ [E1|L1]]]; [apply Fs; apply (in_map (fun e => buf (snd e))); exact I1|rewrite E1; apply Fs; exact Ib|destruct Fr; lia].
      * intros t i j Hi Hj. specialize (V t i j Hi Hj). specialize (V' t i j Hi Hj). rewrite Rmult_plus_distr_l, Rplus_comm. eapply Cabs_chain; [exact V'|].
        match goal with |- (Cabs ?x <= _)%R => replace x with (dval s d t i j - X t i j)%C by ring end. exact V.
    + intros e' I. destruct (Hd' e' I) as [I1|[I1 _]]; [left; exact I1|right; exact I1].
  - apply lookup_none in Lo. destruct Lo as (k' & Hk' & Hd). rewrite Hk in Hk'. injection Hk' as <-. destruct (almost_zero n atol p) eqn:Z.
    + apply wp_ret. split; [|intros e I; left; exact I]. split; [exact D|]. split; [exact Fr|]. split; [exact Fs|]. intros t i j Hi Hj. rewrite Rmult_plus_distr_l. eapply Cabs_chain; [apply V; assumption|].
      match goal with |- (Cabs ?x <= _)%R => replace x with (- (eval f t * ent p i j))%C by ring end. rewrite Cabs_opp, Cabs_mul, Rmult_comm.
      apply Rmult_le_compat_r; [apply Cabs_ge0|]. apply (almost_zero_t n atol p Z); assumption.
    + apply wp_bind, wp_alloc. intros s' r Fr' N B G. eapply wp_lift; [eapply put_new; [exact Hk|exact Hd]|]. destruct D as (Nd & Ld & Kd). split.
      * split; [|split; [|split]].
        { split; [|split].
          - rewrite db_app. apply NoDup_app2; [exact Nd|constructor; [intros []|constructor]|]. intros b I [<- |[]]. cbn [snd] in I. apply Ld in I. lia.
          - intros b I. rewrite db_app in I. apply in_app_or in I. destruct I as [I|[<- |[]]]; [apply Ld in I; lia|cbn [snd]; lia].
          - eapply keys_add; eassumption. }
        { eapply frame_trans; [exact Fr|exact Fr'|intros ? []]. }
        { intros b I. rewrite db_app in I. apply in_app_or in I. destruct I as [I|[<- |[]]]; [apply Fs, I|cbn [snd]; destruct Fr; lia]. }
        { intros t i j Hi Hj. rewrite dval_app, dval_cons, dval_nil. cbn [fst snd]. rewrite G. rewrite (dval_frame call s s' [] d t i j Fr') by (intros b I; split; [apply Ld, I|intros []]).
          specialize (V t i j Hi Hj). match goal with |- (Cabs ?x <= _)%R => replace x with (dval s d t i j - X t i j)%C by ring end.
          rewrite Rmult_plus_distr_l. assert (0 <= atol * Cabs (eval f t))%R by (apply Rmult_le_pos; [exact Hatol|apply Cabs_ge0]). lra. }
      * intros e I. apply in_app_or in I. destruct I as [I|[<- |[]]]; [left; exact I|right; exact Hk].
Qed.
Definition Rsum {T} (l : list T) (f : T -> R) : R := fold_right (fun x r => (f x + r)%R) 0%R l.
Lemma wp_acc_loop {T} s0 (body : T -> dict -> act dict) (DX : T -> R -> cmat) (DE : T -> R -> R) : forall l,
  (forall x d s X E, In x l -> acc_inv s0 s d X E -> wp (body x d) s (fun s' d' => acc_inv s0 s' d' (fun t i j => X t i j + DX x t i j)%C (fun t => E t + DE x t)%R)) ->
  forall d s X E, acc_inv s0 s d X E -> wp (for_ l body d) s (fun s' d' => acc_inv s0 s' d' (fun t i j => X t i j + Csum l (fun x => DX x t i j))%C (fun t => E t + Rsum l (fun x => DE x t))%R).
Proof.
  induction l as [|x l IH]; intros Hb d s X E I; cbn [for_].
  - apply wp_ret. eapply acc_ext; [| |exact I]; [intros; rewrite Csum_nil; ring|intros; cbn; ring].
  - apply wp_bind. eapply wp_mono; [apply Hb; [left; reflexivity|exact I]|]. intros s1 d1 I1. eapply wp_mono; [apply IH; [intros; apply Hb; [right; assumption|assumption]|exact I1]|].
    intros s2 d2 I2. eapply acc_ext; [| |exact I2]; [intros; rewrite Csum_cons; ring|intros; cbn [Rsum fold_right]; fold (Rsum l (fun x => DE x t)); ring].
Qed.
(* static * dynamic: the functions are all different *)
Lemma wp_first s0 (A0 : mat) : forall (l : dict) d s X E, P_ham.keys_ok h l -> (forall b, In b (db l) -> b < next s0) ->
  (forall e e', In e d -> In e' l -> hash h (fst e) <> hash h (fst e')) -> acc_inv s0 s d X E ->
  wp (for_ l (fun e d => run m <- read (snd e); let p := product n A0 m in if almost_zero n atol p then ret d else run r <- alloc p; lift (put F Args h d (fst e) r)) d) s
    (fun s' d' => acc_inv s0 s' d' (fun t i j => X t i j + Csum l (fun e => eval (fst e) t * mat_mul n (ent A0) (ent (get s0 (snd e))) i j))%C (fun t => E t + fsum l t)%R).
Proof.
  induction l as [|e l IH]; intros d s X E K L Df I; cbn [for_].
  - apply wp_ret. eapply acc_ext; [| |exact I]; [intros; rewrite Csum_nil; ring|intros; cbn; ring].
  - destruct (keys_split h [] e l K) as [K1 K2]. cbn [app] in *. destruct (proj2 K e (or_introl eq_refl)) as [k Hk].
    assert (Ge : get s (snd e) = get s0 (snd e)) by (eapply frame_get; [apply I|apply L; left; reflexivity|intros []]).
    assert (W := wp_acc s0 s d X E (fst e) (product n A0 (get s (snd e))) k I Hk). unfold accumulate in W.
    rewrite (lookup_fresh h d (fst e) k Hk) in W by (intros e' I'; rewrite <- Hk; apply Df; [exact I'|left; reflexivity]).
    apply wp_bind, wp_bind, wp_read. cbv zeta. eapply wp_mono; [exact W|]. intros s1 d1 [I1 Hd1]. eapply wp_mono; [apply IH; [exact K1|intros b J; apply L; right; exact J| |exact I1]|].
    + intros a b Ia Ib. destruct (Hd1 a Ia) as [J|J]; [apply Df; [exact J|right; exact Ib]|]. rewrite J, <- Hk. intros Eq. apply (K2 b Ib). symmetry. exact Eq.
    + intros s2 d2 I2. eapply acc_ext; [| |exact I2]; [intros; rewrite Csum_cons, Ge; cbn [product ent]; ring|intros; rewrite fsum_cons; ring].
Qed.
Lemma Rsum_fsum d t : Rsum d (fun e => Cabs (eval (fst e) t)) = fsum d t. Proof. reflexivity. Qed.
Lemma Rsum_ext {T} (l : list T) f g : (forall x, In x l -> f x = g x) -> Rsum l f = Rsum l g.
Proof. induction l as [|x l IH]; intros H; cbn; [reflexivity|]. fold (Rsum l f) (Rsum l g). rewrite IH by (intros; apply H; right; assumption). rewrite H by (left; reflexivity). reflexivity. Qed.
Lemma Rsum_mul_l {T} (l : list T) c f : Rsum l (fun x => c * f x)%R = (c * Rsum l f)%R.
Proof. induction l as [|x l IH]; cbn; [ring|]. fold (Rsum l f) (Rsum l (fun x => (c * f x)%R)). rewrite IH. ring. Qed.
Lemma Rsum_mul_r {T} (l : list T) c f : Rsum l (fun x => f x * c)%R = (Rsum l f * c)%R.
Proof. induction l as [|x l IH]; cbn; [ring|]. fold (Rsum l f) (Rsum l (fun x => (f x * c)%R)). rewrite IH. ring. Qed.

Variable fuel : nat.
Lemma imul_dynamic_ok s (A B : ham) : hwf s A -> hwf s B ->
  (forall e1 e2, In e1 (dyn A) -> In e2 (dyn B) -> exists f k, fmul h fuel (fst e1) (fst e2) = Some f /\ hash h f = Some k) ->
  wp (imul_dynamic n atol F Args h fuel A B) s (fun s' H => hwf s' H /\ frame s s' [] /\
    forall t, within n (atol * (fsum (dyn A) t + fsum (dyn B) t + fsum (dyn A) t * fsum (dyn B) t)) (at_time call s' H t) (mat_mul n (at_time call s A t) (at_time call s B t))).
Proof.
  intros (NA & LA & KA) (NB & LB & KB) Hm. unfold imul_dynamic.
  apply wp_bind, wp_read, wp_bind, wp_read, wp_bind, wp_alloc. intros s1 st Fr1 N1 B1 G1.
  assert (GA : forall e, In e (dyn A) -> buf (snd e) < next s1 /\ get s1 (snd e) = get s (snd e)).
  { intros e I. apply (in_map (fun e => buf (snd e))) in I. specialize (LA _ (or_intror I)). split; [lia|]. eapply frame_get; [exact Fr1|exact LA|intros []]. }
  assert (GB : forall e, In e (dyn B) -> buf (snd e) < next s1 /\ get s1 (snd e) = get s (snd e)).
  { intros e I. apply (in_map (fun e => buf (snd e))) in I. specialize (LB _ (or_intror I)). split; [lia|]. eapply frame_get; [exact Fr1|exact LB|intros []]. }
  assert (I0 : acc_inv s1 s1 [] (fun _ _ _ => C0) (fun _ => 0%R)).
  { split; [split; [constructor|split; [intros ? []|split; [constructor|intros ? []]]]|]. split; [apply frame_refl|]. split; [intros ? []|]. intros t i j _ _. rewrite dval_nil. apply Cabs_refl. lra. }
  apply wp_bind. eapply wp_mono; [apply (wp_first s1 (get s (static A)) (dyn B) [] s1 (fun _ _ _ => C0) (fun _ => 0%R) KB); [|intros ? ? []|exact I0]|].
  { intros b I. specialize (LB b (or_intror I)). lia. }
  intros s2 d2 I2. apply wp_bind.
  eapply wp_mono; [apply (wp_acc_loop s1 _ (fun e t i j => eval (fst e) t * mat_mul n (ent (get s (snd e))) (ent (get s (static B))) i j)%C (fun e t => Cabs (eval (fst e) t))); [|exact I2]|].
  { intros e d s3 X E Ie I3. destruct (GA e Ie) as [Le Ge]. apply wp_bind, wp_read. rewrite (frame_get s1 s3 [] (snd e)) by (apply I3 || exact Le || intros []). rewrite Ge.
    destruct (proj2 KA e Ie) as [k Hk]. eapply wp_mono; [apply wp_acc; [exact I3|exact Hk]|]. intros s4 d4 [I4 _]. exact I4. }
  intros s3 d3 I3. apply wp_bind.
  eapply wp_mono; [apply (wp_acc_loop s1 _ (fun e1 t i j => Csum (dyn B) (fun e2 => eval (fst e1) t * eval (fst e2) t * mat_mul n (ent (get s (snd e1))) (ent (get s (snd e2))) i j)%C) (fun e1 t => Rsum (dyn B) (fun e2 => Cabs (eval (fst e1) t) * Cabs (eval (fst e2) t))%R)); [|exact I3]|].
  { intros e1 d s4 X E Ie1 I4. eapply (wp_acc_loop s1 _ (fun e2 t i j => eval (fst e1) t * eval (fst e2) t * mat_mul n (ent (get s (snd e1))) (ent (get s (snd e2))) i j)%C (fun e2 t => Cabs (eval (fst e1) t) * Cabs (eval (fst e2) t))%R); [|exact I4].
    intros e2 d' s5 X' E' Ie2 I5. destruct (GA e1 Ie1) as [L1 G1']. destruct (GB e2 Ie2) as [L2 G2']. apply wp_bind, wp_read, wp_bind, wp_read.
    rewrite (frame_get s1 s5 [] (snd e1)), (frame_get s1 s5 [] (snd e2)) by (apply I5 || assumption || intros []). rewrite G1', G2'.
    destruct (Hm e1 e2 Ie1 Ie2) as (f & k & Hf & Hk). apply wp_bind. eapply wp_lift; [exact Hf|]. eapply wp_mono; [apply wp_acc; [exact I5|exact Hk]|].
    intros s6 d6 [I6 _]. eapply acc_ext; [| |exact I6]; [intros t i j _ _; cbv beta; rewrite (fmul_eval call h NC fuel _ _ _ Hf t); reflexivity|intros t; cbv beta; rewrite (fmul_eval call h NC fuel _ _ _ Hf t), Cabs_mul; reflexivity]. }
  intros s4 d4 (D4 & Fr4 & Fs4 & V4). apply wp_ret. split; [|split].
  - cbn [static dyn M_ham.static M_ham.dyn]. split; [cbn [static dyn]; constructor; [|apply D4]|].
    + intros I. apply Fs4 in I. lia.
    + split; [|apply D4]. cbn [static dyn]. intros b [<- |I]; [destruct Fr4; lia|apply D4, I].
  - eapply frame_trans; [exact Fr1|exact Fr4|intros ? []].
  - intros t i j Hi Hj. rewrite at_time_eq. cbn [static dyn]. rewrite (frame_get s1 s4 [] st Fr4 ltac:(lia) ltac:(intros [])), G1. cbn [product ent].
    specialize (V4 t i j Hi Hj). cbv beta in V4. rewrite Rplus_0_l in V4.
    rewrite (Csum_ext (dyn B) (fun e => eval (fst e) t * mat_mul n (ent (get s (static A))) (ent (get s1 (snd e))) i j)%C (fun e => eval (fst e) t * mat_mul n (ent (get s (static A))) (ent (get s (snd e))) i j)%C) in V4
      by (intros e I; rewrite (proj2 (GB e I)); reflexivity).
    rewrite Rsum_fsum in V4.
    rewrite (Rsum_ext (dyn A) (fun x => Rsum (dyn B) (fun e2 => Cabs (eval (fst x) t) * Cabs (eval (fst e2) t))%R) (fun x => Cabs (eval (fst x) t) * fsum (dyn B) t)%R) in V4
      by (intros x _; rewrite Rsum_mul_l, Rsum_fsum; reflexivity).
    rewrite Rsum_mul_r, Rsum_fsum in V4.
    assert (M : mat_mul n (at_time call s A t) (at_time call s B t) i j = (mat_mul n (ent (get s (static A))) (ent (get s (static B))) i j +
       (C0 + Csum (dyn B) (fun e => eval (fst e) t * mat_mul n (ent (get s (static A))) (ent (get s (snd e))) i j)
        + Csum (dyn A) (fun e => eval (fst e) t * mat_mul n (ent (get s (snd e))) (ent (get s (static B))) i j)
        + Csum (dyn A) (fun e1 => Csum (dyn B) (fun e2 => eval (fst e1) t * eval (fst e2) t * mat_mul n (ent (get s (snd e1))) (ent (get s (snd e2))) i j))))%C).
    { unfold at_time at 1. rewrite (linear_sum n (fun X => mat_mul n X (at_time call s B t)) (dyn A) (linear_right n _)).
      assert (Hr : forall X, mat_mul n X (at_time call s B t) i j = (mat_mul n X (ent (get s (static B))) i j + Csum (dyn B) (fun e => eval (fst e) t * mat_mul n X (ent (get s (snd e))) i j))%C).
      { intros X. unfold at_time. exact (linear_sum n (fun Y => mat_mul n X Y) (dyn B) (linear_left n X) _ _ _ i j). }
      rewrite Hr. rewrite (Csum_ext (dyn A) _ (fun e => eval (fst e) t * mat_mul n (ent (get s (snd e))) (ent (get s (static B))) i j + Csum (dyn B) (fun e2 => eval (fst e) t * eval (fst e2) t * mat_mul n (ent (get s (snd e))) (ent (get s (snd e2))) i j))%C).
      - rewrite Csum_add. ring.
      - intros e _. rewrite Hr. rewrite (Csum_ext (dyn B) (fun e2 => eval (fst e) t * eval (fst e2) t * mat_mul n (ent (get s (snd e))) (ent (get s (snd e2))) i j)%C (fun e2 => eval (fst e) t * (eval (fst e2) t * mat_mul n (ent (get s (snd e))) (ent (get s (snd e2))) i j))%C) by (intros; ring).
        rewrite Csum_mul_l. ring. }
    rewrite M. match goal with |- (Cabs (?a + ?b - (?a + ?c))%C <= _)%R => replace (a + b - (a + c))%C with (b - c)%C by ring end.
    eapply Rle_trans; [exact V4|]. right. ring.
Qed.
End Ops.
