(* Linear maps of an operator (scalar multiples, products with a matrix) and products of two operators with dynamic terms. *)
From Verif Require Import AuxN SpecC SpecExpm SpecFunc SpecHam M_func P_func M_ham P_ham P_ham2 P_ham3.
Local Open Scope nat_scope.

Section Ops.
Variable n : nat.
Variable atol : R.
Hypothesis Hatol : (0 <= atol)%R.
Context {F Args : Type}.
Variable call : F -> Args -> R -> C.
Variable h : hashing F Args.
Hypothesis NC : no_collision h.
Notation fn := (fn F Args).
Notation eval := (eval call).
Notation ham := (ham F Args).
Notation dval := (dval call).
Notation dwf := (dwf h).
Notation hwf := (hwf h).
Notation fsum := (fsum call).

Definition linear (v : cmat -> cmat) : Prop :=
  (forall A B, (forall i j, i < n -> j < n -> A i j = B i j) -> forall i j, i < n -> j < n -> v A i j = v B i j) /\
  (forall A B i j, v (mat_add A B) i j = (v A i j + v B i j)%C) /\ (forall c A i j, v (mat_scale c A) i j = (c * v A i j)%C).
Lemma linear_sum v (d : dict F Args) : linear v -> forall (w : fn * ref -> C) (g : fn * ref -> cmat) A i j,
  v (fold_left (fun A e => mat_add A (mat_scale (w e) (g e))) d A) i j = (v A i j + Csum d (fun e => w e * v (g e) i j))%C.
Proof.
  intros (E & Ad & Sc) w g. induction d as [|e d IH]; intros A i j; cbn [fold_left]; [rewrite Csum_nil; ring|]. rewrite IH, Ad, Sc, Csum_cons. ring.
Qed.

(* f replaces a matrix x by v x *)
Definition replaces (OK : mat -> Prop) (f : ref -> act ref) (v : cmat -> cmat) : Prop :=
  forall r s (Q : store -> ref -> Prop), buf r < next s -> OK (get s r) ->
     (forall s' r', frame s s' [buf r] -> (buf r' = buf r \/ (next s <= buf r' < next s' /\ frame s s' [])) -> ent (get s' r') = v (ent (get s r)) -> Q s' r') -> wp (f r) s Q.
Lemma wp_linear2 OK1 OK2 g f v v2 (self : ham) s : replaces OK1 g v -> replaces OK2 f v2 -> hwf s self ->
  OK1 (get s (static self)) -> (forall e, In e (dyn self) -> OK2 (get s (snd e))) ->
  wp (run st <- g (static self); run st <- clean n atol st; run d <- replace_terms n atol F Args h f (dyn self); check_is_dense F Args st d) s
    (fun s' H => hwf s' H /\ frame s s' (buf (static self) :: db (dyn self)) /\
      forall t, within n (atol * (1 + fsum (dyn self) t)) (at_time call s' H t) (fun i j => v (ent (get s (static self))) i j + Csum (dyn self) (fun e => eval (fst e) t * v2 (ent (get s (snd e))) i j))%C).
Proof.
  intros Hg Hf (NA & LA & KA) O1 O2.
  assert (NsA : ~ In (buf (static self)) (db (dyn self))) by (inversion NA; assumption).
  apply wp_bind. apply Hg; [apply LA; left; reflexivity|exact O1|]. intros s1 st1 Fr1 B1 V1.
  assert (Nx1 : next s <= next s1) by apply Fr1.
  assert (L1 : buf st1 < next s1) by (destruct B1 as [-> |[B _]]; [specialize (LA _ (or_introl eq_refl)); lia|lia]).
  apply wp_bind, wp_clean; [exact Hatol|exact L1|]. intros s2 st2 Fr2 B2 V2. assert (Nx2 : next s1 <= next s2) by apply Fr2.
  assert (L2 : buf st2 < next s2) by (destruct B2 as [-> |B]; lia).
  assert (Fr02 : frame s s2 [buf (static self)]) by (eapply frame_trans; [exact Fr1|exact Fr2|intros ? []]).
  assert (St2 : buf st2 = buf (static self) \/ next s <= buf st2).
  { destruct B2 as [-> |B]; [|right; lia]. destruct B1 as [-> |[B _]]; [left; reflexivity|right; lia]. }
  assert (NdA : ~ In (buf st2) (db (dyn self))).
  { intros I. destruct St2 as [E|E]; [rewrite E in I; exact (NsA I)|]. specialize (LA _ (or_intror I)). lia. }
  assert (Gd : forall e, In e (dyn self) -> get s2 (snd e) = get s (snd e)).
  { intros e I. apply (in_map (fun e => buf (snd e))) in I. eapply frame_get; [exact Fr02|apply LA; right; exact I|]. intros [E|[]]. apply NsA. rewrite E. exact I. }
  apply wp_bind. eapply wp_mono; [exact (wp_replace n atol Hatol call h OK2 f v2 Hf (dyn self) [] s2 ltac:(split; [inversion NA; assumption|split; [intros b I; specialize (LA b (or_intror I)); lia|exact KA]]) ltac:(intros e I; rewrite Gd by exact I; apply O2, I))|].
  intros s3 d3 (D3 & Fr3 & Db3 & V3). cbn [app] in *. unfold check_is_dense, wp. assert (Nx3 : next s2 <= next s3) by apply Fr3.
  split; [|split].
  - split; [constructor; [cbn [static dyn]; intros I; destruct (Db3 _ I) as [I1|I1]; [exact (NdA I1)|lia]|apply D3]|]. split; [|apply D3]. intros b [<- |I]; [cbn [static]; lia|apply D3, I].
  - eapply frame_trans; [eapply frame_weak; [exact Fr02|intros b [<- |[]]; left; reflexivity]|exact Fr3|]. intros b I _. right; exact I.
  - intros t i j Hi Hj. rewrite at_time_eq. cbn [static dyn].
    rewrite Rmult_plus_distr_l, Rmult_1_r. rewrite (frame_get s2 s3 _ st2 Fr3 L2 NdA). specialize (V2 i j Hi Hj). rewrite V1 in V2. specialize (V3 t i j Hi Hj).
    rewrite dval_nil in V3. rewrite (Csum_ext (dyn self) _ (fun e => eval (fst e) t * v2 (ent (get s (snd e))) i j)%C) in V3 by (intros e I; rewrite Gd by exact I; reflexivity).
    match goal with |- (Cabs (?a + ?b - (?c + ?d))%C <= _)%R => replace (a + b - (c + d))%C with ((a - c) + (b - (C0 + d)))%C by ring end.
    eapply Rle_trans; [apply Cabs_triangle|]. apply Rplus_le_compat; assumption.
Qed.
Lemma wp_linear OK1 OK2 g f v (self : ham) s : linear v -> replaces OK1 g v -> replaces OK2 f v -> hwf s self ->
  OK1 (get s (static self)) -> (forall e, In e (dyn self) -> OK2 (get s (snd e))) ->
  wp (run st <- g (static self); run st <- clean n atol st; run d <- replace_terms n atol F Args h f (dyn self); check_is_dense F Args st d) s
    (fun s' H => hwf s' H /\ frame s s' (buf (static self) :: db (dyn self)) /\
      forall t, within n (atol * (1 + fsum (dyn self) t)) (at_time call s' H t) (v (at_time call s self t))).
Proof.
  intros Lv Hg Hf HA O1 O2. eapply wp_mono; [exact (wp_linear2 OK1 OK2 g f v v self s Hg Hf HA O1 O2)|]. intros s' H (W & Fr & V). split; [exact W|]. split; [exact Fr|].
  intros t i j Hi Hj. unfold at_time at 2. rewrite (linear_sum v (dyn self) Lv). exact (V t i j Hi Hj).
Qed.
(* the same on a fresh copy *)
Lemma wp_linear_copy OK1 OK2 g f v (self : ham) s : linear v -> replaces OK1 g v -> replaces OK2 f v -> hwf s self ->
  OK1 (get s (static self)) -> (forall e, In e (dyn self) -> OK2 (get s (snd e))) ->
  wp (run new <- astype F Args h true self; run st <- g (static new); run st <- clean n atol st; run d <- replace_terms n atol F Args h f (dyn new); check_is_dense F Args st d) s
    (fun s' H => hwf s' H /\ frame s s' [] /\
      forall t, within n (atol * (1 + fsum (dyn self) t)) (at_time call s' H t) (v (at_time call s self t))).
Proof.
  intros Lv Hg Hf HA O1 O2. apply wp_bind. eapply wp_mono; [apply (wp_astype_true n); exact HA|]. intros s1 N Fc.
  assert (G := Fc). destruct G as (Fr & G & WN & Lb & M). destruct M as [M _].
  assert (Fe : forall t, fsum (dyn N) t = fsum (dyn self) t).
  { intros t. clear - M. induction M as [|e e' d d' (E & _) M IH]; [reflexivity|]. cbn [P_ham2.fsum fold_right]. unfold P_ham2.fsum in *. cbn [fold_right]. rewrite IH. injection E as <-. reflexivity. }
  eapply wp_mono; [apply (wp_linear OK1 OK2 g f v N s1 Lv Hg Hf WN)|].
  - rewrite G. exact O1.
  - clear - M O2. induction M as [|e e' d d' (_ & E & _) M IH]; [intros ? []|]. intros x [<- |I]; [rewrite E; apply O2; left; reflexivity|apply IH; [intros y J; apply O2; right; exact J|exact I]].
  - intros s' H (W & Fr2 & V). split; [exact W|]. split.
    + eapply frame_trans; [exact Fr|exact Fr2|]. intros b I L. apply Lb in I. lia.
    + intros t. rewrite <- Fe. intros i j Hi Hj. specialize (V t i j Hi Hj). destruct Lv as (Ext & _). rewrite (Ext _ (at_time call s self t)) in V; [exact V| |exact Hi|exact Hj].
      intros a b _ _. apply (copy_time call h s s1 self N t a b Fc).
Qed.
Lemma replaces_alloc (OK : mat -> Prop) (f : mat -> mat) v : (forall m, OK m -> ent (f m) = v (ent m)) -> replaces OK (fun r => run m <- read r; alloc (f m)) v.
Proof. intros E r s Q L O H. apply wp_bind, wp_read, wp_alloc. intros s' r' Fr N B G. apply H; [eapply frame_weak; [exact Fr|intros ? []]|right; split; [lia|exact Fr]|]. rewrite G. apply E, O. Qed.
Lemma replaces_lift (OK : mat -> Prop) (f : mat -> option mat) v : (forall m, OK m -> exists p, f m = Some p /\ ent p = v (ent m)) ->
  replaces OK (fun r => run m <- read r; run p <- lift (f m); alloc p) v.
Proof.
  intros E r s Q L O H. destruct (E _ O) as (p & E1 & E2). apply wp_bind, wp_read, wp_bind. eapply wp_lift; [exact E1|]. apply wp_alloc.
  intros s' r' Fr N B G. apply H; [eapply frame_weak; [exact Fr|intros ? []]|right; split; [lia|exact Fr]|]. rewrite G. exact E2.
Qed.
Lemma replaces_scale c : replaces (fun _ => True) (iscale c) (mat_scale c).
Proof. intros r s Q L O H. apply wp_iscale. intros s' Fr N E _. apply H; [exact Fr|left; reflexivity|exact E]. Qed.
Lemma linear_scale c : linear (mat_scale c).
Proof. split; [|split]; intros; unfold mat_scale, mat_add; [rewrite H by assumption; reflexivity|ring|ring]. Qed.
Lemma linear_right B : linear (fun A => mat_mul n A B).
Proof.
  split; [|split]; intros; unfold mat_mul, mat_scale, mat_add.
  - apply Csum_ext. intros k I. apply in_seq in I. rewrite H by lia. reflexivity.
  - rewrite <- Csum_add. apply Csum_ext. intros. ring.
  - rewrite <- Csum_mul_l. apply Csum_ext. intros. ring.
Qed.
Lemma linear_left B : linear (fun A => mat_mul n B A).
Proof.
  split; [|split]; intros; unfold mat_mul, mat_scale, mat_add.
  - apply Csum_ext. intros k I. apply in_seq in I. rewrite H by lia. reflexivity.
  - rewrite <- Csum_add. apply Csum_ext. intros. ring.
  - rewrite <- Csum_mul_l. apply Csum_ext. intros. ring.
Qed.
End Ops.
