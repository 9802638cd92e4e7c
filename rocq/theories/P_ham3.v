(* Values of sums, products and views of operators. *)
From Verif Require Import AuxN SpecC SpecExpm SpecFunc SpecHam M_func P_func M_ham P_ham P_ham2.
Local Open Scope nat_scope.

Section Ops.
Variable n : nat.
Variable atol : R.
Hypothesis Hatol : (0 <= atol)%R.
Context {F Args : Type}.
Variable call : F -> Args -> R -> C.
Variable h : hashing F Args.
Hypothesis NC : no_collision h.
Notation fn := (fn F Args).
Notation dict := (dict F Args).
Notation ham := (ham F Args).
Notation eval := (eval call).
Notation dval := (dval call).
Notation keys_ok := (keys_ok h).
Notation dwf := (dwf h).
Notation hwf := (hwf h).
Notation fsum := (fsum call).

Lemma at_time_eq s (H : ham) t i j : at_time call s H t i j = (ent (get s (static H)) i j + dval s (dyn H) t i j)%C.
Proof.
  unfold at_time, P_ham.dval. generalize (ent (get s (static H))) as A. induction (dyn H) as [|e d IH]; intros A; cbn [fold_left].
  - rewrite Csum_nil. ring.
  - rewrite IH, Csum_cons. unfold mat_add, mat_scale. ring.
Qed.
Lemma at_time_frame s s' W (H : ham) t i j : frame s s' W -> (forall b, In b (buf (static H) :: db (dyn H)) -> b < next s /\ ~ In b W) -> at_time call s' H t i j = at_time call s H t i j.
Proof.
  intros Fr L. rewrite !at_time_eq. rewrite (frame_get s s' W _ Fr) by (apply L; left; reflexivity).
  rewrite (dval_frame call s s' W _ t i j Fr); [reflexivity|]. intros b I. apply L. right; exact I.
Qed.
Lemma NoDup_app_right {X} (l1 l2 : list X) : NoDup (l1 ++ l2) -> NoDup l2. Proof. induction l1; [auto|]. intros N. inversion N; auto. Qed.
Lemma NoDup_app_left {X} (l1 l2 : list X) : NoDup (l1 ++ l2) -> NoDup l1.
Proof. induction l1 as [|x l IH]; [constructor|]. intros N. inversion N; subst. constructor; [|auto]. intros I. apply H1. apply in_or_app; left; exact I. Qed.
Lemma NoDup_app_not {X} (l1 l2 : list X) x : NoDup (l1 ++ l2) -> In x l1 -> In x l2 -> False.
Proof. induction l1 as [|y l IH]; [intros _ []|]. intros N [<- |I] I2; inversion N; subst; [apply H1; apply in_or_app; right; exact I2|auto]. Qed.

(* sum and difference: from an operator (self) that may be written *)

(* sum and difference: from an operator (self) that may be written *)
Lemma wp_sum op sg miss (self other : ham) s : (forall A B i j, op A B i j = (A i j + sg * B i j)%C) ->
  (forall e s (Q : store -> ref -> Prop), buf (snd e) < next s ->
     (forall s' r, frame s s' [] -> (r = snd e /\ s' = s \/ next s <= buf r < next s') -> (forall i j, ent (get s' r) i j = (sg * ent (get s (snd e)) i j)%C) -> Q s' r) -> wp (miss e) s Q) ->
  hwf s self -> hwf s other -> NoDup ((buf (static self) :: db (dyn self)) ++ buf (static other) :: db (dyn other)) ->
  wp (run o <- read (static other); run st <- iop op (static self) o; run st <- clean n atol st;
      run d <- for_ (dyn other) (fun e d => run found <- lift (lookup F Args h d (fst e));
        match found with Some r => run Hd <- read (snd e); merge n atol F Args h op d (fst e) r Hd | None => run r <- miss e; lift (put F Args h d (fst e) r) end) (dyn self);
      check_is_dense F Args st d) s
    (fun s' H => hwf s' H /\ frame s s' (buf (static self) :: db (dyn self)) /\
      (forall b, In b (buf (static H) :: db (dyn H)) -> In b (buf (static self) :: db (dyn self)) \/ In b (db (dyn other)) \/ next s <= b) /\
      forall t, within n (atol * (1 + fsum (dyn other) t)) (at_time call s' H t) (fun i j => at_time call s self t i j + sg * at_time call s other t i j)%C).
Proof.
  intros Hop Hmiss HA HB ND. destruct HA as (NA & LA & KA). destruct HB as (NB & LB & KB).
  assert (NsA : ~ In (buf (static self)) (db (dyn self))) by (inversion NA; assumption).
  apply wp_bind, wp_read, wp_bind, wp_iop. intros s1 st1 Fr1 B1 V1 _.
  assert (Nx1 : next s <= next s1) by apply Fr1.
  assert (L1 : buf st1 < next s1) by (destruct B1 as [-> |[B _]]; [specialize (LA _ (or_introl eq_refl)); lia|lia]).
  apply wp_bind, wp_clean; [exact Hatol|exact L1|]. intros s2 st2 Fr2 B2 V2. assert (Nx2 : next s1 <= next s2) by apply Fr2.
  assert (L2 : buf st2 < next s2) by (destruct B2 as [-> |B]; lia).
  assert (Fr02 : frame s s2 [buf (static self)]) by (eapply frame_trans; [exact Fr1|exact Fr2|intros ? []]).
  assert (St2 : buf st2 = buf (static self) \/ next s <= buf st2).
  { destruct B2 as [-> |B]; [|lia]. destruct B1 as [-> |[B _]]; [left; reflexivity|right; lia]. }
  assert (NdA : ~ In (buf st2) (db (dyn self))).
  { intros I. destruct St2 as [E|E]; [rewrite E in I; exact (NsA I)|]. specialize (LA _ (or_intror I)). lia. }
  apply wp_bind. eapply wp_mono; [apply (wp_terms n atol Hatol call h NC op sg miss Hop Hmiss (dyn other) (dyn self) s2 s2 (db (dyn self)))|].
  - split; [inversion NA; assumption|]. split; [|exact KA]. intros b I. specialize (LA b (or_intror I)). lia.
  - apply NoDup_app2; [inversion NA; assumption|inversion NB; assumption|]. intros x I1 I2. apply (NoDup_app_not _ _ x ND); [right; exact I1|right; exact I2].
  - intros b I. split; [specialize (LB b (or_intror I)); lia|]. intros IW. apply (NoDup_app_not _ _ b ND); [right; exact IW|right; exact I].
  - exact KB.
  - apply frame_refl.
  - intros e e' I _ _. left. apply (in_map (fun e => buf (snd e))). exact I.
  - intros s3 d3 (D3 & Fr3 & Db3 & V3). unfold check_is_dense, wp. cbn [static dyn].
    assert (Nst : forall b, In b (db d3) -> b <> buf st2).
    { intros b I E. subst b. destruct (Db3 _ I) as [I1|[I1|I1]].
      - exact (NdA I1).
      - destruct St2 as [E|E]; [rewrite E in I1; apply (NoDup_app_not _ _ (buf (static self)) ND); [left; reflexivity|right; exact I1]|]. specialize (LB _ (or_intror I1)). lia.
      - lia. }
    assert (Nx3 : next s2 <= next s3) by apply Fr3.
    split; [|split; [|split]].
    + split; [constructor; [intros I; exact (Nst _ I eq_refl)|apply D3]|]. split; [|apply D3]. intros b [<- |I]; [cbn [static]; lia|apply D3, I].
    + eapply frame_trans; [eapply frame_weak; [exact Fr02|intros b [<- |[]]; left; reflexivity]|exact Fr3|]. intros b I _. right; exact I.
    + intros b [<- |I]; [destruct St2 as [-> |E]; [left; left; reflexivity|right; right; exact E]|].
      destruct (Db3 b I) as [I1|[I1|I1]]; [left; right; exact I1|right; left; exact I1|right; right; lia].
    + intros t i j Hi Hj. rewrite !at_time_eq. cbn [static dyn]. rewrite Rmult_plus_distr_l, Rmult_1_r.
      rewrite (frame_get s2 s3 _ st2 Fr3 L2 NdA). specialize (V2 i j Hi Hj). rewrite V1, Hop in V2. specialize (V3 t i j Hi Hj).
      rewrite (dval_frame call s s2 _ (dyn self) t i j Fr02) in V3 by (intros b I; split; [apply LA; right; exact I|intros [<- |[]]; exact (NsA I)]).
      rewrite (dval_frame call s s2 _ (dyn other) t i j Fr02) in V3
        by (intros b I; split; [apply LB; right; exact I|intros [<- |[]]; apply (NoDup_app_not _ _ (buf (static self)) ND); [left; reflexivity|right; exact I]]).
      replace (ent (get s2 st2) i j + dval s3 d3 t i j - (ent (get s (static self)) i j + dval s (dyn self) t i j + sg * (ent (get s (static other)) i j + dval s (dyn other) t i j)))%C
        with ((ent (get s2 st2) i j - (ent (get s (static self)) i j + sg * ent (get s (static other)) i j)) + (dval s3 d3 t i j - (dval s (dyn self) t i j + sg * dval s (dyn other) t i j)))%C by ring.
      eapply Rle_trans; [apply Cabs_triangle|]. apply Rplus_le_compat; assumption.
Qed.
Definition m1 : C := (- C1)%C.
Lemma miss_add (e : fn * ref) s (Q : store -> ref -> Prop) : buf (snd e) < next s ->
  (forall s' r, frame s s' [] -> (r = snd e /\ s' = s \/ next s <= buf r < next s') -> (forall i j, ent (get s' r) i j = (C1 * ent (get s (snd e)) i j)%C) -> Q s' r) -> wp (ret (snd e)) s Q.
Proof. intros L H. apply wp_ret. apply H; [apply frame_refl|left; split; reflexivity|]. intros. ring. Qed.
Lemma miss_sub (e : fn * ref) s (Q : store -> ref -> Prop) : buf (snd e) < next s ->
  (forall s' r, frame s s' [] -> (r = snd e /\ s' = s \/ next s <= buf r < next s') -> (forall i j, ent (get s' r) i j = (m1 * ent (get s (snd e)) i j)%C) -> Q s' r) -> wp (neg (snd e)) s Q.
Proof. intros L H. unfold neg. apply wp_bind, wp_read, wp_alloc. intros s' r Fr N B G. apply H; [exact Fr|right; lia|]. intros. rewrite G. cbn [ent]. unfold mat_opp, m1. ring. Qed.
Lemma op_add A B i j : mat_add A B i j = (A i j + C1 * B i j)%C. Proof. unfold mat_add. ring. Qed.
Lemma op_sub A B i j : mat_sub A B i j = (A i j + m1 * B i j)%C. Proof. unfold mat_sub, m1. ring. Qed.
Lemma within_ext e A A' B B' : (forall i j, A i j = A' i j) -> (forall i j, B i j = B' i j) -> within n e A B -> within n e A' B'.
Proof. intros E1 E2 H i j Hi Hj. rewrite <- E1, <- E2. apply H; assumption. Qed.

(* A += B *)
Lemma iadd_ok s (A B : ham) : hwf s A -> hwf s B -> NoDup ((buf (static A) :: db (dyn A)) ++ buf (static B) :: db (dyn B)) ->
  wp (iadd_ham n atol F Args h A B) s (fun s' H => hwf s' H /\ frame s s' (buf (static A) :: db (dyn A)) /\
    forall t, within n (atol * (1 + fsum (dyn B) t)) (at_time call s' H t) (mat_add (at_time call s A t) (at_time call s B t))).
Proof.
  intros HA HB ND. eapply wp_mono; [exact (wp_sum mat_add C1 (fun e => ret (snd e)) A B s op_add miss_add HA HB ND)|].
  intros s' H (W & Fr & _ & V). split; [exact W|]. split; [exact Fr|]. intros t. eapply within_ext; [reflexivity| |apply V]. intros i j. unfold mat_add. ring.
Qed.
(* a fresh copy of A and B share nothing *)
Lemma fresh_disjoint s s' (A N B : ham) : fresh_copy h s s' A N -> hwf s B -> hwf s' B /\ NoDup ((buf (static N) :: db (dyn N)) ++ buf (static B) :: db (dyn B)).
Proof.
  intros (Fr & G & WN & Lb & M) (NB & LB & KB). split.
  - split; [exact NB|]. split; [|exact KB]. intros b I. apply LB in I. destruct Fr; lia.
  - apply NoDup_app2; [apply WN|exact NB|]. intros b I1 I2. apply Lb in I1. apply LB in I2. lia.
Qed.
Lemma copy_time s s' (A N : ham) t i j : fresh_copy h s s' A N -> at_time call s' N t i j = at_time call s A t i j.
Proof. intros H. destruct (fresh_value call h s s' A N H) as [V1 V2]. rewrite !at_time_eq, V1, V2. reflexivity. Qed.
Lemma other_time s s' (A : ham) t i j : frame s s' [] -> hwf s A -> at_time call s' A t i j = at_time call s A t i j.
Proof. intros Fr (_ & L & _). eapply at_time_frame; [exact Fr|]. intros b I. split; [apply L, I|intros []]. Qed.
Lemma hwf_frame s s' W (A : ham) : frame s s' W -> hwf s A -> hwf s' A.
Proof. intros Fr (N & L & K). split; [exact N|]. split; [|exact K]. intros b I. apply L in I. destruct Fr; lia. Qed.
(* A + B, A - B *)
Lemma add_ok s (A B : ham) : hwf s A -> hwf s B ->
  wp (add_ham n atol F Args h A B) s (fun s' H => hwf s' H /\ frame s s' [] /\
    forall t, within n (atol * (1 + fsum (dyn B) t)) (at_time call s' H t) (mat_add (at_time call s A t) (at_time call s B t))).
Proof.
  intros HA HB. unfold add_ham. apply wp_bind. eapply wp_mono; [apply (wp_astype_true n); exact HA|]. intros s1 N Fc. destruct (fresh_disjoint _ _ _ _ B Fc HB) as [HB1 ND].
  assert (HN : hwf s1 N) by apply Fc.
  eapply wp_mono; [exact (wp_sum mat_add C1 (fun e => ret (snd e)) N B s1 op_add miss_add HN HB1 ND)|].
  intros s' H (W & Fr & _ & V). split; [exact W|]. split.
  - eapply frame_trans; [apply Fc|exact Fr|]. intros b I L. apply Fc in I. lia.
  - intros t. eapply within_ext; [reflexivity| |apply V]. intros i j. unfold mat_add. rewrite (copy_time s s1 A N t i j Fc), (other_time s s1 B t i j) by (apply Fc || exact HB). ring.
Qed.
Lemma sub_ok s (A B : ham) : hwf s A -> hwf s B ->
  wp (sub_ham n atol F Args h A B) s (fun s' H => hwf s' H /\ frame s s' [] /\
    forall t, within n (atol * (1 + fsum (dyn B) t)) (at_time call s' H t) (mat_sub (at_time call s A t) (at_time call s B t))).
Proof.
  intros HA HB. unfold sub_ham. apply wp_bind. eapply wp_mono; [apply (wp_astype_true n); exact HA|]. intros s1 N Fc. destruct (fresh_disjoint _ _ _ _ B Fc HB) as [HB1 ND].
  assert (HN : hwf s1 N) by apply Fc.
  eapply wp_mono; [exact (wp_sum mat_sub m1 (fun e => neg (snd e)) N B s1 op_sub miss_sub HN HB1 ND)|].
  intros s' H (W & Fr & _ & V). split; [exact W|]. split.
  - eapply frame_trans; [apply Fc|exact Fr|]. intros b I L. apply Fc in I. lia.
  - intros t. eapply within_ext; [reflexivity| |apply V]. intros i j. unfold mat_sub, m1. rewrite (copy_time s s1 A N t i j Fc), (other_time s s1 B t i j) by (apply Fc || exact HB). ring.
Qed.

(* loops that replace every matrix *)
Lemma wp_replace (OK : mat -> Prop) (f : ref -> act ref) (v : cmat -> cmat) :
  (forall r s (Q : store -> ref -> Prop), buf r < next s -> OK (get s r) ->
     (forall s' r', frame s s' [buf r] -> (buf r' = buf r \/ (next s <= buf r' < next s' /\ frame s s' [])) -> ent (get s' r') = v (ent (get s r)) -> Q s' r') -> wp (f r) s Q) ->
  forall rest done s, dwf s (done ++ rest) -> (forall e, In e rest -> OK (get s (snd e))) ->
  wp (for_ rest (fun e d => run r <- f (snd e); run d' <- lift (put F Args h d (fst e) r); run m <- read r;
        if almost_zero n atol m then lift (pop F Args h d' (fst e)) else ret d') (done ++ rest)) s
    (fun s' d' => dwf s' d' /\ frame s s' (db rest) /\ (forall b, In b (db d') -> In b (db (done ++ rest)) \/ next s <= b) /\
      forall t i j, i < n -> j < n -> (Cabs (dval s' d' t i j - (dval s done t i j + Csum rest (fun e => eval (fst e) t * v (ent (get s (snd e))) i j)))%C <= atol * fsum rest t)%R).
Proof.
  intros Hf. induction rest as [|e rest IH]; intros done s D Ok.
  - apply wp_ret. rewrite app_nil_r in *. split; [exact D|]. split; [apply frame_refl|]. split; [intros b I; left; exact I|]. intros t i j Hi Hj. rewrite Csum_nil. cbn [P_ham2.fsum fold_right].
    replace (dval s done t i j + C0)%C with (dval s done t i j) by ring. apply Cabs_refl. lra.
  - cbn [for_]. destruct D as (N & L & K). destruct e as [g r].
    assert (Ib : In (buf r) (db (done ++ (g, r) :: rest))) by (rewrite db_app; apply in_or_app; right; left; reflexivity).
    apply wp_bind, wp_bind. apply Hf; [apply L; exact Ib|apply (Ok (g, r)); left; reflexivity|]. intros s1 r' Fr Br V. cbn [snd] in *.
    destruct (keys_split h _ _ _ K) as [K1 K2]. assert (Kg : exists k, hash h g = Some k) by (apply (proj2 K (g, r)); apply in_or_app; right; left; reflexivity). destruct Kg as [k Hk].
    assert (Hd1 : forall e', In e' done -> hash h (fst e') <> Some k) by (intros e' I; rewrite <- Hk; apply (K2 e'); apply in_or_app; left; exact I).
    apply wp_bind. eapply wp_lift; [eapply put_old; [exact Hk|exact Hk|exact Hd1]|]. apply wp_bind, wp_read.
    assert (N0 := N). rewrite db_app in N0. cbn [db map snd] in N0. change (map (fun e => buf (snd e)) rest) with (db rest) in N0.
    assert (N1 := NoDup_remove_1 _ _ _ N0). assert (N2 := NoDup_remove_2 _ _ _ N0).
    assert (Lr : forall b, In b (db done ++ db rest) -> b < next s).
    { intros b I. apply L. rewrite db_app. apply in_app_or in I. apply in_or_app. destruct I; [left|right; right]; assumption. }
    assert (Nx : next s <= next s1) by apply Fr.
    assert (Br' : buf r' < next s1) by (destruct Br as [-> |[B _]]; [specialize (L _ Ib); lia|lia]).
    assert (Nr : ~ In (buf r') (db done ++ db rest)) by (destruct Br as [-> |[B _]]; [exact N2|intros I; apply Lr in I; lia]).
    assert (Dv : forall t i j, dval s1 done t i j = dval s done t i j).
    { intros. eapply dval_frame; [exact Fr|]. intros b I. split; [apply Lr; apply in_or_app; left; exact I|]. intros [<- |[]]. apply N2. apply in_or_app; left; exact I. }
    assert (Gr : forall e', In e' rest -> get s1 (snd e') = get s (snd e')).
    { intros e' I. apply (in_map (fun e => buf (snd e))) in I. eapply frame_get; [exact Fr|apply Lr; apply in_or_app; right; exact I|]. intros [E|[]]. apply N2. apply in_or_app; right. rewrite E. exact I. }
    assert (Frr : frame s s1 (db ((g, r) :: rest))) by (eapply frame_weak; [exact Fr|intros b [<- |[]]; left; reflexivity]).
    assert (P0 : forall t, (0 <= atol * Cabs (eval g t))%R) by (intros; apply Rmult_le_pos; [exact Hatol|apply Cabs_ge0]).
    destruct (almost_zero n atol (get s1 r')) eqn:Z.
    + eapply wp_lift; [eapply pop_old; [exact Hk|exact Hk|exact Hd1]|]. eapply wp_mono; [apply (IH done s1)|].
      * split; [rewrite db_app; exact N1|]. split; [|exact K1]. intros b I. rewrite db_app in I. apply Lr in I. lia.
      * intros e' I. rewrite Gr by exact I. apply Ok. right; exact I.
      * intros s2 d2 (D2 & Fr2 & Db2 & V2). split; [exact D2|]. split; [|split].
        { eapply frame_trans; [exact Frr|exact Fr2|]. intros b I _. right; exact I. }
        { intros b I. destruct (Db2 b I) as [I1|I1]; [left|right; lia]. rewrite db_app in *. apply in_app_or in I1. apply in_or_app. destruct I1; [left|right; right]; assumption. }
        { intros t i j Hi Hj. specialize (V2 t i j Hi Hj). rewrite Dv in V2. rewrite fsum_cons, Csum_cons. cbn [fst snd].
          rewrite (Csum_ext rest _ (fun e => eval (fst e) t * v (ent (get s (snd e))) i j)%C) in V2 by (intros e' I; rewrite Gr by exact I; reflexivity).
          pose proof (almost_zero_t n atol _ Z i j Hi Hj) as Az. rewrite V in Az. rewrite Rmult_plus_distr_l, Rplus_comm. eapply Cabs_chain; [exact V2|].
          match goal with |- (Cabs (?a + ?b - (?a + (?c + ?b)))%C <= _)%R => replace (a + b - (a + (c + b)))%C with (- c)%C by ring end.
          rewrite Cabs_opp, Cabs_mul, (Rmult_comm atol). apply Rmult_le_compat_l; [apply Cabs_ge0|exact Az]. }
    + apply wp_ret. change (done ++ (g, r') :: rest) with (done ++ [(g, r')] ++ rest). rewrite (app_assoc done [(g, r')] rest). eapply wp_mono; [apply (IH (done ++ [(g, r')]) s1)|].
      * rewrite <- app_assoc. cbn [app]. split; [|split].
        { rewrite db_app. cbn [db map snd]. apply NoDup_Add with (a := buf r') (l := db done ++ db rest); [apply Add_app|]. split; assumption. }
        { intros b I. rewrite db_app in I. cbn [db map snd] in I. apply in_app_or in I. destruct I as [I|[<- |I]]; [|exact Br'|].
          - specialize (Lr b ltac:(apply in_or_app; left; exact I)). lia.
          - specialize (Lr b ltac:(apply in_or_app; right; exact I)). lia. }
        { eapply keys_replace. exact K. }
      * intros e' I. rewrite Gr by exact I. apply Ok. right; exact I.
      * intros s2 d2 (D2 & Fr2 & Db2 & V2). split; [exact D2|]. split; [|split].
        { eapply frame_trans; [exact Frr|exact Fr2|]. intros b I _. right; exact I. }
        { intros b I. destruct (Db2 b I) as [I1|I1]; [|right; lia]. rewrite !db_app in *. apply in_app_or in I1. destruct I1 as [I1|I1].
          - apply in_app_or in I1. destruct I1 as [I1|[E|[]]]; [left; apply in_or_app; left; exact I1|]. cbn [snd] in E. destruct Br as [Eb|[B _]]; [left; apply in_or_app; right; left; cbn [snd]; congruence|right; lia].
          - left. apply in_or_app; right; right; exact I1. }
        { intros t i j Hi Hj. specialize (V2 t i j Hi Hj). rewrite dval_app, dval_cons, dval_nil, Dv in V2. cbn [fst snd] in V2. rewrite V in V2. rewrite fsum_cons, Csum_cons. cbn [fst snd].
          rewrite (Csum_ext rest _ (fun e => eval (fst e) t * v (ent (get s (snd e))) i j)%C) in V2 by (intros e' I; rewrite Gr by exact I; reflexivity).
          specialize (P0 t). rewrite Rmult_plus_distr_l.
          match type of V2 with (Cabs (?x - (?a + (?c + C0) + ?b))%C <= _)%R => replace (x - (a + (c + b)))%C with (x - (a + (c + C0) + b))%C by ring end. lra. }
Qed.
End Ops.
