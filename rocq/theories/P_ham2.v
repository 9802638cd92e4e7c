(* Copies, and loops over the dynamic terms. *)
From Verif Require Import AuxN SpecC SpecExpm SpecFunc SpecHam M_func P_func M_ham P_ham.
Local Open Scope nat_scope.

Lemma Forall2_impl_In {X Y} (P Q : X -> Y -> Prop) l l' : Forall2 P l l' -> (forall x y, In x l -> P x y -> Q x y) -> Forall2 Q l l'.
Proof. intros H. induction H as [|x y l l' R H IH]; intros HI; constructor; [apply HI; [left; reflexivity|exact R]|apply IH; intros; apply HI; [right; assumption|assumption]]. Qed.
Section Loops.
Variable n : nat.
Variable atol : R.
Hypothesis Hatol : (0 <= atol)%R.
Context {F Args : Type}.
Variable call : F -> Args -> R -> C.
Variable h : hashing F Args.
Hypothesis NC : no_collision h.
Notation fn := (fn F Args).
Notation dict := (dict F Args).
Notation ham := (ham F Args).
Notation eval := (eval call).
Notation dval := (dval call).
Notation keys_ok := (keys_ok h).
Notation dwf := (dwf h).

Definition hwf (s : store) (H : ham) : Prop :=
  NoDup (buf (static H) :: db (dyn H)) /\ (forall b, In b (buf (static H) :: db (dyn H)) -> b < next s) /\ keys_ok (dyn H).
Lemma hwf_dwf s H : hwf s H -> dwf s (dyn H).
Proof. intros (N & L & K). inversion N; subst. split; [assumption|]. split; [|exact K]. intros b I. apply L. right; exact I. Qed.

(* d2 is a new dictionary whose keys are kf of the keys of d and whose matrices are new arrays with the values v *)
Definition mapped (kf : fn -> option fn) (v : mat -> mat) (s s' : store) (d d2 : dict) : Prop :=
  Forall2 (fun e e' => kf (fst e) = Some (fst e') /\ get s' (snd e') = v (get s (snd e)) /\ next s <= buf (snd e') < next s') d d2 /\ NoDup (db d2).
Lemma mapped_bufs kf v s s' d d2 : mapped kf v s s' d d2 -> forall b, In b (db d2) -> next s <= b < next s'.
Proof.
  intros [H _] b I. apply in_map_iff in I. destruct I as [e' [<- I]]. induction H as [|e e2 d d2 R H IH]; [destruct I|]. destruct I as [<- |I]; [apply R|apply IH, I].
Qed.
Lemma wp_map_loop kf v body d : (forall e acc s, In e d -> buf (snd e) < next s ->
    wp (body e acc) s (fun s' acc' => exists f r, acc' = acc ++ [(f, r)] /\ kf (fst e) = Some f /\ frame s s' [] /\ next s <= buf r < next s' /\ get s' r = v (get s (snd e)))) ->
  forall (acc : dict) s, (forall b, In b (db d) -> b < next s) ->
  wp (for_ d body acc) s (fun s' d' => exists d2, d' = acc ++ d2 /\ frame s s' [] /\ mapped kf v s s' d d2).
Proof.
  induction d as [|e d IH]; intros Hb acc s L.
  - apply wp_ret. exists []. rewrite app_nil_r. split; [reflexivity|]. split; [apply frame_refl|]. split; constructor.
  - cbn [for_]. apply wp_bind. eapply wp_mono; [apply Hb; [left; reflexivity|apply L; left; reflexivity]|].
    intros s1 acc1 (f & r & -> & Kf & Fr & Br & G). eapply wp_mono.
    { apply IH; [intros; apply Hb; [right; assumption|assumption]|]. intros b I. assert (b < next s) by (apply L; right; exact I). destruct Fr. lia. }
    intros s2 d' (d2 & -> & Fr2 & M). exists ((f, r) :: d2). split; [rewrite <- app_assoc; reflexivity|]. split; [eapply frame_trans; [exact Fr|exact Fr2|intros ? []]|].
    pose proof (mapped_bufs _ _ _ _ _ _ M) as MB. destruct M as [M1 M2]. split.
    + constructor.
      * cbn [fst snd]. split; [exact Kf|]. split; [rewrite (frame_get s1 s2 [] r Fr2); [exact G|lia|intros []]|destruct Fr2; lia].
      * eapply Forall2_impl_In; [exact M1|]. intros e1 e2 I1 (A & B & D). split; [exact A|]. split; [|destruct Fr; lia].
        rewrite B. f_equal. apply (frame_get s s1 [] _ Fr); [apply L; right; apply (in_map (fun e => buf (snd e))); exact I1|intros []].
    + cbn. constructor; [|exact M2]. intros I. apply MB in I. lia.
Qed.
Lemma wp_copy_of x s (Q : store -> ref -> Prop) : (forall s' r, frame s s' [] -> next s <= buf r < next s' -> get s' r = get s x -> Q s' r) -> wp (copy_of x) s Q.
Proof. intros H. unfold copy_of. apply wp_bind, wp_read, wp_alloc. intros s' r Fr N B G. apply H; [exact Fr|lia|exact G]. Qed.

(* make with distinct keys *)
Lemma wp_make_false s st d : keys_ok d ->
  wp (make F Args h false st d) s (fun s' H => frame s s' [] /\ next s <= buf (static H) < next s' /\ get s' (static H) = get s st /\ dyn H = d).
Proof.
  intros K. unfold make. apply wp_bind, wp_read, wp_bind, wp_alloc. intros s1 r Fr N B G.
  apply wp_bind. apply wp_mono with (Q := fun s' d' => s' = s1 /\ d' = [] ++ d).
  - assert (L : forall rest acc, acc ++ rest = d -> wp (for_ rest (fun e d' =>
        run r <- ret (snd e); run found <- lift (lookup F Args h d' (fst e));
        match found with Some r' => run m' <- read r; run r'' <- iadd r' m'; lift (put F Args h d' (fst e) r'') | None => lift (put F Args h d' (fst e) r) end) acc) s1
        (fun s' d' => s' = s1 /\ d' = d)).
    { induction rest as [|e rest IH]; intros acc E; [apply wp_ret; split; [reflexivity|]; rewrite app_nil_r in E; exact E|].
      cbn [for_]. apply wp_bind, wp_bind, wp_ret, wp_bind. assert (Ke : exists k, hash h (fst e) = Some k) by (apply K; rewrite <- E; apply in_or_app; right; left; reflexivity).
      destruct Ke as [k Hk]. assert (Hn : forall e', In e' acc -> hash h (fst e') <> Some k).
      { intros e' I. rewrite <- E in K. destruct (keys_split h _ _ _ K) as [_ K2]. rewrite <- Hk. apply K2. apply in_or_app. left; exact I. }
      eapply wp_lift; [eapply lookup_fresh; eassumption|]. eapply wp_lift; [eapply put_new; eassumption|].
      apply IH. rewrite <- app_assoc. destruct e. exact E. }
    apply L. reflexivity.
  - intros s' d' [-> ->]. cbn [app]. unfold check_is_dense, wp. cbn [static dyn]. repeat split; [apply Fr|apply Fr|lia|lia|exact G].
Qed.
Lemma wp_make_true s st d : keys_ok d -> buf st < next s -> (forall b, In b (db d) -> b < next s) ->
  wp (make F Args h true st d) s (fun s' H => frame s s' [] /\ get s' (static H) = get s st /\ hwf s' H /\
     (forall b, In b (buf (static H) :: db (dyn H)) -> next s <= b) /\ mapped Some (fun m => m) s s' d (dyn H)).
Proof.
  intros K Lst L. unfold make. apply wp_bind, wp_read, wp_bind, wp_alloc. intros s1 r Fr N B G.
  apply wp_bind. apply wp_mono with (Q := fun s' d' => frame s1 s' [] /\ mapped Some (fun m => m) s1 s' d d').
  - assert (LL : forall rest acc s2, (forall b, In b (db rest) -> b < next s2) -> keys_ok (acc ++ rest) -> wp (for_ rest (fun e d' =>
        run r <- copy_of (snd e); run found <- lift (lookup F Args h d' (fst e));
        match found with Some r' => run m' <- read r; run r'' <- iadd r' m'; lift (put F Args h d' (fst e) r'') | None => lift (put F Args h d' (fst e) r) end) acc) s2
        (fun s' d' => exists d2, d' = acc ++ d2 /\ frame s2 s' [] /\ mapped Some (fun m => m) s2 s' rest d2)).
    { induction rest as [|e rest IH]; intros acc s2 L2 E.
      { apply wp_ret. exists []. rewrite app_nil_r. split; [reflexivity|]. split; [apply frame_refl|split; constructor]. }
      cbn [for_]. apply wp_bind, wp_bind, wp_copy_of. intros s3 r3 Fr3 B3 G3. apply wp_bind.
      assert (Ke : exists k, hash h (fst e) = Some k) by (apply E; apply in_or_app; right; left; reflexivity).
      destruct Ke as [k Hk]. assert (Hn : forall e', In e' acc -> hash h (fst e') <> Some k).
      { intros e' I. destruct (keys_split h _ _ _ E) as [_ K2]. rewrite <- Hk. apply K2. apply in_or_app. left; exact I. }
      eapply wp_lift; [eapply lookup_fresh; eassumption|]. eapply wp_lift; [eapply put_new; eassumption|].
      eapply wp_mono; [apply IH|].
      - intros b I. assert (b < next s2) by (apply L2; right; exact I). destruct Fr3; lia.
      - rewrite <- app_assoc. cbn [app]. destruct e as [g r0]. eapply keys_replace. exact E.
      - intros s4 d' (d2 & -> & Fr4 & M). exists ((fst e, r3) :: d2). split; [rewrite <- app_assoc; reflexivity|]. split; [eapply frame_trans; [exact Fr3|exact Fr4|intros ? []]|].
        pose proof (mapped_bufs _ _ _ _ _ _ M) as MB. destruct M as [M1 M2]. split.
        + constructor.
          * cbn [fst snd]. split; [reflexivity|]. split; [rewrite (frame_get s3 s4 [] r3 Fr4); [exact G3|lia|intros []]|destruct Fr4; lia].
          * eapply Forall2_impl_In; [exact M1|]. intros e1 e2 I1 (A1 & B1 & D). split; [exact A1|]. split; [|destruct Fr3; lia].
            rewrite B1. apply (frame_get s2 s3 [] _ Fr3); [apply L2; right; apply (in_map (fun e => buf (snd e))); exact I1|intros []].
        + cbn. constructor; [|exact M2]. intros I. apply MB in I. lia. }
    eapply wp_mono; [apply LL; [intros b I; apply L in I; destruct Fr; lia|exact K]|]. intros s' d' (d2 & -> & H). exact H.
  - intros s' d' [Fr' M]. unfold check_is_dense, wp. cbn [static dyn].
    pose proof (mapped_bufs _ _ _ _ _ _ M) as MB. destruct M as [M1 M2].
    split; [eapply frame_trans; [exact Fr|exact Fr'|intros ? []]|]. split; [rewrite (frame_get s1 s' [] r Fr'); [exact G|lia|intros []]|].
    split; [|split].
    + unfold hwf. cbn [static dyn]. split; [constructor; [|exact M2]; intros I; apply MB in I; lia|]. split; [intros b [<- |I]; [destruct Fr'; lia|apply MB in I; lia]|].
      assert (E : map (fun e => hash h (fst e)) d' = map (fun e => hash h (fst e)) d).
      { clear -M1. induction M1 as [|e e' d d' R M IH]; [reflexivity|]. cbn [map]. rewrite IH. destruct R as [R _]. injection R as ->. reflexivity. }
      destruct K as [K1 K2]. cbn [dyn]. split; [rewrite E; exact K1|]. intros e' I. apply (in_map (fun e => hash h (fst e))) in I. rewrite E in I. apply in_map_iff in I.
      destruct I as [e [E1 I]]. destruct (K2 e I) as [k Hk]. exists k. congruence.
    + intros b [<- |I]; [lia|apply MB in I; lia].
    + split; [|exact M2]. eapply Forall2_impl_In; [exact M1|]. intros e1 e2 I1 (A1 & B1 & D). split; [exact A1|]. split; [|lia].
      rewrite B1. apply (frame_get s s1 [] _ Fr); [apply L; apply (in_map (fun e => buf (snd e))); exact I1|intros []].
Qed.

(* a copy of the operator *)
Definition fresh_copy (s s' : store) (H N : ham) : Prop := frame s s' [] /\ get s' (static N) = get s (static H) /\ hwf s' N /\
  (forall b, In b (buf (static N) :: db (dyn N)) -> next s <= b) /\ mapped Some (fun m => m) s s' (dyn H) (dyn N).
Lemma keys_mapped v s s' d d2 : mapped Some v s s' d d2 -> map (@fst _ _) d2 = map (@fst _ _) d.
Proof. intros [M _]. induction M as [|e e' d d' R M IH]; [reflexivity|]. cbn [map]. rewrite IH. destruct R as [R _]. injection R as ->. reflexivity. Qed.
Lemma keys_ok_fst d d2 : map (@fst fn ref) d2 = map (@fst _ _) d -> keys_ok d -> keys_ok d2.
Proof.
  intros E [K1 K2]. assert (E' : map (fun e : fn * ref => hash h (fst e)) d2 = map (fun e => hash h (fst e)) d).
  { rewrite <- (map_map (@fst fn ref) (hash h) d2), E, map_map. reflexivity. }
  split; [rewrite E'; exact K1|]. intros e I. apply (in_map (fun e => hash h (fst e))) in I. rewrite E' in I. apply in_map_iff in I. destruct I as [e0 [E1 I]].
  destruct (K2 e0 I) as [k Hk]. exists k. congruence.
Qed.
Lemma dval_mapped v s s' d d2 t i j : mapped Some v s s' d d2 -> dval s' d2 t i j = Csum d (fun e => eval (fst e) t * ent (v (get s (snd e))) i j)%C.
Proof.
  intros [M _]. unfold P_ham.dval. induction M as [|e e' d d' R M IH]; [reflexivity|]. rewrite !Csum_cons, IH. destruct R as (R & G & _). injection R as ->. rewrite G. reflexivity.
Qed.
Lemma wp_astype_true s H : hwf s H -> wp (astype F Args h true H) s (fun s' N => fresh_copy s s' H N).
Proof.
  intros (N & L & K). unfold astype. apply wp_bind, wp_copy_of. intros s1 st Fr1 B1 G1. apply wp_bind.
  eapply wp_mono; [apply (wp_map_loop Some (fun m => m))|].
  - intros e acc s2 I Lb. apply wp_bind, wp_copy_of. intros s3 r Fr3 B3 G3. apply wp_ret. exists (fst e), r. repeat split; try assumption; try lia; apply Fr3.
  - intros b I. assert (b < next s) by (apply L; right; exact I). destruct Fr1; lia.
  - intros s2 d' (d2 & -> & Fr2 & M). cbn [app]. eapply wp_mono; [apply wp_make_false; eapply keys_ok_fst; [eapply keys_mapped; exact M|exact K]|].
    intros s3 N3 (Fr3 & B3 & G3 & E3). pose proof (mapped_bufs _ _ _ _ _ _ M) as MB. pose proof (keys_mapped _ _ _ _ _ M) as KM.
    assert (Fr12 : frame s s2 []) by (eapply frame_trans; [exact Fr1|exact Fr2|intros ? []]). unfold fresh_copy. rewrite E3.
    split; [eapply frame_trans; [exact Fr12|exact Fr3|intros ? []]|]. split; [|split; [|split]].
    + rewrite G3. rewrite (frame_get s1 s2 [] st Fr2); [exact G1|lia|intros []].
    + unfold hwf. rewrite E3. destruct M as [M1 M2]. split; [constructor; [|exact M2]; intros I; apply MB in I; lia|]. split.
      * intros b [<- |I]; [lia|apply MB in I; destruct Fr3; lia].
      * eapply keys_ok_fst; [exact KM|exact K].
    + intros b [<- |I]; [destruct Fr1, Fr2; lia|]. apply MB in I. destruct Fr1; lia.
    + destruct M as [M1 M2]. split; [|exact M2]. eapply Forall2_impl_In; [exact M1|]. intros e1 e2 I1 (A1 & B & D). split; [exact A1|]. split.
      * rewrite (frame_get s2 s3 [] _ Fr3); [|lia|intros []]. rewrite B. apply (frame_get s s1 [] _ Fr1); [|intros []].
        apply L. right. apply (in_map (fun e => buf (snd e))). exact I1.
      * destruct Fr1, Fr3. lia.
Qed.
Lemma fresh_value s s' H N : fresh_copy s s' H N -> (forall t i j, dval s' (dyn N) t i j = dval s (dyn H) t i j) /\ ent (get s' (static N)) = ent (get s (static H)).
Proof. intros (_ & G & _ & _ & M). split; [|rewrite G; reflexivity]. intros t i j. rewrite (dval_mapped _ _ _ _ _ t i j M). reflexivity. Qed.

(* the static part *)
Lemma wp_clean r s (Q : store -> ref -> Prop) : buf r < next s ->
  (forall s' r', frame s s' [] -> (r' = r \/ next s <= buf r' < next s') -> (forall i j, i < n -> j < n -> (Cabs (ent (get s' r') i j - ent (get s r) i j)%C <= atol)%R) -> Q s' r') ->
  wp (clean n atol r) s Q.
Proof.
  intros Hb H. unfold clean. apply wp_bind, wp_read. destruct (almost_zero n atol (get s r)) eqn:Z.
  - apply wp_alloc. intros s' r' Fr N B G. apply H; [exact Fr|right; lia|]. intros i j Hi Hj. rewrite G. cbn [ent zero_sparse].
    replace (C0 - ent (get s r) i j)%C with (- ent (get s r) i j)%C by ring. rewrite Cabs_opp. eapply almost_zero_t; eassumption.
  - apply wp_ret. apply H; [apply frame_refl|left; reflexivity|]. intros. apply Cabs_refl. exact Hatol.
Qed.

Definition fsum (d : dict) (t : R) : R := fold_right (fun e r => (Cabs (eval (fst e) t) + r)%R) 0%R d.
Lemma fsum_pos d t : (0 <= fsum d t)%R. Proof. induction d as [|e d IH]; cbn; [lra|]. pose proof (Cabs_ge0 (eval (fst e) t)). fold (fsum d t). lra. Qed.
Lemma fsum_cons e d t : fsum (e :: d) t = (Cabs (eval (fst e) t) + fsum d t)%R. Proof. reflexivity. Qed.

(* sum and difference of the dynamic terms; missing keys are handled by miss *)
Lemma wp_terms op sg miss : (forall A B i j, op A B i j = (A i j + sg * B i j)%C) ->
  (forall e s (Q : store -> ref -> Prop), buf (snd e) < next s ->
     (forall s' r, frame s s' [] -> (r = snd e /\ s' = s \/ next s <= buf r < next s') -> (forall i j, ent (get s' r) i j = (sg * ent (get s (snd e)) i j)%C) -> Q s' r) -> wp (miss e) s Q) ->
  forall od d s0 s W, dwf s d -> NoDup (db d ++ db od) -> (forall b, In b (db od) -> b < next s /\ ~ In b W) -> keys_ok od ->
    frame s0 s W -> (forall e e', In e d -> In e' od -> hash h (fst e) = hash h (fst e') -> In (buf (snd e)) W \/ next s0 <= buf (snd e)) ->
  wp (for_ od (fun e d => run found <- lift (lookup F Args h d (fst e));
      match found with Some r => run Hd <- read (snd e); merge n atol F Args h op d (fst e) r Hd | None => run r <- miss e; lift (put F Args h d (fst e) r) end) d) s
    (fun s' d' => dwf s' d' /\ frame s0 s' W /\ (forall b, In b (db d') -> In b (db d) \/ In b (db od) \/ next s <= b) /\
      forall t i j, i < n -> j < n -> (Cabs (dval s' d' t i j - (dval s d t i j + sg * dval s od t i j))%C <= atol * fsum od t)%R).
Proof.
  intros Hop Hmiss. induction od as [|e od IH]; intros d s0 s W D ND Lo Ko Fr Own.
  - apply wp_ret. split; [exact D|]. split; [exact Fr|]. split; [intros b I; left; exact I|]. intros t i j Hi Hj. rewrite dval_nil. cbn [fsum fold_right].
    replace (dval s d t i j - (dval s d t i j + sg * C0))%C with (dval s d t i j - dval s d t i j)%C by ring. apply Cabs_refl. lra.
  - cbn [for_]. apply wp_bind, wp_bind.
    assert (Ke : exists k, hash h (fst e) = Some k) by (apply Ko; left; reflexivity). destruct Ke as [k Hk].
    destruct (lookup_total h d _ _ Hk) as [o Lk]. eapply wp_lift; [exact Lk|].
    destruct (keys_split h [] e od Ko) as [Ko1 Ko2]. cbn [app] in Ko1, Ko2.
    assert (NDe : NoDup (db d ++ db od)) by (cbn [db map] in ND; apply NoDup_remove_1 in ND; exact ND).
    assert (Ne : ~ In (buf (snd e)) (db d ++ db od)) by (cbn [db map] in ND; apply NoDup_remove_2 in ND; exact ND).
    assert (Le : buf (snd e) < next s /\ ~ In (buf (snd e)) W) by (apply Lo; left; reflexivity).
    assert (Lo' : forall b, In b (db od) -> b < next s /\ ~ In b W) by (intros b I; apply Lo; right; exact I).
    destruct o as [r|].
    + apply wp_bind, wp_read. eapply wp_mono; [apply (wp_merge n atol Hatol call h NC op sg); [exact Hop|exact D|exact Lk]|].
      intros s1 d1 (D1 & Fr1 & Ir & (k' & Hk' & (e0 & I0 & K0 & S0) & Ent) & V1). rewrite Hk in Hk'. injection Hk' as <-.
      assert (Or : In (buf r) W \/ next s0 <= buf r) by (rewrite <- S0; apply (Own e0 e I0); [left; reflexivity|congruence]).
      assert (Fr01 : frame s0 s1 W).
      { eapply frame_trans; [exact Fr|exact Fr1|]. intros b [<- |[]] Hb. destruct Or as [O|O]; [exact O|lia]. }
      assert (Nx : next s <= next s1) by apply Fr1.
      assert (Hdb1 : forall b, In b (db d1) -> In b (db d) \/ next s <= b).
      { intros b I. apply in_map_iff in I. destruct I as [e' [<- I]]. destruct (Ent e' I) as [I'|[_ [E|E]]].
        - left. apply (in_map (fun e => buf (snd e))). exact I'.
        - left. rewrite E. exact Ir.
        - right. exact E. }
      eapply wp_mono; [apply (IH d1 s0 s1 W)|].
      * exact D1.
      * apply NoDup_app2; [apply D1| |].
        { clear -NDe. induction (db d) as [|x l IHl]; [exact NDe|]. apply IHl. inversion NDe; assumption. }
        { intros b I1 I2. destruct (Hdb1 b I1) as [I|I].
          - clear -NDe I I2. induction (db d) as [|x l IHl]; [destruct I|]. cbn in NDe. inversion NDe as [|? ? NI N']; subst. destruct I as [-> |I]; [apply NI; apply in_or_app; right; exact I2|exact (IHl N' I)].
          - apply Lo' in I2. lia. }
      * intros b I. apply Lo' in I. split; [lia|apply I].
      * exact Ko1.
      * exact Fr01.
      * intros e1 e2 I1 I2 E. destruct (Ent e1 I1) as [I'|[K' [E'|E']]].
        { apply (Own e1 e2); [exact I'|right; exact I2|exact E]. }
        { exfalso. apply (Ko2 e2 I2). congruence. }
        { right. destruct Fr. lia. }
      * intros s2 d2 (D2 & Fr2 & Db2 & V2). split; [exact D2|]. split; [exact Fr2|]. split.
        { intros b I. destruct (Db2 b I) as [I1|[I1|I1]].
          - destruct (Hdb1 b I1); [left; assumption|right; right; assumption].
          - right; left; right; exact I1.
          - right; right. lia. }
        { intros t i j Hi Hj. rewrite fsum_cons, Rmult_plus_distr_l, Rplus_comm. eapply Cabs_chain; [apply V2; assumption|].
          rewrite dval_cons. specialize (V1 t i j Hi Hj).
          assert (E : dval s1 od t i j = dval s od t i j).
          { eapply dval_frame; [exact Fr1|]. intros b I. split; [apply Lo', I|]. intros [<- |[]].
            clear -NDe Ir I. induction (db d) as [|x l IHl]; [destruct Ir|]. cbn in NDe. inversion NDe as [|? ? NI N']; subst. destruct Ir as [-> |Ir]; [apply NI; apply in_or_app; right; exact I|exact (IHl N' Ir)]. }
          rewrite E.
          replace (dval s1 d1 t i j + sg * dval s od t i j - (dval s d t i j + sg * (eval (fst e) t * ent (get s (snd e)) i j + dval s od t i j)))%C
            with (dval s1 d1 t i j - (dval s d t i j + sg * (eval (fst e) t * ent (get s (snd e)) i j)))%C by ring. exact V1. }
    + apply wp_bind, Hmiss; [apply Le|]. intros s1 r Fr1 Br V1.
      apply lookup_none in Lk. destruct Lk as (k' & Hk' & Nk). rewrite Hk in Hk'. injection Hk' as <-.
      eapply wp_lift; [eapply put_new; eassumption|].
      assert (Nx : next s <= next s1) by apply Fr1.
      assert (Br1 : buf r < next s1) by (destruct Br as [[-> ->]|B]; [apply Le|lia]).
      assert (Nr : ~ In (buf r) (db d ++ db od)).
      { destruct Br as [[-> _]|B]; [exact Ne|]. intros I. apply in_app_or in I. destruct I as [I|I]; [apply D in I; lia|apply Lo' in I; lia]. }
      eapply wp_mono; [apply (IH (d ++ [(fst e, r)]) s0 s1 W)|].
      * destruct D as (D1 & D2 & D3). split; [|split].
        { rewrite db_app. cbn [db map snd]. apply NoDup_app2; [exact D1|constructor; [intros []|constructor]|]. intros b I [<- |[]]. apply Nr. apply in_or_app. left; exact I. }
        { intros b I. rewrite db_app in I. apply in_app_or in I. destruct I as [I|[<- |[]]]; [apply D2 in I; lia|exact Br1]. }
        { eapply keys_add; eassumption. }
      * rewrite db_app, <- app_assoc. cbn [db map snd app]. apply NoDup_Add with (a := buf r) (l := db d ++ db od); [apply Add_app|]. split; assumption.
      * intros b I. apply Lo' in I. split; [lia|apply I].
      * exact Ko1.
      * eapply frame_trans; [exact Fr|exact Fr1|intros ? []].
      * intros e1 e2 I1 I2 E. apply in_app_or in I1. destruct I1 as [I1|[<- |[]]].
        { apply (Own e1 e2); [exact I1|right; exact I2|exact E]. }
        { exfalso. apply (Ko2 e2 I2). cbn in E. congruence. }
      * intros s2 d2 (D2 & Fr2 & Db2 & V2). split; [exact D2|]. split; [exact Fr2|]. split.
        { intros b I. destruct (Db2 b I) as [I1|[I1|I1]].
          - rewrite db_app in I1. apply in_app_or in I1. destruct I1 as [I1|[<- |[]]]; [left; exact I1|].
            destruct Br as [[-> _]|B]; [right; left; left; reflexivity|right; right; cbn; lia].
          - right; left; right; exact I1.
          - right; right. lia. }
        { intros t i j Hi Hj. specialize (V2 t i j Hi Hj). rewrite fsum_cons, Rmult_plus_distr_l. rewrite dval_app, dval_cons, dval_nil in V2. cbn [fst snd] in V2. rewrite V1 in V2.
          assert (E : forall dd, (forall b, In b (db dd) -> b < next s) -> dval s1 dd t i j = dval s dd t i j).
          { intros dd H. eapply dval_frame; [exact Fr1|]. intros b I. split; [apply H, I|intros []]. }
          rewrite (E d) in V2 by (intros b I; apply D, I). rewrite (E od) in V2 by (intros b I; apply Lo', I). rewrite dval_cons.
          replace (dval s d t i j + sg * (eval (fst e) t * ent (get s (snd e)) i j + dval s od t i j))%C
            with (dval s d t i j + (eval (fst e) t * (sg * ent (get s (snd e)) i j) + C0) + sg * dval s od t i j)%C by ring.
          eapply Rle_trans; [exact V2|]. assert (0 <= atol * Cabs (eval (fst e) t))%R by (apply Rmult_le_pos; [exact Hatol|apply Cabs_ge0]). lra. }
Qed.
End Loops.
