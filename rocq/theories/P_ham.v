(* Store, dictionaries and the merging of dynamic terms. *)
From Verif Require Import AuxN SpecC SpecExpm SpecFunc SpecHam M_func P_func M_ham.
Local Open Scope nat_scope.

Lemma NoDup_app2 {X} (l1 l2 : list X) : NoDup l1 -> NoDup l2 -> (forall x, In x l1 -> ~ In x l2) -> NoDup (l1 ++ l2).
Proof.
  intros N1 N2 H. induction N1 as [|x l N N1 IH]; [exact N2|]. cbn. constructor; [|apply IH; intros y I; apply H; right; exact I].
  intros I. apply in_app_or in I. destruct I as [I|I]; [exact (N I)|exact (H x (or_introl eq_refl) I)].
Qed.
(* ---- modulus ---- *)
Lemma Cabs_ge0 z : (0 <= Cabs z)%R. Proof. apply sqrt_pos. Qed.
Lemma Cabs_0 : Cabs C0 = 0%R. Proof. unfold Cabs, C0. cbn [fst snd]. rewrite Rmult_0_l, Rplus_0_l. apply sqrt_0. Qed.
Lemma Cabs_triangle a b : (Cabs (a + b)%C <= Cabs a + Cabs b)%R.
Proof.
  unfold Cabs, Cadd. cbn [fst snd]. destruct a as [a1 a2], b as [b1 b2]. cbn [fst snd].
  pose proof (sqrt_pos (a1 * a1 + a2 * a2)) as P1. pose proof (sqrt_pos (b1 * b1 + b2 * b2)) as P2.
  assert (Q1 : (0 <= a1 * a1 + a2 * a2)%R) by nra. assert (Q2 : (0 <= b1 * b1 + b2 * b2)%R) by nra.
  pose proof (sqrt_sqrt _ Q1) as S1. pose proof (sqrt_sqrt _ Q2) as S2.
  pose proof (sqrt_cauchy a1 a2 b1 b2) as SC. unfold Rsqr in SC.
  rewrite <- (sqrt_square (sqrt (a1 * a1 + a2 * a2) + sqrt (b1 * b1 + b2 * b2))) by lra. apply sqrt_le_1_alt. nra.
Qed.
Lemma Cabs_opp z : Cabs (- z)%C = Cabs z. Proof. unfold Cabs, Copp. cbn [fst snd]. f_equal. ring. Qed.
Lemma Cabs_mul a b : Cabs (a * b)%C = (Cabs a * Cabs b)%R.
Proof.
  unfold Cabs, Cmul. cbn [fst snd]. rewrite <- sqrt_mult_alt by nra. f_equal. ring.
Qed.
Lemma Cabs_conj z : Cabs (Cconj z) = Cabs z. Proof. unfold Cabs, Cconj. cbn [fst snd]. f_equal. ring. Qed.
Lemma Cabs_chain a b c e e' : (Cabs (a - b)%C <= e)%R -> (Cabs (b - c)%C <= e')%R -> (Cabs (a - c)%C <= e + e')%R.
Proof. intros H1 H2. replace (a - c)%C with ((a - b) + (b - c))%C by ring. eapply Rle_trans; [apply Cabs_triangle|lra]. Qed.
Lemma Cabs_refl a e : (0 <= e)%R -> (Cabs (a - a)%C <= e)%R.
Proof. intros H. replace (a - a)%C with C0 by ring. rewrite Cabs_0. exact H. Qed.

(* ---- total correctness ---- *)
Definition wp {A} (x : act A) (s : store) (Q : store -> A -> Prop) : Prop := match x s with Some (s', a) => Q s' a | None => False end.
Lemma wp_ret {A} (a : A) s (Q : store -> A -> Prop) : Q s a -> wp (ret a) s Q. Proof. intros H; exact H. Qed.
Lemma wp_bind {A B} (x : act A) (f : A -> act B) s Q : wp x s (fun s' a => wp (f a) s' Q) -> wp (abind x f) s Q.
Proof. unfold wp, abind. destruct (x s) as [[s' a]|]; auto. Qed.
Lemma wp_mono {A} (x : act A) s (Q Q' : store -> A -> Prop) : wp x s Q -> (forall s' a, Q s' a -> Q' s' a) -> wp x s Q'.
Proof. unfold wp. destruct (x s) as [[s' a]|]; auto. Qed.
Lemma wp_lift {A} (x : option A) a s (Q : store -> A -> Prop) : x = Some a -> Q s a -> wp (lift x) s Q. Proof. unfold wp, lift. intros -> H. exact H. Qed.
Lemma wp_read r s (Q : store -> mat -> Prop) : Q s (get s r) -> wp (read r) s Q. Proof. intros H; exact H. Qed.
Lemma wp_run {A} (x : act A) s Q : wp x s Q -> exists s' a, x s = Some (s', a) /\ Q s' a.
Proof. unfold wp. destruct (x s) as [[s' a]|]; [|intros []]. intros H. exists s', a. split; [reflexivity|exact H]. Qed.
Lemma wp_out {A} (x : act A) s Q s' a : wp x s Q -> x s = Some (s', a) -> Q s' a.
Proof. unfold wp. intros H E. rewrite E in H. exact H. Qed.

(* ---- what changes in the store ---- *)
Definition frame (s s' : store) (W : list nat) : Prop := next s <= next s' /\ forall b, b < next s -> ~ In b W -> cells s' b = cells s b.
Lemma frame_refl s W : frame s s W. Proof. split; [lia|reflexivity]. Qed.
Lemma frame_trans s s1 s2 W W' : frame s s1 W -> frame s1 s2 W' -> (forall b, In b W' -> b < next s -> In b W) -> frame s s2 W.
Proof. intros [N1 H1] [N2 H2] HW. split; [lia|]. intros b Hb NI. rewrite H2; [apply H1; assumption|lia|]. intros I. apply NI. apply HW; assumption. Qed.
Lemma frame_weak s s' W W' : frame s s' W -> (forall b, In b W -> In b W') -> frame s s' W'.
Proof. intros [N H] HW. split; [exact N|]. intros b Hb NI. apply H; [exact Hb|]. intros I. apply NI, HW, I. Qed.
Lemma frame_get s s' W r : frame s s' W -> buf r < next s -> ~ In (buf r) W -> get s' r = get s r.
Proof. intros [_ H] Hb NI. unfold get. rewrite H by assumption. reflexivity. Qed.

Lemma wp_alloc m s (Q : store -> ref -> Prop) : (forall s' r, frame s s' [] -> next s' = S (next s) -> buf r = next s -> get s' r = m -> Q s' r) -> wp (alloc m) s Q.
Proof.
  intros H. apply H.
  - split; [cbn; lia|]. intros b Hb _. cbn. rewrite (proj2 (Nat.eqb_neq b (next s))) by lia. reflexivity.
  - reflexivity.
  - reflexivity.
  - unfold get. cbn. rewrite Nat.eqb_refl. reflexivity.
Qed.
Lemma tmat_tmat t m : tmat t (tmat t m) = m. Proof. destruct t, m; reflexivity. Qed.
Lemma wp_write r m s (Q : store -> unit -> Prop) : (forall s', frame s s' [buf r] -> next s' = next s -> get s' r = m -> Q s' tt) -> wp (write r m) s Q.
Proof.
  intros H. apply H.
  - split; [cbn; lia|]. intros b Hb NI. cbn. rewrite (proj2 (Nat.eqb_neq b (buf r))); [reflexivity|]. intros ->. apply NI. left; reflexivity.
  - reflexivity.
  - unfold get. cbn. rewrite Nat.eqb_refl. apply tmat_tmat.
Qed.
Lemma wp_iop op x y s (Q : store -> ref -> Prop) :
  (forall s' x', frame s s' [buf x] -> (buf x' = buf x \/ (next s <= buf x' < next s' /\ frame s s' [])) -> ent (get s' x') = op (ent (get s x)) (ent y) ->
     dense (get s' x') = (dense (get s x) || dense y)%bool -> Q s' x') ->
  wp (iop op x y) s Q.
Proof.
  intros H. unfold iop. apply wp_bind, wp_read. destruct (dense (get s x) && dense y)%bool eqn:D.
  - apply wp_bind, wp_write. intros s' Fr N G. apply wp_ret. apply H; [exact Fr|left; reflexivity|rewrite G; reflexivity|].
    rewrite G. cbn. apply andb_prop in D. destruct D as [-> ->]. reflexivity.
  - apply wp_alloc. intros s' r Fr N B G. apply H; [eapply frame_weak; [exact Fr|intros b []]|right; split; [lia|exact Fr]|rewrite G; reflexivity|rewrite G; reflexivity].
Qed.
Lemma wp_iscale c x s (Q : store -> ref -> Prop) :
  (forall s', frame s s' [buf x] -> next s' = next s -> ent (get s' x) = mat_scale c (ent (get s x)) -> dense (get s' x) = dense (get s x) -> Q s' x) -> wp (iscale c x) s Q.
Proof. intros H. unfold iscale. apply wp_bind, wp_read, wp_bind, wp_write. intros s' Fr N G. apply wp_ret. apply H; [exact Fr|exact N|rewrite G; reflexivity|rewrite G; reflexivity]. Qed.

(* ---- dictionaries ---- *)
Section Dict.
Variable n : nat.
Variable atol : R.
Hypothesis Hatol : (0 <= atol)%R.
Context {F Args : Type}.
Variable call : F -> Args -> R -> C.
Variable h : hashing F Args.
Hypothesis NC : no_collision h.
Notation fn := (fn F Args).
Notation dict := (dict F Args).
Notation eval := (eval call).
Definition db (d : dict) : list nat := map (fun e => buf (snd e)) d.
Definition keys_ok (d : dict) : Prop := NoDup (map (fun e => hash h (fst e)) d) /\ forall e, In e d -> exists k, hash h (fst e) = Some k.
Definition dwf (s : store) (d : dict) : Prop := NoDup (db d) /\ (forall b, In b (db d) -> b < next s) /\ keys_ok d.
Definition dval (s : store) (d : dict) (t : R) : cmat := fun i j => Csum d (fun e => eval (fst e) t * ent (get s (snd e)) i j)%C.

Lemma db_app d d' : db (d ++ d') = db d ++ db d'. Proof. apply map_app. Qed.
Lemma same_key_t k e : same_key F Args h k e = true <-> hash h (fst e) = Some k.
Proof. unfold same_key. destruct (hash h (fst e)) as [k'|]; [|split; discriminate]. rewrite Z.eqb_eq. split; congruence. Qed.
Lemma same_key_f k e : same_key F Args h k e = false <-> hash h (fst e) <> Some k.
Proof. rewrite <- same_key_t. destruct (same_key F Args h k e); split; congruence. Qed.
Lemma lookup_some d f r : lookup F Args h d f = Some (Some r) -> exists k d1 g d2, hash h f = Some k /\ d = d1 ++ (g, r) :: d2 /\ hash h g = Some k /\ forall e, In e d1 -> hash h (fst e) <> Some k.
Proof.
  unfold lookup. intros H. bd H. exists v. rename v into k. destruct (find (same_key F Args h k) d) as [e|] eqn:E1; [|discriminate]. injection H as <-.
  revert E1. induction d as [|e' d IH]; intros E1; [discriminate|]. cbn in E1. destruct (same_key F Args h k e') eqn:S.
  - injection E1 as ->. apply same_key_t in S. exists [], (fst e), d. destruct e as [g r]. repeat split; [exact E|exact S|intros ? []].
  - destruct (IH E1) as (d1 & g & d2 & A & -> & B & D). apply same_key_f in S. exists (e' :: d1), g, d2. repeat split; [exact A|exact B|]. intros x [<- |I]; [exact S|apply D, I].
Qed.
Lemma lookup_none d f : lookup F Args h d f = Some None -> exists k, hash h f = Some k /\ forall e, In e d -> hash h (fst e) <> Some k.
Proof.
  unfold lookup. intros H. bd H. exists v. split; [exact E|]. destruct (find (same_key F Args h v) d) eqn:E1; [discriminate|].
  intros e I. pose proof (find_none _ _ E1 e I) as S. apply same_key_f in S. exact S.
Qed.
Lemma lookup_total d f k : hash h f = Some k -> exists o, lookup F Args h d f = Some o.
Proof. unfold lookup. intros ->. eexists; reflexivity. Qed.
Lemma lookup_fresh d f k : hash h f = Some k -> (forall e, In e d -> hash h (fst e) <> Some k) -> lookup F Args h d f = Some None.
Proof.
  intros H1 H2. destruct (lookup_total d f k H1) as [[r|] E]; [|exact E]. apply lookup_some in E. destruct E as (k' & d1 & g & d2 & E1 & -> & E2 & _).
  exfalso. apply (H2 (g, r)); [apply in_or_app; right; left; reflexivity|]. cbn. congruence.
Qed.
Lemma put_new d f r k : hash h f = Some k -> (forall e, In e d -> hash h (fst e) <> Some k) -> put F Args h d f r = Some (d ++ [(f, r)]).
Proof.
  intros H1 H2. unfold put. rewrite H1. cbn [bind]. f_equal. induction d as [|e d IH]; [reflexivity|]. cbn [put_at].
  rewrite (proj2 (same_key_f k e) (H2 e (or_introl eq_refl))). cbn [app]. f_equal. apply IH. intros x I. apply H2. right; exact I.
Qed.
Lemma put_old d1 g r d2 f r' k : hash h f = Some k -> hash h g = Some k -> (forall e, In e d1 -> hash h (fst e) <> Some k) ->
  put F Args h (d1 ++ (g, r) :: d2) f r' = Some (d1 ++ (g, r') :: d2).
Proof.
  intros H1 H2 H3. unfold put. rewrite H1. cbn [bind]. f_equal. induction d1 as [|e d IH]; cbn [app put_at].
  - rewrite (proj2 (same_key_t k (g, r)) H2). reflexivity.
  - rewrite (proj2 (same_key_f k e) (H3 e (or_introl eq_refl))). f_equal. apply IH. intros x I. apply H3. right; exact I.
Qed.
Lemma pop_old d1 g r d2 f k : hash h f = Some k -> hash h g = Some k -> (forall e, In e d1 -> hash h (fst e) <> Some k) ->
  pop F Args h (d1 ++ (g, r) :: d2) f = Some (d1 ++ d2).
Proof.
  intros H1 H2 H3. unfold pop. rewrite H1. cbn [bind]. f_equal. induction d1 as [|e d IH]; cbn [app pop_at].
  - rewrite (proj2 (same_key_t k (g, r)) H2). reflexivity.
  - rewrite (proj2 (same_key_f k e) (H3 e (or_introl eq_refl))). f_equal. apply IH. intros x I. apply H3. right; exact I.
Qed.

Lemma dval_frame s s' W d t i j : frame s s' W -> (forall b, In b (db d) -> b < next s /\ ~ In b W) -> dval s' d t i j = dval s d t i j.
Proof.
  intros Fr H. unfold dval. apply Csum_ext. intros e I. rewrite (frame_get s s' W (snd e) Fr); [reflexivity| |]; apply H; apply (in_map (fun e => buf (snd e))); exact I.
Qed.
Lemma dval_app s d d' t i j : dval s (d ++ d') t i j = (dval s d t i j + dval s d' t i j)%C. Proof. apply Csum_app. Qed.
Lemma dval_cons s e d t i j : dval s (e :: d) t i j = (eval (fst e) t * ent (get s (snd e)) i j + dval s d t i j)%C. Proof. reflexivity. Qed.
Lemma dval_nil s t i j : dval s [] t i j = C0. Proof. reflexivity. Qed.
Lemma keys_split d1 e d2 : keys_ok (d1 ++ e :: d2) -> keys_ok (d1 ++ d2) /\ forall e', In e' (d1 ++ d2) -> hash h (fst e') <> hash h (fst e).
Proof.
  intros [N S]. rewrite map_app in N. cbn [map] in N. split; [split|].
  - rewrite map_app. apply (NoDup_remove_1 _ _ _ N).
  - intros e' I. apply S. apply in_app_or in I. apply in_or_app. destruct I; [left|right; right]; assumption.
  - intros e' I E. apply (NoDup_remove_2 _ _ _ N). rewrite <- map_app, <- E. apply (in_map (fun e => hash h (fst e))). exact I.
Qed.
Lemma keys_replace d1 g r r' d2 : keys_ok (d1 ++ (g, r) :: d2) -> keys_ok (d1 ++ (g, r') :: d2).
Proof.
  intros [N S]. split; [rewrite map_app in *; exact N|]. intros e I. apply in_app_or in I. destruct I as [I|[<- |I]].
  - apply S. apply in_or_app. left; exact I.
  - apply (S (g, r)). apply in_or_app. right; left; reflexivity.
  - apply S. apply in_or_app. right; right; exact I.
Qed.
Lemma keys_add d f r k : keys_ok d -> hash h f = Some k -> (forall e, In e d -> hash h (fst e) <> Some k) -> keys_ok (d ++ [(f, r)]).
Proof.
  intros [N S] H1 H2. split.
  - rewrite map_app. apply NoDup_app2; [exact N|constructor; [intros []|constructor]|].
    intros x I [<- |[]]. apply in_map_iff in I. destruct I as [e [E I]]. apply (H2 e I). cbn in E. congruence.
  - intros e I. apply in_app_or in I. destruct I as [I|[<- |[]]]; [apply S, I|]. exists k. exact H1.
Qed.
Lemma almost_zero_t m : almost_zero n atol m = true -> forall i j, i < n -> j < n -> (Cabs (ent m i j) <= atol)%R.
Proof.
  unfold almost_zero. rewrite forallb_forall. intros H i j Hi Hj. specialize (H i ltac:(apply in_seq; lia)). rewrite forallb_forall in H.
  specialize (H j ltac:(apply in_seq; lia)). destruct (Rle_dec (Cabs (ent m i j)) atol); [assumption|discriminate].
Qed.

(* merging a matrix into the entry of f *)
Lemma wp_merge op sg d f r Hd s : (forall A B i j, op A B i j = (A i j + sg * B i j)%C) -> dwf s d -> lookup F Args h d f = Some (Some r) ->
  wp (merge n atol F Args h op d f r Hd) s (fun s' d' => dwf s' d' /\ frame s s' [buf r] /\ In (buf r) (db d) /\
    (exists k, hash h f = Some k /\ (exists e, In e d /\ hash h (fst e) = Some k /\ snd e = r) /\
      forall e', In e' d' -> In e' d \/ (hash h (fst e') = Some k /\ (buf (snd e') = buf r \/ next s <= buf (snd e')))) /\
    forall t i j, i < n -> j < n -> (Cabs (dval s' d' t i j - (dval s d t i j + sg * (eval f t * ent Hd i j)))%C <= atol * Cabs (eval f t))%R).
Proof.
  intros Hop [N [L K]] Lk. apply lookup_some in Lk. destruct Lk as (k & d1 & g & d2 & Hf & -> & Hg & Hd1).
  assert (Ig : In (g, r) (d1 ++ (g, r) :: d2)) by (apply in_or_app; right; left; reflexivity).
  assert (Ib : In (buf r) (db (d1 ++ (g, r) :: d2))) by (apply (in_map (fun e => buf (snd e)) _ _ Ig)).
  rewrite db_app in N. cbn [db map snd] in N. change (map (fun e => buf (snd e)) d2) with (db d2) in N.
  assert (N1 := NoDup_remove_1 _ _ _ N). assert (N2 := NoDup_remove_2 _ _ _ N). rewrite <- db_app in N1, N2.
  assert (Eg : forall t, eval g t = eval f t) by (intros t; eapply hash_eq_eval; eassumption).
  unfold merge. apply wp_bind, wp_iop. intros s' r' Fr Br V _. apply wp_bind. eapply wp_lift; [eapply put_old; eassumption|].
  assert (Lr : forall b, In b (db (d1 ++ d2)) -> b < next s).
  { intros b I. apply L. rewrite db_app in *. apply in_app_or in I. apply in_or_app. destruct I; [left|right; right]; assumption. }
  assert (Dv : forall t i j, dval s' (d1 ++ d2) t i j = dval s (d1 ++ d2) t i j).
  { intros. eapply dval_frame; [exact Fr|]. intros b I. split; [apply Lr, I|]. intros [<- |[]]. apply N2, I. }
  assert (Nx : next s <= next s') by apply Fr.
  assert (Br' : buf r' < next s') by (destruct Br as [-> |[B _]]; [specialize (L _ Ib); lia|lia]).
  assert (Nr : ~ In (buf r') (db (d1 ++ d2))) by (destruct Br as [-> |[B _]]; [exact N2|intros I; apply Lr in I; lia]).
  destruct (keys_split _ _ _ K) as [K1 K2].
  apply wp_bind, wp_read. destruct (almost_zero n atol (get s' r')) eqn:Z.
  - eapply wp_lift; [eapply pop_old; eassumption|]. split; [|split; [exact Fr|split; [exact Ib|split]]].
    + split; [exact N1|split; [|exact K1]]. intros b I. specialize (Lr b I). lia.
    + exists k. split; [exact Hf|]. split; [exists (g, r); repeat split; assumption|]. intros e' I. left. apply in_app_or in I. apply in_or_app. destruct I; [left|right; right]; assumption.
    + intros t i j Hi Hj. rewrite Dv, !dval_app, dval_cons. cbn [fst snd]. pose proof (almost_zero_t _ Z i j Hi Hj) as A. rewrite V, Hop in A. rewrite Eg.
      replace (dval s d1 t i j + dval s d2 t i j - (dval s d1 t i j + (eval f t * ent (get s r) i j + dval s d2 t i j) + sg * (eval f t * ent Hd i j)))%C
        with (- (eval f t * (ent (get s r) i j + sg * ent Hd i j)))%C by ring.
      rewrite Cabs_opp, Cabs_mul, (Rmult_comm atol). apply Rmult_le_compat_l; [apply Cabs_ge0|exact A].
  - apply wp_ret. split; [|split; [exact Fr|split; [exact Ib|split]]].
    + split; [|split].
      * rewrite db_app. cbn [db map snd]. rewrite db_app in N1, Nr. apply NoDup_Add with (a := buf r') (l := db d1 ++ db d2); [apply Add_app|]. split; assumption.
      * intros b I. rewrite db_app in I. cbn [db map snd] in I. apply in_app_or in I. destruct I as [I|[<- |I]]; [|exact Br'|].
        { specialize (Lr b). rewrite db_app in Lr. specialize (Lr ltac:(apply in_or_app; left; exact I)). lia. }
        { specialize (Lr b). rewrite db_app in Lr. specialize (Lr ltac:(apply in_or_app; right; exact I)). lia. }
      * eapply keys_replace; exact K.
    + exists k. split; [exact Hf|]. split; [exists (g, r); repeat split; assumption|]. intros e' I. apply in_app_or in I. destruct I as [I|[<- |I]].
      * left. apply in_or_app. left; exact I.
      * right. cbn [fst snd]. split; [exact Hg|]. destruct Br as [-> |[B _]]; [left; reflexivity|right; lia].
      * left. apply in_or_app. right; right; exact I.
    + intros t i j Hi Hj. rewrite !dval_app, !dval_cons. cbn [fst snd]. rewrite V, Hop, Eg. specialize (Dv t i j). rewrite !dval_app in Dv.
      replace (dval s' d1 t i j + (eval f t * (ent (get s r) i j + sg * ent Hd i j) + dval s' d2 t i j) -
         (dval s d1 t i j + (eval f t * ent (get s r) i j + dval s d2 t i j) + sg * (eval f t * ent Hd i j)))%C
        with ((dval s' d1 t i j + dval s' d2 t i j) - (dval s d1 t i j + dval s d2 t i j))%C by ring.
      rewrite Dv. apply Cabs_refl. apply Rmult_le_pos; [exact Hatol|apply Cabs_ge0].
Qed.
End Dict.
