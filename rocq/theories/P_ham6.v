(* Views of an operator and the operations of the API. *)
From Verif Require Import AuxN SpecC SpecExpm SpecFunc SpecHam M_func P_func M_ham P_ham P_ham2 P_ham3 P_ham4 P_ham5.
Local Open Scope nat_scope.

Section Ops.
Variable n : nat.
Variable atol : R.
Hypothesis Hatol : (0 <= atol)%R.
Context {F Args : Type}.
Variable call : F -> Args -> R -> C.
Variable h : hashing F Args.
Hypothesis NC : no_collision h.
Notation fn := (fn F Args).
Notation dict := (dict F Args).
Notation eval := (eval call).
Notation ham := (ham F Args).
Notation dval := (dval call).
Notation dwf := (dwf h).
Notation hwf := (hwf h).
Notation fsum := (fsum call).

(* f and its conjugate *)
Definition simple (x : fn) : Prop := match x with Fun _ _ => True | Conj (Fun _ _) => True | _ => False end.
Lemma simple_hash x : simple x -> exists k, hash h x = Some k.
Proof. destruct x as [f a|x y|[f a|? ?|?|? ?]|x p]; intros []; eexists; reflexivity. Qed.
Lemma simple_inj x y : simple x -> simple y -> hash h x = hash h y -> x = y.
Proof.
  destruct NC as (N1 & N2 & N3 & N4 & N5 & N6 & N7).
  destruct x as [f a|? ?|[f a|? ?|?|? ?]|? ?]; intros []; destruct y as [g b|? ?|[g b|? ?|?|? ?]|? ?]; intros []; unfold hash; cbn [hash_list bind]; intros H; injection H as H; apply N7 in H; injection H as H.
  - apply N1 in H. destruct H as [-> ->]. reflexivity.
  - destruct (N4 _ _ _ _ H).
  - symmetry in H. destruct (N4 _ _ _ _ H).
  - apply N2 in H. destruct H as [-> ->]. reflexivity.
Qed.
Lemma simple_conj x : simple x -> exists y, fconj x = Some y /\ simple y /\ fconj y = Some x.
Proof. destruct x as [f a|? ?|[f a|? ?|?|? ?]|? ?]; intros []; eexists; repeat split. Qed.
Lemma keys_conj (d d2 : dict) : Forall2 (fun e e' => fconj (fst e) = Some (fst e')) d d2 -> (forall e, In e d -> simple (fst e)) -> keys_ok h d -> keys_ok h d2.
Proof.
  intros M S [K1 K2]. split.
  - clear K2. induction M as [|e e' d d2 R M IH]; [constructor|]. cbn [map] in *. inversion K1; subst. constructor; [|apply IH; [intros; apply S; right; assumption|assumption]].
    intros I. apply H1. apply in_map_iff in I. destruct I as (e2' & E & I).
    assert (X : exists e2, In e2 d /\ fconj (fst e2) = Some (fst e2')).
    { clear - M I. induction M as [|x x' d d2 R M IH]; [destruct I|]. destruct I as [<- |I]; [exists x; split; [left; reflexivity|exact R]|destruct (IH I) as (e2 & J & E); exists e2; split; [right; exact J|exact E]]. }
    destruct X as (e2 & J & Ec). destruct (simple_conj (fst e) (S e (or_introl eq_refl))) as (y & Ey & Sy & Ey'). destruct (simple_conj (fst e2) (S e2 (or_intror J))) as (y2 & Ey2 & Sy2 & Ey2').
    rewrite R in Ey. injection Ey as <-. rewrite Ec in Ey2. injection Ey2 as <-. assert (Eq := simple_inj _ _ Sy2 Sy E). rewrite Eq, Ey' in Ey2'. injection Ey2' as Eq'. apply in_map_iff. exists e2. split; [rewrite Eq'; reflexivity|exact J].
  - intros e' I. assert (X : simple (fst e')).
    { clear - M I S. induction M as [|x x' d d2 R M IH]; [destruct I|]. destruct I as [<- |I]; [|apply IH; [intros; apply S; right; assumption|exact I]].
      destruct (simple_conj (fst x) (S x (or_introl eq_refl))) as (y & Ey & Sy & _). rewrite R in Ey. injection Ey as <-. exact Sy. }
    apply simple_hash, X.
Qed.
(* a new operator all of whose matrices are new and whose value is v of the value of A *)
Definition view_of (s s' : store) (v : cmat -> cmat) (A H : ham) : Prop :=
  hwf s' H /\ frame s s' [] /\ (forall b, In b (buf (static H) :: db (dyn H)) -> next s <= b) /\ forall t i j, at_time call s' H t i j = v (at_time call s A t) i j.
Lemma wp_rebuild s s1 s2 kf (vm : mat -> mat) (v : cmat -> cmat) (A : ham) st d2 : hwf s A -> frame s s1 [] -> mapped kf vm s s1 (dyn A) d2 ->
  frame s1 s2 [] -> buf st < next s2 -> get s2 st = vm (get s (static A)) -> keys_ok h d2 ->
  (forall t i j, v (at_time call s A t) i j = (ent (vm (get s (static A))) i j + Csum (dyn A) (fun e => match kf (fst e) with Some f => eval f t * ent (vm (get s (snd e))) i j | None => C0 end))%C) ->
  wp (make F Args h true st d2) s2 (fun s' H => view_of s s' v A H /\ mapped kf vm s s' (dyn A) (dyn H)).
Proof.
  intros HA Fr1 M Fr2 Lst G K V. pose proof (mapped_bufs _ _ _ _ _ _ M) as MB. assert (Nx1 := proj1 Fr1). assert (Nx2 := proj1 Fr2).
  eapply wp_mono; [apply (wp_make_true n h s2 st d2 K Lst)|]. { intros b I. apply MB in I. lia. }
  intros s3 H (Fr3 & G3 & W3 & B3 & M3). assert (Nx3 := proj1 Fr3).
  assert (MM : mapped kf vm s s3 (dyn A) (dyn H)).
  { destruct M as [M _]. destruct M3 as [M3 ND]. split; [|exact ND]. clear - M M3 Fr2 Nx1 Nx2 MB. revert M3. generalize (dyn H) as d3. induction M as [|e e2 d d2 R M IH]; intros d3 M3; [inversion M3; constructor|].
    inversion M3 as [|x e3 y d3' R3 M3']; subst. constructor; [|apply IH; [intros b I; apply MB; right; exact I|exact M3']].
    destruct R as (R1 & R2 & R3'). destruct R3 as (Q1 & Q2 & Q3). injection Q1 as Q1. split; [rewrite R1, Q1; reflexivity|]. split; [|lia].
    rewrite Q2. rewrite (frame_get s1 s2 [] (snd e2) Fr2); [exact R2|lia|intros []]. }
  split; [|exact MM]. split; [exact W3|]. split; [apply (frame_trans s s1 s3 [] []); [exact Fr1| |intros ? []]; eapply frame_trans; [exact Fr2|exact Fr3|intros ? []]|].
  split; [intros b I; specialize (B3 b I); lia|]. intros t i j. rewrite at_time_eq, V, G3, G. f_equal. destruct MM as [MM _]. unfold P_ham.dval. clear - MM.
  induction MM as [|e e' d d' (R1 & R2 & _) M IH]; [reflexivity|]. rewrite !Csum_cons, IH, R1, R2. reflexivity.
Qed.
Lemma negate_ok s A : hwf s A -> wp (negate F Args h A) s (fun s' H => view_of s s' mat_opp A H).
Proof.
  intros HA. assert (H0 := HA). destruct H0 as (N & L & K). unfold negate. apply wp_bind.
  eapply wp_mono; [apply (wp_map_loop n Some (fun m => {| dense := dense m; ent := mat_opp (ent m) |}))|].
  - intros e acc s2 I Lb. apply wp_bind. unfold neg. apply wp_bind, wp_read, wp_alloc. intros s3 r Fr3 N3 B3 G3. apply wp_ret. exists (fst e), r. repeat split; try assumption; try lia; apply Fr3.
  - intros b I. apply L. right; exact I.
  - intros s1 d' (d2 & -> & Fr1 & M). cbn [app]. apply wp_bind. unfold neg. apply wp_bind, wp_read, wp_alloc. intros s2 st Fr2 N2 B2 G2.
    eapply wp_mono; [apply (wp_rebuild s s1 s2 Some (fun m => {| dense := dense m; ent := mat_opp (ent m) |}) mat_opp A st d2 HA Fr1 M Fr2)|].
    + lia.
    + rewrite G2. rewrite (frame_get s s1 [] (static A) Fr1); [reflexivity|apply L; left; reflexivity|intros []].
    + eapply keys_ok_fst; [eapply keys_mapped; exact M|exact K].
    + intros t i j. unfold mat_opp at 1. rewrite at_time_eq. cbn [ent]. unfold mat_opp, P_ham.dval.
      rewrite (Csum_ext (dyn A) (fun e => eval (fst e) t * - ent (get s (snd e)) i j)%C (fun e => (- C1) * (eval (fst e) t * ent (get s (snd e)) i j))%C) by (intros; ring). rewrite Csum_mul_l. ring.
    + intros s' H [V _]. exact V.
Qed.
Lemma conjugate_ok' s A : hwf s A -> (forall e, In e (dyn A) -> simple (fst e)) -> wp (conjugate F Args h A) s (fun s' H => view_of s s' mat_conj A H /\ forall e, In e (dyn H) -> simple (fst e)).
Proof.
  intros HA S. assert (H0 := HA). destruct H0 as (N & L & K). unfold conjugate. apply wp_bind.
  eapply wp_mono; [apply (wp_map_loop n fconj (fun m => {| dense := dense m; ent := mat_conj (ent m) |}))|].
  - intros e acc s2 I Lb. apply wp_bind. unfold conj_of. apply wp_bind, wp_read, wp_alloc. intros s3 r Fr3 N3 B3 G3. destruct (simple_conj _ (S e I)) as (y & Ey & _). apply wp_bind. eapply wp_lift; [exact Ey|].
    apply wp_ret. exists y, r. repeat split; try assumption; try lia; apply Fr3.
  - intros b I. apply L. right; exact I.
  - intros s1 d' (d2 & -> & Fr1 & M). cbn [app]. apply wp_bind. unfold conj_of. apply wp_bind, wp_read, wp_alloc. intros s2 st Fr2 N2 B2 G2.
    eapply wp_mono; [apply (wp_rebuild s s1 s2 fconj (fun m => {| dense := dense m; ent := mat_conj (ent m) |}) mat_conj A st d2 HA Fr1 M Fr2)|].
    + lia.
    + rewrite G2. rewrite (frame_get s s1 [] (static A) Fr1); [reflexivity|apply L; left; reflexivity|intros []].
    + eapply keys_conj; [|exact S|exact K]. destruct M as [M _]. eapply Forall2_impl_In; [exact M|]. intros x y _ [E _]. exact E.
    + intros t i j. unfold mat_conj at 1. rewrite at_time_eq. cbn [ent]. unfold mat_conj, P_ham.dval. rewrite Cconj_add, Csum_conj. f_equal. apply Csum_ext. intros e I. rewrite Cconj_mul.
      destruct (simple_conj _ (S e I)) as (y & Ey & _). rewrite Ey, (fconj_eval call _ _ Ey t). reflexivity.
    + intros s' H [V M']. split; [exact V|]. destruct M' as [M' _]. clear - M' S. induction M' as [|e e' d d' R M IH]; [intros ? []|]. intros x [<- |I]; [|apply IH; [intros; apply S; right; assumption|exact I]].
      destruct (simple_conj _ (S e (or_introl eq_refl))) as (y & Ey & Sy & _). destruct R as [R _]. rewrite R in Ey. injection Ey as <-. exact Sy.
Qed.
Lemma get_T s r : get s (view_T r) = {| dense := dense (get s r); ent := mat_T (ent (get s r)) |}.
Proof. unfold get, view_T. cbn [buf tr]. destruct (tr r); cbn [negb tmat]; [destruct (cells s (buf r)); reflexivity|reflexivity]. Qed.
Definition flip (d : dict) : dict := map (fun e => (fst e, view_T (snd e))) d.
Lemma flip_db d : db (flip d) = db d. Proof. unfold db, flip. rewrite map_map. reflexivity. Qed.
Lemma flip_keys d : map fst (flip d) = map fst d. Proof. unfold flip. rewrite map_map. reflexivity. Qed.
Lemma dval_flip s d t i j : dval s (flip d) t i j = dval s d t j i.
Proof. unfold P_ham.dval. induction d as [|e d IH]; [reflexivity|]. cbn [flip map]. rewrite !Csum_cons. fold (flip d). rewrite IH. cbn [fst snd]. rewrite get_T. reflexivity. Qed.
Lemma transpose_copy_ok s A : hwf s A -> wp (transpose F Args h true A) s (fun s' H => view_of s s' mat_T A H /\ map fst (dyn H) = map fst (dyn A)).
Proof.
  intros (N & L & K). unfold transpose. fold (flip (dyn A)). eapply wp_mono; [apply (wp_make_true n h s (view_T (static A)) (flip (dyn A)))|].
  - eapply keys_ok_fst; [apply flip_keys|exact K].
  - apply L. left; reflexivity.
  - intros b I. rewrite flip_db in I. apply L. right; exact I.
  - intros s' H (Fr & G & W & B & M). split; [|rewrite (keys_mapped _ _ _ _ _ M); apply flip_keys]. split; [exact W|]. split; [exact Fr|]. split; [exact B|]. intros t i j. unfold mat_T. rewrite !at_time_eq.
    rewrite G, get_T, (dval_mapped call _ _ _ _ _ t i j M). cbn [ent]. unfold mat_T at 1. f_equal. rewrite <- dval_flip. reflexivity.
Qed.
(* without copying the arrays of the dynamic terms are shared *)
Lemma transpose_share_ok s A : hwf s A -> wp (transpose F Args h false A) s (fun s' H => hwf s' H /\ frame s s' [] /\ dyn H = flip (dyn A) /\
  (forall i j, ent (get s' (static H)) i j = ent (get s (static A)) j i) /\ next s <= buf (static H) /\ forall t i j, at_time call s' H t i j = at_time call s A t j i).
Proof.
  intros (N & L & K). unfold transpose. fold (flip (dyn A)). eapply wp_mono; [apply (wp_make_false h s (view_T (static A)) (flip (dyn A)))|].
  - eapply keys_ok_fst; [apply flip_keys|exact K].
  - intros s' H (Fr & B & G & D). assert (Nx := proj1 Fr). split; [|split; [exact Fr|split; [exact D|split; [intros i j; rewrite G, get_T; reflexivity|split; [lia|]]]]].
    + split; [|split].
      * rewrite D, flip_db. constructor; [intros I; specialize (L _ (or_intror I)); lia|inversion N; assumption].
      * rewrite D, flip_db. intros b [<- |I]; [lia|]. specialize (L _ (or_intror I)). lia.
      * rewrite D. eapply keys_ok_fst; [apply flip_keys|exact K].
    + intros t i j. rewrite !at_time_eq, G, get_T, D. cbn [ent]. unfold mat_T. f_equal.
      rewrite (dval_frame call s s' [] (flip (dyn A)) t i j Fr); [apply dval_flip|]. intros b I. rewrite flip_db in I. split; [apply L; right; exact I|intros []].
Qed.
Lemma getH_copy_ok s A : hwf s A -> (forall e, In e (dyn A) -> simple (fst e)) -> wp (getH F Args h true A) s (fun s' H => view_of s s' mat_H A H).
Proof.
  intros HA S. unfold getH. apply wp_bind. eapply wp_mono; [apply conjugate_ok'; assumption|]. intros s1 H1 [(W1 & Fr1 & B1 & V1) _]. assert (Nx := proj1 Fr1).
  eapply wp_mono; [apply transpose_copy_ok; exact W1|]. intros s2 H2 [(W2 & Fr2 & B2 & V2) _]. split; [exact W2|]. split; [eapply frame_trans; [exact Fr1|exact Fr2|intros ? []]|].
  split; [intros b I; specialize (B2 b I); lia|]. intros t i j. rewrite V2. unfold mat_T. rewrite V1. reflexivity.
Qed.
Lemma getH_ok s A copy : hwf s A -> (forall e, In e (dyn A) -> simple (fst e)) ->
  wp (getH F Args h copy A) s (fun s' H => view_of s s' mat_H A H).
Proof.
  destruct copy; [apply getH_copy_ok|]. intros HA S. unfold getH. apply wp_bind. eapply wp_mono; [apply conjugate_ok'; assumption|]. intros s1 H1 [(W1 & Fr1 & B1 & V1) _]. assert (Nx := proj1 Fr1).
  eapply wp_mono; [apply transpose_share_ok; exact W1|]. intros s2 H2 (W2 & Fr2 & D2 & _ & N2 & V2). split; [exact W2|]. split; [eapply frame_trans; [exact Fr1|exact Fr2|intros ? []]|].
  split; [|intros t i j; rewrite V2, V1; reflexivity]. intros b [<- |I]; [lia|]. rewrite D2, flip_db in I. apply B1. right; exact I.
Qed.
Lemma conjugate_ok s A : hwf s A -> (forall e, In e (dyn A) -> simple (fst e)) -> wp (conjugate F Args h A) s (fun s' H => view_of s s' mat_conj A H).
Proof. intros HA S. eapply wp_mono; [apply conjugate_ok'; assumption|]. intros s' H [V _]. exact V. Qed.
Lemma copy_ok s A : hwf s A -> wp (copy_ham F Args h A) s (fun s' H => view_of s s' (fun M => M) A H).
Proof.
  intros (N & L & K). unfold copy_ham. eapply wp_mono; [apply (wp_make_true n h s (static A) (dyn A) K)|].
  - apply L; left; reflexivity.
  - intros b I. apply L. right; exact I.
  - intros s' H (Fr & G & W & B & M). split; [exact W|]. split; [exact Fr|]. split; [exact B|]. intros t i j. rewrite !at_time_eq, G, (dval_mapped call _ _ _ _ _ t i j M). reflexivity.
Qed.

(* scalar multiples and products *)
Definition result (s s' : store) (e : R -> R) (H : ham) (v : R -> cmat) : Prop := hwf s' H /\ frame s s' [] /\ forall t, within n (e t) (at_time call s' H t) (v t).
Lemma mul_scalar_ok s A c : hwf s A -> wp (mul_scalar n atol F Args h A c) s (fun s' H => result s s' (fun t => atol * (1 + fsum (dyn A) t))%R H (fun t => mat_scale c (at_time call s A t))).
Proof. intros HA. exact (wp_linear_copy n atol Hatol call h _ _ (iscale c) (iscale c) (mat_scale c) A s (linear_scale n c) (replaces_scale c) (replaces_scale c) HA I (fun _ _ => I)). Qed.
Lemma imul_scalar_ok s A c : hwf s A -> wp (imul_scalar n atol F Args h A c) s (fun s' H => hwf s' H /\ frame s s' (buf (static A) :: db (dyn A)) /\
  forall t, within n (atol * (1 + fsum (dyn A) t)) (at_time call s' H t) (mat_scale c (at_time call s A t))).
Proof. intros HA. exact (wp_linear n atol Hatol call h _ _ (iscale c) (iscale c) (mat_scale c) A s (linear_scale n c) (replaces_scale c) (replaces_scale c) HA I (fun _ _ => I)). Qed.
Definition not_both (x y : mat) : Prop := dense x = false \/ dense y = false.
Lemma star_ok x y : not_both x y -> ent (star n x y) = mat_mul n (ent x) (ent y).
Proof. unfold star. intros [-> | ->]; [reflexivity|]. rewrite andb_false_r. reflexivity. Qed.
Lemma mul_sparse_ok s A B : hwf s A -> (forall b, In b (static A :: map snd (dyn A)) -> not_both (get s b) B) ->
  wp (mul_sparse n atol F Args h A B) s (fun s' H => result s s' (fun t => atol * (1 + fsum (dyn A) t))%R H (fun t => mat_mul n (at_time call s A t) (ent B))).
Proof.
  intros HA Hd. refine (wp_linear_copy n atol Hatol call h (fun m => not_both m B) (fun m => not_both m B) (fun r => run m <- read r; alloc (star n m B)) (fun r => run m <- read r; alloc (star n m B))
    (fun X => mat_mul n X (ent B)) A s (linear_right n _) _ _ HA _ _).
  - apply (replaces_alloc (fun m => not_both m B)). intros m H. apply star_ok, H.
  - apply (replaces_alloc (fun m => not_both m B)). intros m H. apply star_ok, H.
  - apply Hd. left; reflexivity.
  - intros e I. apply Hd. right. apply in_map, I.
Qed.
Lemma rmul_sparse_ok s A B : hwf s A -> dense B = false ->
  wp (rmul_sparse n atol F Args h A B) s (fun s' H => result s s' (fun t => atol * (1 + fsum (dyn A) t))%R H (fun t => mat_mul n (ent B) (at_time call s A t))).
Proof.
  intros HA Hd. refine (wp_linear_copy n atol Hatol call h (fun m => True) (fun m => True) (fun r => run m <- read r; alloc (star n B m)) (fun r => run m <- read r; run p <- lift (dot n B m); alloc p)
    (fun X => mat_mul n (ent B) X) A s (linear_left n _) _ _ HA I (fun _ _ => I)).
  - apply (replaces_alloc (fun m => True)). intros m _. apply star_ok. left; exact Hd.
  - apply (replaces_lift (fun m => True)). intros m _. unfold dot. rewrite Hd. cbn [andb orb]. eexists. split; reflexivity.
Qed.
Lemma mul_dense_ok s A B : hwf s A -> wp (mul_dense n atol F Args h A B) s (fun s' AH => result s s' (fun t => atol * (1 + fsum (dyn A) t))%R (snd AH) (fun t => mat_mul n (at_time call s A t) (ent B)) /\ static (fst AH) = static A /\ dyn (fst AH) = dyn A).
Proof.
  intros HA. assert (W := wp_linear_copy n atol Hatol call h (fun m => True) (fun m => True) (fun r => run m <- read r; alloc (product n m B)) (fun r => run m <- read r; alloc (product n m B))
    (fun X => mat_mul n X (ent B)) A s (linear_right n _) (replaces_alloc _ (fun m => product n m B) (fun X => mat_mul n X (ent B)) (fun _ _ => eq_refl)) (replaces_alloc _ (fun m => product n m B) (fun X => mat_mul n X (ent B)) (fun _ _ => eq_refl)) HA I (fun _ _ => I)).
  assert (W2 : wp (run H <- (run new <- astype F Args h true A; run st <- (run m <- read (static new); alloc (product n m B)); run st <- clean n atol st; run d <- replace_terms n atol F Args h (fun r => run m <- read r; alloc (product n m B)) (dyn new); check_is_dense F Args st d); ret (set_dense F Args true A, H)) s
    (fun s' AH => result s s' (fun t => atol * (1 + fsum (dyn A) t))%R (snd AH) (fun t => mat_mul n (at_time call s A t) (ent B)) /\ static (fst AH) = static A /\ dyn (fst AH) = dyn A)).
  { apply wp_bind. eapply wp_mono; [exact W|]. intros s' H R. apply wp_ret. split; [exact R|]. split; reflexivity. }
  unfold wp in *. assert (E : forall x y : option (store * (ham * ham)), x = y -> match x with Some (s', a) => result s s' (fun t => atol * (1 + fsum (dyn A) t))%R (snd a) (fun t => mat_mul n (at_time call s A t) (ent B)) /\ static (fst a) = static A /\ dyn (fst a) = dyn A | None => False end ->
    match y with Some (s', a) => result s s' (fun t => atol * (1 + fsum (dyn A) t))%R (snd a) (fun t => mat_mul n (at_time call s A t) (ent B)) /\ static (fst a) = static A /\ dyn (fst a) = dyn A | None => False end) by (intros x y ->; auto).
  eapply E; [|exact W2]. unfold mul_dense, abind. destruct (astype F Args h true A s) as [[s1 N]|]; [|reflexivity]. cbn [read alloc]. 
  destruct (clean n atol _ _) as [[s2 st]|]; [|reflexivity]. destruct (replace_terms n atol F Args h _ (dyn N) s2) as [[s3 d]|]; reflexivity.
Qed.
End Ops.
