(* More operations of the API, sharing, and failures. *)
From Verif Require Import AuxN SpecC SpecExpm SpecFunc SpecHam M_func P_func M_ham P_ham P_ham2 P_ham3 P_ham4 P_ham5 P_ham6.
Local Open Scope nat_scope.

Lemma wp_same {A} (x y : act A) s Q : x s = y s -> wp x s Q -> wp y s Q. Proof. unfold wp. intros ->. auto. Qed.
Section Ops.
Variable n : nat.
Variable atol : R.
Hypothesis Hatol : (0 <= atol)%R.
Context {F Args : Type}.
Variable call : F -> Args -> R -> C.
Variable h : hashing F Args.
Hypothesis NC : no_collision h.
Notation fn := (fn F Args).
Notation dict := (dict F Args).
Notation eval := (eval call).
Notation ham := (ham F Args).
Notation dval := (dval call).
Notation dwf := (dwf h).
Notation hwf := (hwf h).
Notation fsum := (fsum call).
Notation result := (result n call h).

Lemma rmul_dense_ok s A B : hwf s A -> wp (rmul_dense n atol F Args h A B) s (fun s' AH => result s s' (fun t => atol * (1 + fsum (dyn A) t))%R (snd AH) (fun t => mat_mul n (ent B) (at_time call s A t)) /\ static (fst AH) = static A /\ dyn (fst AH) = dyn A).
Proof.
  intros HA. assert (W := wp_linear_copy n atol Hatol call h (fun m => True) (fun m => True) (fun r => run m <- read r; alloc (product n B m)) (fun r => run m <- read r; alloc (product n B m))
    (fun X => mat_mul n (ent B) X) A s (linear_left n _) (replaces_alloc _ (fun m => product n B m) (fun X => mat_mul n (ent B) X) (fun _ _ => eq_refl)) (replaces_alloc _ (fun m => product n B m) (fun X => mat_mul n (ent B) X) (fun _ _ => eq_refl)) HA I (fun _ _ => I)).
  eapply (wp_same (run H <- (run new <- astype F Args h true A; run st <- (run m <- read (static new); alloc (product n B m)); run st <- clean n atol st; run d <- replace_terms n atol F Args h (fun r => run m <- read r; alloc (product n B m)) (dyn new); check_is_dense F Args st d); ret (set_dense F Args true A, H))).
  - unfold rmul_dense, abind. destruct (astype F Args h true A s) as [[s1 N]|]; [|reflexivity]. cbn [read alloc].
    destruct (clean n atol _ _) as [[s2 st]|]; [|reflexivity]. destruct (replace_terms n atol F Args h _ (dyn N) s2) as [[s3 d]|]; reflexivity.
  - apply wp_bind. eapply wp_mono; [exact W|]. intros s' H R. apply wp_ret. split; [exact R|]. split; reflexivity.
Qed.
(* sum and difference with a matrix *)
Lemma add_matrix_ok op sg s A B : (forall A B i j, op A B i j = (A i j + sg * B i j)%C) -> hwf s A ->
  wp (add_matrix n atol F Args h op A B) s (fun s' AH => result s s' (fun _ => atol) (snd AH) (fun t => op (at_time call s A t) (ent B)) /\ static (fst AH) = static A /\ dyn (fst AH) = dyn A /\
    is_dense (fst AH) = (if dense B then true else is_dense A)).
Proof.
  intros Hop HA. unfold add_matrix. apply wp_bind. eapply wp_mono; [apply (wp_astype_true n); exact HA|]. intros s1 N Fc. assert (G := Fc). destruct G as (Fr & G & WN & Lb & M). destruct WN as (NN & LN & KN).
  assert (Nx := proj1 Fr). assert (Nin : ~ In (buf (static N)) (db (dyn N))) by (inversion NN; assumption).
  apply wp_bind, wp_iop. intros s2 st2 Fr2 B2 V2 _. assert (Nx2 := proj1 Fr2). assert (L2 : buf st2 < next s2) by (destruct B2 as [-> |[B' _]]; [specialize (LN _ (or_introl eq_refl)); lia|lia]).
  apply wp_bind, wp_clean; [exact Hatol|exact L2|]. intros s3 st3 Fr3 B3 V3. assert (Nx3 := proj1 Fr3). assert (L3 : buf st3 < next s3) by (destruct B3 as [-> |B']; lia).
  assert (Fr13 : frame s1 s3 [buf (static N)]) by (eapply frame_trans; [exact Fr2|exact Fr3|intros ? []]).
  assert (St3 : buf st3 = buf (static N) \/ next s1 <= buf st3) by (destruct B3 as [-> |B']; [destruct B2 as [-> |[B' _]]; [left; reflexivity|right; lia]|right; lia]).
  apply wp_bind. unfold check_is_dense. unfold wp. split; [|split; [|split]]; try (destruct (dense B); reflexivity).
  cbn [snd]. split; [|split].
  - split; [|split; [|exact KN]]; cbn [static dyn].
    + constructor; [|inversion NN; assumption]. intros I. destruct St3 as [E|E]; [rewrite E in I; exact (Nin I)|]. specialize (LN _ (or_intror I)). lia.
    + intros b [<- |I]; [exact L3|]. specialize (LN _ (or_intror I)). lia.
  - eapply frame_trans; [exact Fr|exact Fr13|]. intros b [<- |[]] L. specialize (Lb _ (or_introl eq_refl)). lia.
  - intros t i j Hi Hj. rewrite at_time_eq. cbn [static dyn]. specialize (V3 i j Hi Hj). rewrite V2, !Hop in *.
    rewrite (dval_frame call s1 s3 _ (dyn N) t i j Fr13) by (intros b I; split; [apply LN; right; exact I|intros [<- |[]]; exact (Nin I)]).
    rewrite <- (copy_time call h s s1 A N t i j Fc), at_time_eq.
    match goal with |- (Cabs ?x <= _)%R => replace x with (ent (get s3 st3) i j - (ent (get s1 (static N)) i j + sg * ent B i j))%C by ring end. exact V3.
Qed.
(* A * B *)
Variable fuel : nat.
Lemma dynamic_nil (A : ham) : dyn A = [] -> dynamic F Args A = false. Proof. unfold dynamic. intros ->. reflexivity. Qed.
Lemma dynamic_cons (A : ham) : dyn A <> [] -> dynamic F Args A = true. Proof. unfold dynamic. destruct (dyn A); [congruence|reflexivity]. Qed.
Lemma time_static s (A : ham) t i j : dyn A = [] -> at_time call s A t i j = ent (get s (static A)) i j.
Proof. intros E. unfold at_time. rewrite E. reflexivity. Qed.
Lemma mul_ext A A' B B' i j : i < n -> j < n -> (forall i j, A i j = A' i j) -> (forall i j, B i j = B' i j) -> mat_mul n A B i j = mat_mul n A' B' i j.
Proof. intros Hi Hj EA EB. unfold mat_mul. apply Csum_ext. intros k _. rewrite EA, EB. reflexivity. Qed.
Lemma mul_right_ok s A B : hwf s A -> dyn B = [] -> (forall b, In b (static A :: map snd (dyn A)) -> not_both (get s b) (get s (static B))) ->
  wp (mul_ham n atol F Args h fuel A B) s (fun s' H => result s s' (fun t => atol * (1 + fsum (dyn A) t))%R H (fun t => mat_mul n (at_time call s A t) (at_time call s B t))).
Proof.
  intros HA EB Hd. unfold mul_ham. rewrite (dynamic_nil B EB), andb_false_r.
  assert (W : wp (run m <- read (static B); mul_sparse n atol F Args h A m) s (fun s' H => result s s' (fun t => atol * (1 + fsum (dyn A) t))%R H (fun t => mat_mul n (at_time call s A t) (at_time call s B t)))).
  { apply wp_bind, wp_read. eapply wp_mono; [apply (mul_sparse_ok n atol Hatol call h s A _ HA Hd)|]. intros s' H (W & Fr & V). split; [exact W|]. split; [exact Fr|]. intros t i j Hi Hj. specialize (V t i j Hi Hj).
    rewrite (mul_ext _ (at_time call s A t) _ (at_time call s B t) i j Hi Hj) in V; [exact V|reflexivity|]. intros a b. symmetry. apply time_static, EB. }
  destruct (dynamic F Args A); exact W.
Qed.
Lemma mul_left_ok s A B : hwf s B -> dyn A = [] -> dyn B <> [] -> dense (get s (static A)) = false ->
  wp (mul_ham n atol F Args h fuel A B) s (fun s' H => result s s' (fun t => atol * (1 + fsum (dyn B) t))%R H (fun t => mat_mul n (at_time call s A t) (at_time call s B t))).
Proof.
  intros HB EA EB Hd. unfold mul_ham. rewrite (dynamic_nil A EA), (dynamic_cons B EB). cbn [andb]. apply wp_bind, wp_read.
  eapply wp_mono; [apply (rmul_sparse_ok n atol Hatol call h s B _ HB Hd)|]. intros s' H (W & Fr & V). split; [exact W|]. split; [exact Fr|]. intros t i j Hi Hj. specialize (V t i j Hi Hj).
  rewrite (mul_ext _ (at_time call s A t) _ (at_time call s B t) i j Hi Hj) in V; [exact V| |reflexivity]. intros a b. symmetry. apply time_static, EA.
Qed.
Lemma wp_astype_false s A : hwf s A -> wp (astype F Args h false A) s (fun s' N => frame s s' [] /\ hwf s' N /\ dyn N = dyn A /\ get s' (static N) = get s (static A)).
Proof.
  intros (N & L & K). unfold astype. apply wp_bind, wp_ret, wp_bind.
  assert (E : forall rest acc : dict, for_ rest (fun (e : fn * ref) (d : dict) => run r <- ret (snd e); ret (d ++ [(fst e, r)])) acc s = Some (s, acc ++ rest)).
  { induction rest as [|e rest IH]; intros acc; cbn [for_]; [rewrite app_nil_r; reflexivity|]. unfold abind, ret. cbn beta iota. specialize (IH (acc ++ [(fst e, snd e)])). unfold abind, ret in IH. rewrite IH. rewrite <- app_assoc. destruct e; reflexivity. }
  unfold wp at 1. rewrite E. cbn [app]. eapply wp_mono; [apply wp_make_false; exact K|]. intros s' H (Fr & B & G & D). assert (Nx := proj1 Fr). split; [exact Fr|]. split; [|split; [exact D|exact G]].
  split; [|split]; rewrite D.
  - constructor; [intros I; specialize (L _ (or_intror I)); lia|inversion N; assumption].
  - intros b [<- |I]; [lia|]. specialize (L _ (or_intror I)). lia.
  - exact K.
Qed.
Lemma mul_dynamic_ok s A B : hwf s A -> hwf s B -> dyn A <> [] -> dyn B <> [] ->
  (forall e1 e2, In e1 (dyn A) -> In e2 (dyn B) -> exists f k, fmul h fuel (fst e1) (fst e2) = Some f /\ hash h f = Some k) ->
  wp (mul_ham n atol F Args h fuel A B) s (fun s' H => result s s' (fun t => atol * (fsum (dyn A) t + fsum (dyn B) t + fsum (dyn A) t * fsum (dyn B) t))%R H (fun t => mat_mul n (at_time call s A t) (at_time call s B t))).
Proof.
  intros HA HB EA EB Hm. unfold mul_ham. rewrite (dynamic_cons A EA), (dynamic_cons B EB). cbn [andb]. apply wp_bind. eapply wp_mono; [apply wp_astype_false; exact HA|].
  intros s1 N (Fr & WN & D & G). unfold imul_ham. rewrite (dynamic_cons N) by (rewrite D; exact EA). rewrite (dynamic_cons B EB). cbn [andb].
  eapply wp_mono; [apply (imul_dynamic_ok n atol Hatol call h NC fuel s1 N B WN (hwf_frame h s s1 [] B Fr HB))|].
  - rewrite D. exact Hm.
  - intros s2 H (W & Fr2 & V). split; [exact W|]. split; [eapply frame_trans; [exact Fr|exact Fr2|intros ? []]|]. intros t i j Hi Hj. specialize (V t i j Hi Hj). rewrite D in V.
    rewrite (mul_ext _ (at_time call s A t) _ (at_time call s B t) i j Hi Hj) in V; [exact V| |].
    + intros a b. rewrite !at_time_eq, G, D. f_equal. eapply dval_frame; [exact Fr|]. intros x I. split; [apply HA; right; exact I|intros []].
    + intros a b. apply (other_time call h s s1 B t a b Fr HB).
Qed.
Lemma imul_both_ok s A B : hwf s A -> hwf s B -> dyn A <> [] -> dyn B <> [] ->
  (forall e1 e2, In e1 (dyn A) -> In e2 (dyn B) -> exists f k, fmul h fuel (fst e1) (fst e2) = Some f /\ hash h f = Some k) ->
  wp (imul_ham n atol F Args h fuel A B) s (fun s' H => result s s' (fun t => atol * (fsum (dyn A) t + fsum (dyn B) t + fsum (dyn A) t * fsum (dyn B) t))%R H (fun t => mat_mul n (at_time call s A t) (at_time call s B t))).
Proof.
  intros HA HB EA EB Hm. unfold imul_ham. rewrite (dynamic_cons A EA), (dynamic_cons B EB). cbn [andb]. exact (imul_dynamic_ok n atol Hatol call h NC fuel s A B HA HB Hm).
Qed.
(* what A *= B computes for a static B: the dynamic terms are multiplied from the wrong side *)
Lemma imul_static_value s A B : hwf s A -> dyn B = [] -> dense (get s (static B)) = false ->
  wp (imul_ham n atol F Args h fuel A B) s (fun s' H => hwf s' H /\
    forall t, within n (atol * (1 + fsum (dyn A) t)) (at_time call s' H t)
      (fun i j => mat_mul n (ent (get s (static A))) (ent (get s (static B))) i j + Csum (dyn A) (fun e => eval (fst e) t * mat_mul n (ent (get s (static B))) (ent (get s (snd e))) i j))%C).
Proof.
  intros HA EB Hd. unfold imul_ham. rewrite (dynamic_nil B EB), andb_false_r.
  assert (W : wp (run m <- read (static B); imul_sparse n atol F Args h A m) s (fun s' H => hwf s' H /\
    forall t, within n (atol * (1 + fsum (dyn A) t)) (at_time call s' H t)
      (fun i j => mat_mul n (ent (get s (static A))) (ent (get s (static B))) i j + Csum (dyn A) (fun e => eval (fst e) t * mat_mul n (ent (get s (static B))) (ent (get s (snd e))) i j))%C)).
  { apply wp_bind, wp_read. set (m := get s (static B)) in *.
    assert (R1 : replaces (fun _ => True) (fun r => run x <- read r; alloc (star n x m)) (fun X => mat_mul n X (ent m))) by (apply (replaces_alloc (fun _ => True)); intros x _; apply star_ok; right; exact Hd).
    assert (R2 : replaces (fun _ => True) (fun r => run x <- read r; run p <- lift (dot n m x); alloc p) (fun X => mat_mul n (ent m) X)).
    { apply (replaces_lift (fun m => True)). intros x _. unfold dot. rewrite Hd. cbn [andb orb]. eexists. split; reflexivity. }
    eapply wp_mono; [exact (wp_linear2 n atol Hatol call h _ _ _ _ _ _ A s R1 R2 HA I (fun _ _ => I))|]. intros s' H (W & _ & V). split; [exact W|exact V]. }
  destruct (dynamic F Args A); exact W.
Qed.
(* A * B for dense static matrices multiplies entry by entry *)
Lemma mul_dense_value s A B : hwf s A -> dyn A = [] -> dyn B = [] -> dense (get s (static A)) = true -> dense (get s (static B)) = true ->
  wp (mul_ham n atol F Args h fuel A B) s (fun s' H => hwf s' H /\ forall t, within n atol (at_time call s' H t) (fun i j => ent (get s (static A)) i j * ent (get s (static B)) i j)%C).
Proof.
  intros HA EA EB DA DB. unfold mul_ham. rewrite (dynamic_nil A EA), (dynamic_nil B EB). cbn [andb]. apply wp_bind, wp_read. set (m := get s (static B)) in *.
  assert (R1 : replaces (fun x => dense x = true) (fun r => run x <- read r; alloc (star n x m)) (fun X i j => X i j * ent m i j)%C).
  { apply (replaces_alloc (fun x => dense x = true)). intros x Dx. unfold star. rewrite Dx, DB. reflexivity. }
  assert (Lv : linear n (fun X i j => X i j * ent m i j)%C).
  { split; [|split]; intros; unfold mat_add, mat_scale; [rewrite H by assumption; reflexivity|ring|ring]. }
  eapply wp_mono; [apply (wp_linear_copy n atol Hatol call h _ _ _ _ _ A s Lv R1 R1 HA DA)|].
  - rewrite EA. intros ? [].
  - intros s' H (W & _ & V). split; [exact W|]. intros t i j Hi Hj. specialize (V t i j Hi Hj). rewrite EA in V. cbn [P_ham2.fsum fold_right] in V. rewrite Rplus_0_r, Rmult_1_r in V. rewrite (time_static s A t i j EA) in V. exact V.
Qed.
(* scaling in place an operator with one dynamic term *)
Lemma imul_one s (H : ham) f r c : dyn H = [(f, r)] -> hwf s H ->
  wp (imul_scalar n atol F Args h H c) s (fun s' _ => frame s s' [buf (static H); buf r] /\ ent (get s' r) = mat_scale c (ent (get s r))).
Proof.
  intros D (N & L & K). rewrite D in *. cbn [db map snd] in *. destruct (proj2 K (f, r) (or_introl eq_refl)) as [k Hk]. cbn [fst] in Hk.
  assert (Nr : buf r <> buf (static H)) by (inversion N; intros E; apply H2; left; exact E).
  unfold imul_scalar, scale_terms. apply wp_bind, wp_iscale. intros s1 Fr1 N1 _ _. apply wp_bind, wp_clean; [exact Hatol|rewrite N1; apply L; left; reflexivity|]. intros s2 st2 Fr2 _ _.
  assert (Fr : frame s s2 [buf (static H)]) by (eapply frame_trans; [exact Fr1|exact Fr2|intros ? []]).
  assert (G : get s2 r = get s r) by (eapply frame_get; [exact Fr|apply L; right; left; reflexivity|intros [E|[]]; congruence]).
  rewrite D. unfold replace_terms. cbn [for_ fst snd]. apply wp_bind, wp_bind, wp_bind, wp_iscale. intros s3 Fr3 N3 V3 _. apply wp_bind.
  eapply wp_lift; [eapply (put_old h [] f r [] f r k); [exact Hk|exact Hk|intros ? []]|]. cbn [app]. apply wp_bind, wp_read.
  assert (P : frame s s3 [buf (static H); buf r] /\ ent (get s3 r) = mat_scale c (ent (get s r))).
  { split; [|rewrite V3, G; reflexivity]. eapply frame_trans; [eapply frame_weak; [exact Fr|intros b [<- |[]]; left; reflexivity]|exact Fr3|]. intros b [<- |[]] _. right; left; reflexivity. }
  destruct (almost_zero n atol (get s3 r)).
  - eapply wp_lift; [eapply (pop_old h [] f r [] f k); [exact Hk|exact Hk|intros ? []]|]. apply wp_ret. exact P.
  - apply wp_ret, wp_ret. exact P.
Qed.
(* the sum uses the matrix of the second operand *)
Lemma add_shares s A B f r : hwf s A -> hwf s B -> dyn A = [] -> dyn B = [(f, r)] ->
  wp (add_ham n atol F Args h A B) s (fun s' H => frame s s' [] /\ hwf s' H /\ dyn H = [(f, r)] /\ next s <= buf (static H)).
Proof.
  intros HA HB EA EB. assert (W := add_ok n atol Hatol call h NC s A B HA HB).
  assert (W2 : wp (add_ham n atol F Args h A B) s (fun s' H => dyn H = [(f, r)] /\ next s <= buf (static H))).
  { unfold add_ham. apply wp_bind. eapply wp_mono; [apply (wp_astype_true n); exact HA|]. intros s1 N Fc. destruct Fc as (Fr & G & WN & Lb & M). assert (Nx := proj1 Fr).
    destruct M as [M _]. rewrite EA in M. assert (EN : dyn N = []) by (inversion M; reflexivity).
    apply wp_bind, wp_read, wp_bind, wp_iop. intros s2 st2 Fr2 B2 _ _. assert (Nx2 := proj1 Fr2). assert (L2 : next s <= buf st2 < next s2) by (destruct B2 as [-> |[B' _]]; [split; [apply Lb; left; reflexivity|specialize (proj1 (proj2 WN) _ (or_introl eq_refl)); lia]|lia]).
    apply wp_bind, wp_clean; [exact Hatol|lia|]. intros s3 st3 Fr3 B3 _. assert (Nx3 := proj1 Fr3).
    unfold add_terms. rewrite EN, EB. cbn [for_ fst snd]. destruct HB as (_ & _ & _ & K). destruct (K (f, r)) as [k Hk]; [rewrite EB; left; reflexivity|]. cbn [fst] in Hk.
    apply wp_bind, wp_bind, wp_bind. eapply wp_lift; [eapply lookup_fresh; [exact Hk|intros ? []]|]. eapply wp_lift; [eapply put_new; [exact Hk|intros ? []]|]. apply wp_ret.
    unfold check_is_dense, wp. cbn [static dyn app]. split; [reflexivity|]. destruct B3 as [-> |B3]; lia. }
  unfold wp in *. destruct (add_ham n atol F Args h A B s) as [[s' H]|]; [|exact W]. destruct W as (W & Fr & _). destruct W2 as [D L]. auto.
Qed.
Lemma scaled_sum_changes s A B f r c : hwf s A -> hwf s B -> dyn A = [] -> dyn B = [(f, r)] ->
  wp (run H <- add_ham n atol F Args h A B; imul_scalar n atol F Args h H c) s (fun s' _ => forall t i j, at_time call s' B t i j = (ent (get s (static B)) i j + eval f t * (c * ent (get s r) i j))%C).
Proof.
  intros HA HB EA EB. apply wp_bind. eapply wp_mono; [apply (add_shares s A B f r HA HB EA EB)|]. intros s1 H (Fr & W & D & L). eapply wp_mono; [apply (imul_one s1 H f r c D W)|].
  intros s2 _ [Fr2 V]. destruct HB as (N & LB & _). rewrite EB in *. cbn [db map snd] in *. intros t i j. unfold at_time. rewrite EB. cbn [fold_left fst snd]. unfold mat_add, mat_scale at 1. rewrite V.
  rewrite (frame_get s s1 [] r Fr) by ((apply LB; right; left; reflexivity) || intros []). unfold mat_scale.
  rewrite (frame_get s1 s2 _ (static B) Fr2).
  - rewrite (frame_get s s1 [] (static B) Fr); [reflexivity|apply LB; left; reflexivity|intros []].
  - specialize (LB _ (or_introl eq_refl)). destruct Fr; lia.
  - specialize (LB _ (or_introl eq_refl)). intros [E|[E|[]]]; [lia|]. inversion N; subst. apply H2. left; exact E.
Qed.
Lemma scaled_transpose_changes s B f r c : hwf s B -> dyn B = [(f, r)] ->
  wp (run H <- transpose F Args h false B; imul_scalar n atol F Args h H c) s (fun s' _ => forall t i j, at_time call s' B t i j = (ent (get s (static B)) i j + eval f t * (c * ent (get s r) i j))%C).
Proof.
  intros HB EB. apply wp_bind. eapply wp_mono; [apply (transpose_share_ok n call h s B HB)|]. intros s1 H (W & Fr & D & _ & L & _). rewrite EB in D. cbn [flip map fst snd] in D.
  eapply wp_mono; [apply (imul_one s1 H f (view_T r) c D W)|].
  intros s2 _ [Fr2 V]. destruct HB as (N & LB & _). rewrite EB in *. cbn [db map snd] in *. intros t i j. unfold at_time. rewrite EB. cbn [fold_left fst snd]. unfold mat_add, mat_scale at 1.
  assert (V' : ent (get s2 r) i j = (c * ent (get s r) i j)%C).
  { rewrite !get_T in V. cbn [ent] in V. assert (E := f_equal (fun M => M j i) V). unfold mat_T, mat_scale in E. cbn beta in E. rewrite E.
    rewrite (frame_get s s1 [] r Fr) by ((apply LB; right; left; reflexivity) || intros []). reflexivity. }
  rewrite V'. rewrite (frame_get s1 s2 _ (static B) Fr2).
  - rewrite (frame_get s s1 [] (static B) Fr); [reflexivity|apply LB; left; reflexivity|intros []].
  - specialize (LB _ (or_introl eq_refl)). destruct Fr; lia.
  - specialize (LB _ (or_introl eq_refl)). cbn [view_T buf]. intros [E|[E|[]]]; [lia|]. inversion N; subst. apply H2. left; exact E.
Qed.
(* A -= B with a common function *)
Lemma isub_fails s A B k e e' : In e (dyn A) -> In e' (dyn B) -> hash h (fst e) = Some k -> hash h (fst e') = Some k -> isub_ham n atol F Args h A B s = None.
Proof.
  intros Ie Ie' He He'. unfold isub_ham, abind at 1. cbn [read]. unfold abind at 1. destruct (isub (static A) (get s (static B)) s) as [[s1 st1]|]; [|reflexivity].
  unfold abind at 1. destruct (clean n atol st1 s1) as [[s2 st2]|]; [|reflexivity]. unfold abind at 1.
  assert (E : forall od d s, In e' od -> (exists x, In x d /\ hash h (fst x) = Some k) -> for_ od (fun e d => run found <- lift (lookup F Args h d (fst e));
      match found with Some r => fail | None => run r <- neg (snd e); lift (put F Args h d (fst e) r) end) d s = None).
  { induction od as [|y od IH]; intros d s0 I X; [destruct I|]. cbn [for_]. unfold abind at 1. unfold abind at 1. unfold lift at 1. destruct (lookup F Args h d (fst y)) as [[r|]|] eqn:Lk; [reflexivity| |reflexivity].
    unfold abind, neg, lift. cbn [read alloc]. unfold abind. cbn beta iota. cbn [read alloc]. destruct (put F Args h d (fst y) _) as [d'|] eqn:Pt; [|reflexivity].
    pose proof (lookup_none h d (fst y) Lk) as (k' & Hk' & Nk'). rewrite (put_new h d (fst y) _ k' Hk' Nk') in Pt. injection Pt as <-.
    destruct I as [-> |I].
    - exfalso. destruct X as (x & Ix & Hx). rewrite He' in Hk'. injection Hk' as <-. exact (Nk' x Ix Hx).
    - unfold alloc. cbn beta iota. unfold lift, neg, abind, read, alloc in IH. apply IH; [exact I|]. destruct X as (x & Ix & Hx). exists x. split; [apply in_or_app; left; exact Ix|exact Hx]. }
  rewrite E; [reflexivity|exact Ie'|]. exists e. split; [exact Ie|exact He].
Qed.
(* ndarray static times an operator with a sparse dynamic term *)
Lemma rmul_fails s A B e rest : hwf s A -> dyn A = e :: rest -> dense B = true -> dense (get s (snd e)) = false -> rmul_sparse n atol F Args h A B s = None.
Proof.
  intros HA D DB De. unfold rmul_sparse, abind at 1. destruct (wp_run _ _ _ (wp_astype_true n h s A HA)) as (s1 & N & E & (Fr & G & WN & Lb & M)). rewrite E.
  destruct M as [M _]. rewrite D in M. inversion M as [|x e' y d' R M' Ex Ey]; subst. unfold abind at 1. cbn [read]. unfold abind at 1. cbn [alloc]. set (s2 := {| cells := _; next := _ |}). unfold abind at 1.
  assert (Fr2 : frame s1 s2 []). { split; [cbn; lia|]. intros b L _. cbn [s2 cells]. rewrite (proj2 (Nat.eqb_neq b (next s1))) by lia. reflexivity. }
  destruct (clean n atol _ s2) as [[s3 st3]|] eqn:Ec; [|reflexivity].
  assert (Fr3 : frame s2 s3 []).
  { refine (wp_out _ _ (fun s' _ => frame s2 s' []) _ _ _ Ec). apply wp_clean; [exact Hatol|cbn; lia|]. intros s' r' X _ _. exact X. }
  destruct R as (_ & R & Lr). assert (Re : get s3 (snd e') = get s (snd e)).
  { rewrite (frame_get s2 s3 [] (snd e') Fr3), (frame_get s1 s2 [] (snd e') Fr2); [exact R|lia|intros []|destruct Fr2; lia|intros []]. }
  unfold abind at 1, replace_terms. cbn [for_]. unfold abind at 1, abind at 1, abind at 1. cbn [read]. rewrite Re. unfold abind at 1, dot, lift at 1. rewrite DB, De. reflexivity.
Qed.
End Ops.
