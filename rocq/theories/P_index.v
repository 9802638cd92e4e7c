(* Proofs about index lookup. *)
From Verif Require Import AuxN SpecC SpecSymm SpecIndex M_symm M_index P_symminst.
Local Open Scope nat_scope.

Lemma decreasing_nth A i j : decreasing A -> i < j -> j < length A -> (nth j A 0 < nth i A 0)%N.
Proof.
  intros H. revert i j. induction H as [|a l Hl IH Ha]; intros i j Hij Hj; [cbn in Hj; lia|].
  destruct j as [|j]; [lia|]. cbn [nth length] in *. destruct i as [|i]; cbn [nth].
  - rewrite Forall_forall in Ha. apply Ha. apply nth_In. lia.
  - apply IH; lia.
Qed.

Lemma lower_bound_spec A s : decreasing A -> forall fuel first len, len <= fuel -> first + len <= length A ->
  exists k, lower_bound fuel A first len s = k /\ first <= k <= first + len /\
    (forall j, first <= j < k -> (s < nth j A 0)%N) /\ (forall j, k <= j < first + len -> (nth j A 0 <= s)%N).
Proof.
  intros HD. induction fuel as [|f IH]; intros first len Hf Hl.
  - exists first. cbn. repeat split; try lia; intros; lia.
  - cbn [lower_bound]. destruct (Nat.ltb_spec 0 len) as [L|L].
    + pose proof (Nat.div_lt len 2 L ltac:(lia)) as Hd. set (half := len / 2) in *. clearbody half.
      destruct (N.ltb_spec s (nth (first + half) A 0%N)) as [C|C].
      * destruct (IH (first + half + 1) (len - half - 1)) as (k & E & R & P1 & P2); [lia|lia|].
        exists k. split; [exact E|]. split; [lia|]. split.
        -- intros j Hj. destruct (Nat.lt_ge_cases j (first + half + 1)) as [J|J]; [|apply P1; lia].
           destruct (Nat.eq_dec j (first + half)) as [->|Ne]; [assumption|].
           eapply N.lt_trans; [exact C|]. apply decreasing_nth; [assumption|lia|lia].
        -- intros j Hj. apply P2. lia.
      * destruct (IH first half) as (k & E & R & P1 & P2); [lia|lia|].
        exists k. split; [exact E|]. split; [lia|]. split; [intros j Hj; apply P1; lia|].
        intros j Hj. destruct (Nat.lt_ge_cases j (first + half)) as [J|J]; [apply P2; lia|].
        destruct (Nat.eq_dec j (first + half)) as [->|Ne]; [assumption|].
        pose proof (decreasing_nth A (first + half) j HD ltac:(lia) ltac:(lia)). lia.
    + exists first. repeat split; try lia; intros; lia.
Qed.

(* search in the segment [b, e) *)
Lemma segment_position A s b e : decreasing A -> b <= e -> e <= length A ->
  (forall i, i < length A -> nth i A 0%N = s -> b <= i < e) ->
  is_position A s (let a := lower_bound (e - b) A b (e - b) s in
    if (negb (a =? e) && negb (nth a A 0 <? s)%N)%bool then Z.of_nat a else (-1)%Z).
Proof.
  intros HD Hb He HS. cbv zeta.
  destruct (lower_bound_spec A s HD (e - b) b (e - b) ltac:(lia) ltac:(lia)) as (k & E & R & P1 & P2). rewrite E.
  replace (b + (e - b)) with e in * by lia.
  destruct (Nat.eqb_spec k e) as [->|Ne]; cbn [negb andb].
  - right. split; [|reflexivity]. intros HIn. destruct (In_nth A s 0%N HIn) as (i & Hi & Ei).
    pose proof (HS i Hi Ei). specialize (P1 i ltac:(lia)). lia.
  - destruct (N.ltb_spec (nth k A 0%N) s) as [C|C]; cbn [negb].
    + right. split; [|reflexivity]. intros HIn. destruct (In_nth A s 0%N HIn) as (i & Hi & Ei).
      pose proof (HS i Hi Ei). destruct (Nat.lt_ge_cases i k) as [L|L]; [specialize (P1 i ltac:(lia)); lia|].
      destruct (Nat.eq_dec i k) as [->|N1]; [lia|].
      pose proof (decreasing_nth A k i HD ltac:(lia) ltac:(lia)). lia.
    + left. exists k. split; [|reflexivity]. specialize (P2 k ltac:(lia)).
      rewrite (nth_error_nth' A 0%N) by lia. f_equal. lia.
Qed.

Lemma rep_position_ok A s : decreasing A -> is_position A s (rep_position A s).
Proof.
  intros HD. unfold rep_position. pose proof (segment_position A s 0 (length A) HD ltac:(lia) ltac:(lia)) as H.
  rewrite Nat.sub_0_r in H. apply H. intros; lia.
Qed.

Lemma is_position_unique A s r r' : decreasing A -> is_position A s r -> is_position A s r' -> r = r'.
Proof.
  intros HD [(i & E & ->)|[N1 ->]] [(j & F & ->)|[N2 ->]]; try reflexivity.
  - assert (i = j); [|subst; reflexivity].
    assert (Li : i < length A) by (apply nth_error_Some; rewrite E; discriminate).
    assert (Lj : j < length A) by (apply nth_error_Some; rewrite F; discriminate).
    apply nth_error_nth with (d := 0%N) in E. apply nth_error_nth with (d := 0%N) in F.
    destruct (Nat.lt_trichotomy i j) as [L|[L|L]]; [|assumption|];
      [pose proof (decreasing_nth A i j HD L Lj)|pose proof (decreasing_nth A j i HD L Li)]; lia.
  - destruct N2. eapply nth_error_In; exact E.
  - destruct N1. eapply nth_error_In; exact F.
Qed.

(* ---- blocks ---- *)
(* what the block limits must say about the prefix p *)
Definition block_ok (pfx : N -> Z) (A : list N) (bb be : Z -> Z) (p : Z) : Prop :=
  (bb p = (-1)%Z /\ forall i, i < length A -> pfx (nth i A 0%N) <> p) \/
  (exists b e, bb p = Z.of_nat b /\ be p = Z.of_nat e /\ b <= e /\ e <= length A /\
     forall i, i < length A -> (pfx (nth i A 0%N) = p <-> b <= i < e)).

Lemma nth_app_last {X} (l : list X) x d : nth (length l) (l ++ [x]) d = x.
Proof. rewrite app_nth2 by lia. rewrite Nat.sub_diag. reflexivity. Qed.

(* monotone: prefixes never increase along the list *)
Definition noninc (pfx : N -> Z) (A : list N) : Prop :=
  forall i j, i <= j -> j < length A -> (pfx (nth j A 0%N) <= pfx (nth i A 0%N))%Z.

(* state after processing the (non-empty) list D: all blocks but the last are written *)
Definition inv (pfx : N -> Z) (D : list N) (st : bstate) : Prop :=
  exists b, b_begin st = Z.of_nat b /\ b_end st = Z.of_nat (length D) /\ b < length D /\ b_sp st = b_next st /\
    (forall i, i < length D -> (pfx (nth i D 0%N) = b_sp st <-> b <= i)) /\
    (forall p, p <> b_sp st -> block_ok pfx D (b_bb st) (b_be st) p).

Lemma loop_inv pfx A : forall D st st', noninc pfx (D ++ A) -> D <> [] -> inv pfx D st ->
  blocks_loop pfx A st = Some st' -> inv pfx (D ++ A) st'.
Proof.
  induction A as [|s A IH]; intros D st st' HN HD HI H.
  - cbn [blocks_loop] in H. injection H as <-. rewrite app_nil_r. exact HI.
  - cbn [blocks_loop] in H. destruct (Z.ltb_spec (pfx s) 0) as [Q|Q]; [discriminate|].
    replace (D ++ s :: A) with ((D ++ [s]) ++ A) in * by (rewrite <- app_assoc; reflexivity).
    destruct HI as (b & Eb & Ee & Hb & Es & Hlast & Hother).
    destruct (Z.eqb_spec (pfx s) (b_sp st)) as [C|C].
    + eapply IH; [exact HN| |  |exact H]; [destruct D; discriminate|].
      exists b. cbn [b_begin b_end b_sp b_next b_bb b_be]. rewrite app_length. cbn [length].
      split; [assumption|]. split; [lia|]. split; [lia|]. split; [congruence|]. split.
      * intros i Hi. destruct (Nat.lt_ge_cases i (length D)) as [L|L].
        -- rewrite app_nth1 by assumption. apply Hlast; assumption.
        -- replace i with (length D) by lia. rewrite nth_app_last. split; intros; [lia|assumption].
      * intros p Hp. destruct (Hother p Hp) as [[H1 H2]|(b' & e' & B1 & B2 & B3 & B4 & B5)].
        -- left. split; [assumption|]. intros i Hi. rewrite app_length in Hi. cbn in Hi.
           destruct (Nat.lt_ge_cases i (length D)) as [L|L]; [rewrite app_nth1 by assumption; apply H2; assumption|].
           replace i with (length D) by lia. rewrite nth_app_last. congruence.
        -- right. exists b', e'. split; [assumption|]. split; [assumption|]. split; [assumption|]. rewrite app_length. cbn [length].
           split; [lia|]. intros i Hi. destruct (Nat.lt_ge_cases i (length D)) as [L|L]; [rewrite app_nth1 by assumption; apply B5; assumption|].
           replace i with (length D) by lia. rewrite nth_app_last. split; intros X; [congruence|lia].
    + eapply IH; [exact HN| |  |exact H]; [destruct D; discriminate|].
      assert (Fresh : forall i, i < length D -> pfx (nth i D 0%N) <> pfx s).
      { intros i Hi E.
        (* the last entry of D has prefix b_sp, which lies between pfx (nth i D) and pfx s *)
        assert (L1 : pfx (nth (length D - 1) D 0%N) = b_sp st) by (apply Hlast; lia).
        pose proof (HN i (length D - 1) ltac:(lia)) as M1. pose proof (HN (length D - 1) (length D) ltac:(lia)) as M2.
        assert (F1 : forall j, j < length D -> nth j ((D ++ [s]) ++ A) 0%N = nth j D 0%N).
        { intros j Hj. rewrite <- app_assoc. apply app_nth1. assumption. }
        assert (F2 : nth (length D) ((D ++ [s]) ++ A) 0%N = s).
        { rewrite <- app_assoc. rewrite app_nth2 by lia. rewrite Nat.sub_diag. reflexivity. }
        assert (FL : length D < length ((D ++ [s]) ++ A)) by (rewrite !app_length; cbn; lia).
        specialize (M1 ltac:(lia)). specialize (M2 FL). rewrite F2 in M2. rewrite F1 in M1, M2 by lia. rewrite F1 in M1 by lia. lia. }
      exists (length D). cbn [b_begin b_end b_sp b_next b_bb b_be]. rewrite app_length. cbn [length].
      split; [lia|]. split; [lia|]. split; [lia|]. split; [reflexivity|]. split.
      * intros i Hi. destruct (Nat.lt_ge_cases i (length D)) as [L|L].
        -- rewrite app_nth1 by assumption. split; intros X; [destruct (Fresh i L X)|lia].
        -- replace i with (length D) by lia. rewrite nth_app_last. split; [intros; lia|reflexivity].
      * intros p Hp. unfold block_ok, upd. destruct (Z.eqb_spec p (b_sp st)) as [->|Np].
        -- right. exists b, (length D). rewrite app_length. cbn [length]. repeat (split; [lia|]).
           intros i Hi. destruct (Nat.lt_ge_cases i (length D)) as [L|L].
           ++ rewrite app_nth1 by assumption. rewrite Hlast by assumption. lia.
           ++ replace i with (length D) by lia. rewrite nth_app_last. split; intros X; [congruence|lia].
        -- destruct (Hother p Np) as [[H1 H2]|(b' & e' & B1 & B2 & B3 & B4 & B5)].
           ++ left. split; [assumption|]. intros i Hi. rewrite app_length in Hi. cbn in Hi.
              destruct (Nat.lt_ge_cases i (length D)) as [L|L]; [rewrite app_nth1 by assumption; apply H2; assumption|].
              replace i with (length D) by lia. rewrite nth_app_last. congruence.
           ++ right. exists b', e'. split; [assumption|]. split; [assumption|]. split; [assumption|]. rewrite app_length. cbn [length].
              split; [lia|]. intros i Hi. destruct (Nat.lt_ge_cases i (length D)) as [L|L]; [rewrite app_nth1 by assumption; apply B5; assumption|].
              replace i with (length D) by lia. rewrite nth_app_last. split; intros X; [congruence|lia].
Qed.

Lemma blocks_ok pfx N_p A junk bb be : noninc pfx A -> 0 < N_p ->
  make_blocks pfx N_p A junk = Some (bb, be) -> forall p, block_ok pfx A bb be p.
Proof.
  intros HN HP H p. unfold make_blocks in H. destruct (Nat.eqb_spec N_p 0) as [E|_]; [lia|].
  destruct A as [|s A].
  - cbn [nth] in H. destruct (pfx junk <? 0)%Z; [discriminate|]. cbn in H. injection H as <- <-.
    unfold block_ok, upd. destruct (Z.eqb_spec p 0) as [->|Np].
    + right. exists 0, 0. cbn. repeat (split; [lia|]). intros; lia.
    + left. split; [reflexivity|]. cbn. intros; lia.
  - cbn [nth] in H. cbn [blocks_loop b_sp] in H. rewrite Z.eqb_refl in H.
    destruct (Z.ltb_spec (pfx s) 0) as [Q|Q]; [discriminate|]. cbn [b_begin b_end b_sp b_next b_bb b_be] in H.
    match type of H with match ?X with _ => _ end = _ => destruct X as [st|] eqn:E; [|discriminate] end.
    apply (loop_inv pfx A [s]) in E; [|exact HN|discriminate|].
    + injection H as <- <-. destruct E as (b & Eb & Ee & Hb & Es & Hlast & Hother). cbn [app] in *.
      unfold block_ok, upd. rewrite <- Es. destruct (Z.eqb_spec p (b_sp st)) as [->|Np]; [|apply Hother; assumption].
      right. exists b, (length (s :: A)). split; [assumption|]. split; [assumption|]. split; [lia|]. split; [lia|].
      intros i Hi. rewrite Hlast by assumption. lia.
    + exists 0. cbn [b_begin b_end b_sp b_next b_bb b_be length]. split; [reflexivity|]. split; [reflexivity|]. split; [lia|]. split; [reflexivity|].
      split; [intros i Hi; replace i with 0 by lia; cbn; split; [lia|reflexivity]|].
      intros p' Hp. left. split; [reflexivity|]. intros i Hi. cbn [length] in Hi. replace i with 0 by lia. cbn [nth]. congruence.
Qed.

Lemma blocks_position pfx N_p A junk bb be s : decreasing A -> noninc pfx A -> 0 < N_p ->
  make_blocks pfx N_p A junk = Some (bb, be) -> is_position A s (rep_position_blocks bb be A (pfx s) s).
Proof.
  intros HD HN HP H. pose proof (blocks_ok _ _ _ _ _ _ HN HP H (pfx s)) as B. unfold rep_position_blocks. cbv zeta.
  destruct B as [[B1 B2]|(b & e & B1 & B2 & B3 & B4 & B5)]; rewrite B1.
  - cbn. right. split; [|reflexivity]. intros HIn. destruct (In_nth A s 0%N HIn) as (i & Hi & Ei).
    apply (B2 i Hi). rewrite Ei. reflexivity.
  - replace (Z.of_nat b <? 0)%Z with false by (symmetry; apply Z.ltb_ge; lia). rewrite B2, !Nat2Z.id.
    apply segment_position; [assumption|assumption|assumption|]. intros i Hi Ei. apply B5; [assumption|]. rewrite Ei. reflexivity.
Qed.

(* N_p = 0: one block, whatever the prefix function returns it must be 0 *)
Lemma blocks_position0 pfx A junk bb be s : decreasing A -> make_blocks pfx 0 A junk = Some (bb, be) ->
  is_position A s (rep_position_blocks bb be A 0 s).
Proof.
  intros HD H. unfold make_blocks in H. cbn in H. injection H as <- <-. unfold rep_position_blocks, upd. cbn [Z.eqb Z.ltb Z.compare].
  rewrite Nat2Z.id. apply segment_position; [assumption|lia|lia|]. intros; cbn; lia.
Qed.

Lemma nth_all {X} (P : X -> Prop) l d i : Forall P l -> i < length l -> P (nth i l d).
Proof. intros H Hi. rewrite Forall_forall in H. apply H. apply nth_In; assumption. Qed.

Lemma div_noninc d A : (0 < d)%N -> decreasing A -> Forall (fun s => (s / d < 2 ^ 63)%N) A -> noninc (fun s => integer_cast (s / d)) A.
Proof.
  intros Hd HD HA i j Hij Hj. cbv beta.
  pose proof (nth_all _ A 0%N i HA ltac:(lia)) as H1. pose proof (nth_all _ A 0%N j HA Hj) as H2. cbv beta in H1, H2.
  unfold integer_cast. apply N.ltb_lt in H1, H2. rewrite H1, H2. apply N2Z.inj_le.
  apply N.div_le_mono; [lia|]. destruct (Nat.eq_dec i j) as [->|Ne]; [lia|].
  pose proof (decreasing_nth A i j HD ltac:(lia) Hj). lia.
Qed.

Lemma blocks_loop_total pfx A : Forall (fun s => (0 <= pfx s)%Z) A -> forall st, exists st', blocks_loop pfx A st = Some st'.
Proof.
  induction 1 as [|s A Hs HA IH]; intros st; cbn [blocks_loop]; [eexists; reflexivity|].
  replace (pfx s <? 0)%Z with false by (symmetry; apply Z.ltb_ge; lia). destruct (pfx s =? b_sp st)%Z; apply IH.
Qed.

Lemma make_blocks_total pfx N_p A junk : Forall (fun s => (0 <= pfx s)%Z) A -> A <> [] -> exists r, make_blocks pfx N_p A junk = Some r.
Proof.
  intros HA HN. unfold make_blocks. destruct (N_p =? 0); [eexists; reflexivity|]. destruct A as [|s A]; [contradiction|]. cbn [nth].
  inversion HA as [|? ? H1 H2]; subst. replace (pfx s <? 0)%Z with false by (symmetry; apply Z.ltb_ge; lia).
  destruct (blocks_loop_total pfx (s :: A) HA (mkB 0 0 (pfx s) 0 (fun _ => (-1)%Z) (fun _ => (-1)%Z))) as [st E]. rewrite E. eexists; reflexivity.
Qed.

(* concrete prefixes *)
Lemma prefix_bound B n N_p s : (2 <= B)%N -> N_p <= n -> (s < B ^ N.of_nat n)%N -> (s / B ^ N.of_nat (n - N_p) < B ^ N.of_nat N_p)%N.
Proof.
  intros HB Hp Hs. apply N.div_lt_upper_bound; [apply N.pow_nonzero; lia|]. rewrite <- N.pow_add_r.
  replace (N.of_nat (n - N_p) + N.of_nat N_p)%N with (N.of_nat n) by lia. assumption.
Qed.

Lemma hcb_prefix_eq n N_p s : hcb_prefix n N_p s = boson_prefix 2 n N_p s.
Proof. unfold hcb_prefix, boson_prefix. rewrite N.shiftr_div_pow2. reflexivity. Qed.

Lemma boson_prefix_range B n N_p s : (2 <= B)%N -> N_p <= n -> (B ^ N.of_nat N_p <= 2 ^ 63)%N -> (s < B ^ N.of_nat n)%N ->
  (0 <= boson_prefix B n N_p s < Z.of_N (B ^ N.of_nat N_p))%Z.
Proof.
  intros HB Hp Hw Hs. pose proof (prefix_bound B n N_p s HB Hp Hs) as H. unfold boson_prefix, integer_cast.
  set (q := (s / B ^ N.of_nat (n - N_p))%N) in *. set (m := (B ^ N.of_nat N_p)%N) in *. clearbody q m.
  replace (q <? 2 ^ 63)%N with true by (symmetry; apply N.ltb_lt; apply (N.lt_le_trans _ m); assumption). lia.
Qed.

Lemma boson_blocks_position B n N_p A junk bb be s : (2 <= B)%N -> 0 < N_p <= n -> (B ^ N.of_nat N_p <= 2 ^ 63)%N ->
  decreasing A -> Forall (fun x => (x < B ^ N.of_nat n)%N) A ->
  make_blocks (boson_prefix B n N_p) N_p A junk = Some (bb, be) ->
  is_position A s (rep_position_blocks bb be A (boson_prefix B n N_p s) s).
Proof.
  intros HB Hp Hw HD HA H. eapply blocks_position; [assumption| |  |exact H]; [|lia].
  apply div_noninc; [apply N.neq_0_lt_0, N.pow_nonzero; lia|assumption|].
  rewrite Forall_forall in *. intros x Hx. pose proof (prefix_bound B n N_p x HB ltac:(lia) (HA x Hx)). lia.
Qed.

Lemma boson_blocks_exist B n N_p A junk : (2 <= B)%N -> N_p <= n -> (B ^ N.of_nat N_p <= 2 ^ 63)%N -> A <> [] ->
  Forall (fun x => (x < B ^ N.of_nat n)%N) A -> exists r, make_blocks (boson_prefix B n N_p) N_p A junk = Some r.
Proof.
  intros HB Hp Hw HN HA. apply make_blocks_total; [|assumption]. rewrite Forall_forall in *. intros x Hx.
  apply (boson_prefix_range B n N_p x HB Hp Hw (HA x Hx)).
Qed.

(* the closed formula in the full space *)
Lemma full_position M A s : decreasing A -> (forall x, In x A <-> (x < N.of_nat M)%N) -> (s < N.of_nat M)%N ->
  length A = M /\ is_position A s (index_full (Z.of_nat (length A)) s).
Proof.
  intros HD HA Hs.
  assert (G : forall M A, decreasing A -> (forall x, In x A <-> (x < N.of_nat M)%N) ->
            length A = M /\ forall i, i < M -> nth_error A i = Some (N.of_nat (M - 1 - i))).
  { clear. induction M as [|M IH]; intros A HD HA.
    - destruct A as [|a A]; [split; [reflexivity|intros; lia]|]. pose proof (proj1 (HA a) (or_introl eq_refl)). lia.
    - destruct A as [|a A]; [destruct (proj2 (HA 0%N)); lia|]. inversion HD as [|? ? D1 D2]; subst.
      rewrite Forall_forall in D2. assert (Ea : a = N.of_nat M).
      { pose proof (proj1 (HA a) (or_introl eq_refl)). destruct (proj2 (HA (N.of_nat M)) ltac:(lia)) as [->|HIn]; [reflexivity|]. pose proof (D2 _ HIn). lia. }
      destruct (IH A D1) as [L1 L2].
      + intros x. split; intros Hx.
        * pose proof (D2 x Hx). lia.
        * destruct (proj2 (HA x) ltac:(lia)) as [E|E]; [lia|assumption].
      + cbn [length]. split; [lia|]. intros i Hi. destruct i as [|i]; cbn [nth_error]; [rewrite Ea; f_equal; lia|].
        rewrite L2 by lia. f_equal. lia. }
  destruct (G M A HD HA) as [L1 L2]. split; [assumption|]. left. exists (M - 1 - N.to_nat s). split; [|unfold index_full; lia].
  rewrite L2 by lia. f_equal. lia.
Qed.

(* linear search *)
Lemma search_array_spec A v : forall k, (exists i, nth_error A i = Some v /\ (forall j, j < i -> nth_error A j <> Some v) /\ search_array A k v = Z.of_nat (k + i)) \/
  (~ In v A /\ search_array A k v = (-1)%Z).
Proof.
  induction A as [|a A IH]; intros k; cbn [search_array]; [right; split; [intros []|reflexivity]|].
  destruct (N.eqb_spec a v) as [->|Ne].
  - left. exists 0. split; [reflexivity|]. split; [intros; lia|]. f_equal. lia.
  - destruct (IH (S k)) as [(i & E1 & E2 & E3)|[H1 H2]].
    + left. exists (S i). split; [exact E1|]. split; [|rewrite E3; f_equal; lia].
      intros [|j] Hj; cbn; [congruence|]. apply E2. lia.
    + right. split; [|assumption]. intros [->|HIn]; [congruence|contradiction].
Qed.

Lemma get_basis_index_ok A v : (exists i, nth_error A i = Some v /\ (forall j, j < i -> nth_error A j <> Some v) /\ get_basis_index A v = Some (Z.of_nat i)) \/
  (~ In v A /\ get_basis_index A v = None).
Proof.
  unfold get_basis_index. destruct (search_array_spec A v 0) as [(i & E1 & E2 & E3)|[H1 H2]].
  - left. exists i. split; [assumption|]. split; [assumption|]. rewrite E3. replace (Z.of_nat (0 + i) <? 0)%Z with false by (symmetry; apply Z.ltb_ge; lia). reflexivity.
  - right. split; [assumption|]. rewrite H2. reflexivity.
Qed.

(* lookup with symmetries *)
Lemma index_symm_ok D nt pers ms find A r sign : good_maps D nt pers ms -> D r -> 0 < nt <= 32 ->
  (forall s, is_position A s (find s)) ->
  exists rr j g sg, index_symm find pers ms nt r sign = Some (j, g, sg) /\ is_position A rr j /\
    reach nt ms r rr /\ (forall t, reach nt ms r t -> (t <= rr)%N) /\
    ((rr = r /\ g = repeat 0 nt /\ sg = sign) \/ ((r < rr)%N /\ group_elem pers g /\ gact ms g r = (rr, sg))).
Proof.
  intros HG HD Hnt HF. destruct (rep_spec D nt pers ms HG r (repeat 0 nt) sign (group_order pers) HD Hnt (le_n _)) as (rr & g & sg & E & R & M & C).
  exists rr, (find rr), g, sg. unfold index_symm. rewrite E. split; [reflexivity|]. split; [apply HF|]. split; [assumption|]. split; [assumption|assumption].
Qed.
