(* C58: matrix exponentials in symmetry blocks (block_ops.expm), and what goes wrong in block_ops. *)
From Verif Require Import AuxN SpecC SpecExpm SpecLanczos SpecExpect SpecFloquet SpecBlock M_symop P_floquet M_block P_block C58_block.
Local Open Scope nat_scope.

(* the matrices that expm_multiply can be given: exponents of the blocks, block diagonal matrices of them, multiples *)
Inductive given (ext : external) (o : block_ops ext) (n : nat) (psi0 : vec) (te : R) (a : C) (sh : option C) : nat * mat -> Prop :=
  | g_block key b : In (key, b) (basis_dict ext o) -> given ext o n psi0 te a sh (exponent ext te a sh (mk ext n psi0 b))
  | g_empty : given ext o n psi0 te a sh (0, fun _ _ => C0)
  | g_diag x y : given ext o n psi0 te a sh x -> given ext o n psi0 te a sh y -> given ext o n psi0 te a sh (block_diag2 x y)
  | g_scale c x : given ext o n psi0 te a sh x -> given ext o n psi0 te a sh (fst x, scale c x).
(* expm_multiply is right for a matrix, without and with a grid of times *)
Definition right_expm1 (ext : external) (M : nat * mat) : Prop :=
  forall v, length v = fst M -> let w := expm_multiply ext (fst M) (snd M) v in length w = fst M /\ exponential (fst M) (snd M) 1 (vf v) (vf w).
Definition time (start stop : R) (num : nat) (endpoint : bool) (k : nat) : R :=
  (start + INR k * ((stop - start) / INR (if endpoint then num - 1 else num)))%R.
Definition right_grid1 (ext : external) (M : nat * mat) : Prop :=
  forall v start stop num ep k, length v = fst M -> k < num -> let w := nth k (expm_grid ext (fst M) (snd M) v start stop num ep) [] in
    length w = fst M /\ exponential (fst M) (snd M) (time start stop num ep k) (vf v) (vf w).

Record unit := { uc : list vec; uM : nat * mat; uv : list C }.
Definition fine (n : nat) (A : mat) (y : unit) : Prop := fst (uM y) = length (uc y) /\ length (uv y) = length (uc y) /\ invariant n A (uc y) (snd (uM y)).
Definition pair (y : unit) : (nat * mat) * list C := (uM y, uv y).

Lemma concat_concat {X Y} (f : X -> list Y) (gs : list (list X)) : concat (map (fun g => concat (map f g)) gs) = concat (map f (concat gs)).
Proof. induction gs as [|g gs IH]; [reflexivity|]. cbn [map concat]. now rewrite IH, map_app, concat_app. Qed.
Lemma groups_In {X} jobs (l g : list X) x : In g (groups jobs l) -> In x g -> In x l.
Proof. intros Hg Hx. rewrite <- (groups_concat jobs l). apply in_concat. eauto. Qed.
Lemma groups_filled {X} jobs (l : list X) : S jobs <= length l -> existsb (fun g => length g =? 0) (groups jobs l) = false.
Proof.
  intro H. assert (P : 1 <= length l / S jobs) by (apply Nat.div_le_lower_bound; lia).
  pose proof (Nat.div_mod (length l) (S jobs) ltac:(lia)) as D.
  unfold groups. set (q := length l / S jobs) in *. set (r := length l mod S jobs) in *. clearbody q r. cbn [Nat.mul] in D.
  apply Bool.not_true_is_false. intro HE. apply existsb_exists in HE. destruct HE as (g & [<-|Hg] & Hl); apply Nat.eqb_eq in Hl.
  - unfold slice in Hl. rewrite skipn_O, firstn_length in Hl. lia.
  - apply in_map_iff in Hg. destruct Hg as (i & <- & Hi). apply in_seq in Hi. unfold slice in Hl. rewrite firstn_length, skipn_length in Hl.
    assert (i * q + q <= jobs * q) by (replace (i * q + q) with (S i * q) by (cbn; lia); apply Nat.mul_le_mono_r; lia). lia.
Qed.
Lemma groups_empty {X} jobs (l : list X) : length l <= jobs -> 0 < length l -> existsb (fun g => length g =? 0) (groups jobs l) = true.
Proof.
  intros H H0. unfold groups. rewrite Nat.div_small by lia. rewrite Nat.mod_small by lia. cbn [existsb]. apply orb_true_intro. right.
  destruct jobs as [|j]; [lia|]. cbn [seq map existsb]. reflexivity.
Qed.

Lemma given_diag ext o n psi0 te a sh g : (forall b, In b g -> exists key, In (key, b) (basis_dict ext o)) ->
  given ext o n psi0 te a sh (block_diag_of (map (fun b => exponent ext te a sh (mk ext n psi0 b)) g)).
Proof.
  induction g as [|b g IH]; intro H; cbn [map block_diag_of fold_right]; [apply g_empty|]. apply g_diag.
  - destruct (H b) as [key Hkey]; [now left|]. exact (g_block ext o n psi0 te a sh key b Hkey).
  - apply IH. intros; apply H; now right.
Qed.
Lemma regrouped ext o n psi0 te a sh (H : R -> mat) bd jobs us :
  (forall b, In b us -> exists key, In (key, b) (basis_dict ext o)) ->
  (forall b, In b us -> length (get_proj ext b) = Ns ext b /\ forall t, invariant n (H t) (get_proj ext b) (hamil ext b t)) ->
  (bd = true -> S jobs <= length us) ->
  exists ys, regroup bd jobs (map (fun x => (exponent ext te a sh x, kpsi ext x)) (map (mk ext n psi0) us)) = Some (map pair ys) /\
    concat (map uc ys) = concat (map (fun b => get_proj ext b) us) /\
    concat (map uv ys) = concat (map (fun b => map (fun c => inner n c psi0) (get_proj ext b)) us) /\
    forall y, In y ys -> fine n (affine a (match sh with Some s => s | None => C0 end) (H te)) y /\ given ext o n psi0 te a sh (uM y).
Proof.
  intros HK HU HJ. set (A := affine a _ (H te)).
  assert (HX : forall b, In b us -> fst (exponent ext te a sh (mk ext n psi0 b)) = length (get_proj ext b) /\ invariant n A (get_proj ext b) (snd (exponent ext te a sh (mk ext n psi0 b)))).
  { intros b Hb. destruct (HU b Hb) as [HL HI]. split; [cbn; now rewrite HL|].
    apply (inv_ext n A A _ (affine a (match sh with Some s => s | None => C0 end) (hamil ext b te))); [reflexivity| |apply inv_affine; apply HI].
    intros i j _ _. unfold affine. cbn [exponent snd mk kH]. destruct sh; ring. }
  rewrite map_map. unfold regroup. rewrite map_length.
  destruct (bd && negb (length us =? 0))%bool eqn:EB.
  - apply andb_prop in EB. destruct EB as [-> _]. rewrite groups_map. specialize (HJ eq_refl).
    replace (existsb _ _) with false.
    2:{ symmetry. rewrite <- (groups_filled jobs us HJ). induction (groups jobs us) as [|g gs IH]; [reflexivity|]. cbn [map existsb]. now rewrite IH, map_length. }
    exists (map (fun g => {| uc := concat (map (fun b => get_proj ext b) g); uM := block_diag_of (map (fun b => exponent ext te a sh (mk ext n psi0 b)) g);
                             uv := concat (map (fun b => map (fun c => inner n c psi0) (get_proj ext b)) g) |}) (groups jobs us)).
    split; [|split; [|split]].
    + f_equal. rewrite !map_map. apply map_ext. intro g. unfold join, pair. cbn [uM uv]. rewrite !map_map. reflexivity.
    + rewrite map_map. cbn [uc]. rewrite concat_concat, groups_concat. reflexivity.
    + rewrite map_map. cbn [uv]. rewrite concat_concat, groups_concat. reflexivity.
    + intros y Hy. apply in_map_iff in Hy. destruct Hy as (g & <- & Hg). split; [|apply given_diag; intros b Hb; apply HK; exact (groups_In jobs us g b Hg Hb)]. unfold fine. cbn [uc uM uv].
      destruct (inv_concat n A g (fun b => get_proj ext b) (fun b => exponent ext te a sh (mk ext n psi0 b))) as [I1 I2].
      { intros b Hb. apply HX. exact (groups_In jobs us g b Hg Hb). }
      split; [exact I1|]. split; [|exact I2]. symmetry. apply len_concat. intros. now rewrite map_length.
  - exists (map (fun b => {| uc := get_proj ext b; uM := exponent ext te a sh (mk ext n psi0 b); uv := map (fun c => inner n c psi0) (get_proj ext b) |}) us).
    split; [|split; [|split]].
    + now rewrite !map_map.
    + now rewrite map_map.
    + now rewrite map_map.
    + intros y Hy. apply in_map_iff in Hy. destruct Hy as (b & <- & Hb). split; [|destruct (HK b Hb) as [key Hkey]; exact (g_block ext o n psi0 te a sh key b Hkey)]. unfold fine. cbn [uc uM uv]. destruct (HX b Hb). rewrite map_length. auto.
Qed.

(* the generator *)
Lemma steps_right ext (M : nat * mat) dt : right_expm1 ext M -> right_expm1 ext (fst M, scale dt M) -> forall num psi k, length psi = fst M -> k < num ->
  length (nth k (expm_steps ext M dt psi num) []) = fst M /\ exponentials (fst M) (snd M) (repeat dt (S k)) (vf psi) (vf (nth k (expm_steps ext M dt psi num) [])).
Proof.
  intros HE HD num. induction num as [|num IH]; intros psi k HL Hk; [lia|]. cbn [expm_steps].
  destruct (HD psi HL) as [L1 X1]. destruct (HE psi HL) as [_ X2]. cbn [fst snd] in L1, X1.
  pose proof (exp_scale (fst M) (snd M) dt _ _ _ X1 X2) as X3.
  destruct k as [|k]; cbn [nth repeat exponentials].
  - split; [exact L1|]. exists (vf (expm_multiply ext (fst M) (scale dt M) psi)). split; [exact X3|reflexivity].
  - destruct (IH _ k L1 ltac:(lia)) as [L2 X4]. split; [exact L2|]. eexists. split; [exact X3|]. exact X4.
Qed.
Lemma gen_right ext start dt num (x : (nat * mat) * list C) k : right_expm1 ext (fst x) -> (forall c, right_expm1 ext (fst (fst x), scale c (fst x))) -> length (snd x) = fst (fst x) -> k < num ->
  length (nth k (expm_gen ext start dt num x) []) = fst (fst x) /\
  exponentials (fst (fst x)) (snd (fst x)) (start :: repeat dt k) (vf (snd x)) (vf (nth k (expm_gen ext start dt num x) [])).
Proof.
  intros HE HD HL Hk. destruct x as [M v]. cbn [fst snd] in *. unfold expm_gen. cbn [fst snd].
  set (psi := if Req_EM_T start 0 then v else _).
  assert (HP : length psi = fst M /\ exponential (fst M) (snd M) start (vf v) (vf psi)).
  { unfold psi. destruct (HE v HL) as [_ X2]. destruct (Req_EM_T start 0) as [->|Hs].
    - split; [exact HL|]. exact (exp_start _ _ _ _ _ X2).
    - destruct (HD start v HL) as [L1 X1]. cbn [fst snd] in L1, X1. split; [exact L1|]. exact (exp_scale (fst M) (snd M) start _ _ _ X1 X2). }
  destruct HP as [L1 X1]. destruct k as [|k]; cbn [nth].
  - split; [exact L1|]. cbn [repeat exponentials]. exists (vf psi). split; [exact X1|reflexivity].
  - destruct (steps_right ext M dt HE (HD dt) (num - 1) psi k L1 ltac:(lia)) as [L2 X2]. split; [exact L2|].
    cbn [exponentials]. exists (vf psi). split; [exact X1|exact X2].
Qed.

(* expm returns the exponential exp(a (H + shift)), or exp(t a (H + shift)) for the times t of the grid, of the state in the
   whole space, also with block_diag=True and several jobs as long as there are not more jobs than blocks.  With iterate=True
   the times are reached step by step. *)
Theorem C58_expm_partial : forall ext o n H psi0 te iterate jobs bd a shift,
  reachable ext o -> right_blocks ext o n H -> (forall M, given ext o n psi0 te a shift M -> right_expm1 ext M /\ right_grid1 ext M) ->
  used ext n psi0 o <> [] -> (bd = true -> S jobs <= length (used ext n psi0 o)) ->
  let A := affine a (match shift with Some s => s | None => C0 end) (H te) in
  (exists w, fst (expm ext o n psi0 te false jobs bd a None None None None shift) = Returns [w] /\ exponential n A 1 (used_part ext o n psi0) w) /\
  forall start stop endpoint num, let m := match num with Some m => m | None => 50 end in let e := match endpoint with Some e => e | None => true end in
    exists ws, fst (expm ext o n psi0 te iterate jobs bd a (Some start) (Some stop) endpoint num shift) = Returns ws /\ length ws = m /\
      forall k, k < m ->
        if (iterate || old_scipy ext)%bool then exponentials n A (start :: repeat (time start stop m e 1 - start)%R k) (used_part ext o n psi0) (nth k ws z0)
        else exponential n A (time start stop m e k) (used_part ext o n psi0) (nth k ws z0).
Proof.
  intros ext o n H psi0 te iterate jobs bd a shift HR HB HEG HN HJ A. apply reachable_good in HR.
  destruct (collect_good ext n psi0 o HR) as (_ & _ & K1 & K2).
  destruct K2 as [l Hl]. { intros b Hb. destruct (used_In _ _ _ _ _ Hb) as [k Hk]. apply (HB k b Hk). }
  assert (E := K1 l Hl). subst l.
  assert (HU : forall b, In b (used ext n psi0 o) -> length (get_proj ext b) = Ns ext b /\ forall t, invariant n (H t) (get_proj ext b) (hamil ext b t)).
  { intros b Hb. destruct (used_In _ _ _ _ _ Hb) as [k Hk]. destruct (HB k b Hk) as (A1 & _ & B1). auto. }
  destruct (regrouped ext o n psi0 te a shift H bd jobs (used ext n psi0 o) (used_In ext n psi0 o) HU HJ) as (ys & Y1 & Y2 & Y3 & Y5).
  assert (Y4 : forall y, In y ys -> fine n A y) by (intros y Hy; apply (Y5 y Hy)).
  assert (HE : forall y, In y ys -> right_expm1 ext (uM y)) by (intros y Hy; apply HEG; apply (Y5 y Hy)).
  assert (HG : forall y, In y ys -> right_grid1 ext (uM y)) by (intros y Hy; apply HEG; apply (Y5 y Hy)).
  assert (HD : forall y c, In y ys -> right_expm1 ext (fst (uM y), scale c (uM y))) by (intros y c Hy; apply HEG; apply g_scale; apply (Y5 y Hy)).
  clear HEG Y5.
  unfold expm, used_part. destruct (collect ext n psi0 o) as [r o']. cbn [fst] in Hl. subst r.
  set (us := used ext n psi0 o) in *.
  assert (HP : forall k, sum_vec ys (fun y => pd (uc y) (uv y)) k = sum_vec us (fun b => part n (get_proj ext b) psi0) k).
  { intro k. rewrite <- pd_concat by (intros y Hy; destruct (Y4 y Hy) as (_ & L & _); now rewrite L). rewrite Y2, Y3, pd_concat by (intros; now rewrite map_length).
    unfold sum_vec. apply Csum_ext. intros b _. apply pd_part. }
  assert (HM : forall (out : (nat * mat) * list C -> list (list C)) m, (forall y k, In y ys -> k < m -> length (nth k (out (pair y)) []) = fst (uM y)) ->
    exists ws, to_full (concat (map (kP ext) (map (mk ext n psi0) us))) (stack_times m (map out (map pair ys))) = Returns ws /\ length ws = m /\
      forall k j, k < m -> nth k ws z0 j = sum_vec ys (fun y => pd (uc y) (nth k (out (pair y)) [])) j).
  { intros out m Hout. rewrite !map_map. cbn [mk kP]. rewrite <- Y2. apply (stacked ys uc (fun y => out (pair y))). intros y k Hy Hk.
    destruct (Y4 y Hy) as (L & _). rewrite <- L. symmetry. now apply Hout. }
  assert (EL : exists u us', map (mk ext n psi0) us = u :: us') by (destruct us; [congruence|cbn; eauto]).
  split.
  - cbn [grid]. rewrite Y1. destruct (HM (fun x => [expm_multiply ext (fst (fst x)) (snd (fst x)) (snd x)]) 1) as (ws & W1 & W2 & W3).
    { intros y k Hy Hk. replace k with 0 by lia. cbn [nth]. destruct (Y4 y Hy) as (L & L2 & _). apply (HE y Hy). cbn. now rewrite L, L2. }
    destruct ws as [|w [|]]; cbn in W2; try lia. exists w.
    destruct EL as (u & us' & EL). split.
    + rewrite EL in W1 |- *. cbn [fst]. rewrite <- W1. unfold stack_times. cbn [seq map]. do 3 f_equal. rewrite !map_map. reflexivity.
    + refine (flows_ext n _ _ _ (sum_vec ys (fun y => pd (uc y) (uv y))) (sum_vec ys (fun y => pd (uc y) (expm_multiply ext (fst (uM y)) (snd (uM y)) (uv y)))) _ _ _ _ _);
        [intros; apply HP|intros j _; symmetry; apply (W3 0 j); lia|].
      apply flows_sum. intros y Hy. destruct (Y4 y Hy) as (L & L2 & HI).
      destruct (HE y Hy (uv y) ltac:(now rewrite L, L2)) as [L3 X]. unfold exponential in X. rewrite L in X at 1.
      apply (lift n (fun _ => A) (fun _ => snd (uM y)) (uc y)) in X; [|intros; exact HI].
      refine (flows_ext n _ _ _ _ _ _ _ _ _ X); intros j _; rewrite <- pd_pf; congruence.
  - intros start stop endpoint num. cbn [grid]. set (m := match num with Some m => m | None => 50 end). set (e := match endpoint with Some e => e | None => true end). rewrite Y1. destruct EL as (u & us' & EL).
    assert (ET : spacing start stop m e = (time start stop m e 1 - start)%R) by (unfold spacing, time; destruct e; cbn [INR]; ring).
    destruct (iterate || old_scipy ext)%bool.
    + destruct (HM (expm_gen ext start (spacing start stop m e) m) m) as (ws & W1 & W2 & W3).
      { intros y k Hy Hk. destruct (Y4 y Hy) as (L & L2 & _). apply (gen_right ext start (spacing start stop m e) m (pair y) k (HE y Hy) (fun c => HD y c Hy)); [cbn; congruence|exact Hk]. }
      exists ws. split; [rewrite EL in W1 |- *; exact W1|]. split; [exact W2|]. intros k Hk.
      refine (exps_ext n _ _ (sum_vec ys (fun y => pd (uc y) (uv y))) (sum_vec ys (fun y => pd (uc y) (nth k (expm_gen ext start (spacing start stop m e) m (pair y)) []))) _ _ _ _ _);
        [intros; apply HP|intros j _; symmetry; now apply W3|].
      apply exps_sum. intros y Hy. destruct (Y4 y Hy) as (L & L2 & HI).
      destruct (gen_right ext start (spacing start stop m e) m (pair y) k (HE y Hy) (fun c => HD y c Hy) ltac:(cbn; congruence) Hk) as [L3 X]. cbn [pair fst snd] in L3, X. rewrite L in X at 1. rewrite ET in X at 1.
      apply (lift_exps n A (snd (uM y)) (uc y)) in X; [|exact HI].
      refine (exps_ext n _ _ _ _ _ _ _ _ X); intros j _; rewrite <- pd_pf; unfold pair in *; congruence.
    + destruct (HM (fun x => expm_grid ext (fst (fst x)) (snd (fst x)) (snd x) start stop m e) m) as (ws & W1 & W2 & W3).
      { intros y k Hy Hk. destruct (Y4 y Hy) as (L & L2 & _). apply (HG y Hy); [cbn; congruence|exact Hk]. }
      exists ws. split; [rewrite EL in W1 |- *; exact W1|]. split; [exact W2|]. intros k Hk.
      refine (flows_ext n _ _ _ (sum_vec ys (fun y => pd (uc y) (uv y))) (sum_vec ys (fun y => pd (uc y) (nth k (expm_grid ext (fst (uM y)) (snd (uM y)) (uv y) start stop m e) []))) _ _ _ _ _);
        [intros; apply HP|intros j _; symmetry; now apply W3|].
      apply flows_sum. intros y Hy. destruct (Y4 y Hy) as (L & L2 & HI).
      destruct (HG y Hy (uv y) start stop m e k ltac:(congruence) Hk) as [L3 X]. unfold exponential in X. rewrite L in X at 1.
      apply (lift n (fun _ => A) (fun _ => snd (uM y)) (uc y)) in X; [|intros; exact HI].
      refine (flows_ext n _ _ _ _ _ _ _ _ _ X); intros j _; rewrite <- pd_pf; congruence.
Qed.
Print Assumptions C58_expm_partial.
