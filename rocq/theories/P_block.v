(* Flows in invariant subspaces, stacked projectors and block diagonal matrices *)
From Verif Require Import AuxN SpecC SpecExpm SpecLanczos SpecExpect SpecFloquet SpecBlock M_symop P_floquet M_block.
Local Open Scope nat_scope.

Definition z0 : vec := fun _ => C0.
Definition vf (v : list C) : vec := fun i => nth i v C0.
Definition pd (cols : list vec) (v : list C) : vec := fun k => Csum (combine cols v) (fun s => fst s k * snd s)%C.
Definition pf (cols : list vec) (v : vec) : vec := fun k => Csum (seq 0 (length cols)) (fun i => nth i cols z0 k * v i)%C.

Section N.
Variable n : nat.

Lemma flows_ext A t0 t v w v' w' : (forall k, k < n -> v k = v' k) -> (forall k, k < n -> w k = w' k) -> flows n A t0 t v w -> flows n A t0 t v' w'.
Proof. intros Hv Hw (psi & H1 & H2 & H3). exists psi. split; [exact H1|]. split; intros k Hk; [rewrite <- Hv by exact Hk; auto|rewrite <- Hw by exact Hk; auto]. Qed.
Lemma flows_zero A t0 t : flows n A t0 t z0 z0.
Proof.
  exists (fun _ => z0). split; [|split; reflexivity]. intros s k Hk.
  eapply hd_val; [|apply hd_const]. symmetry. unfold apply. apply Csum_zero. intros. unfold z0. ring.
Qed.
Lemma flows_add A t0 t v w v' w' : flows n A t0 t v w -> flows n A t0 t v' w' -> flows n A t0 t (fun k => v k + v' k)%C (fun k => w k + w' k)%C.
Proof.
  intros (p & H1 & H2 & H3) (q & G1 & G2 & G3). exists (fun s k => p s k + q s k)%C. split; [|split].
  - intros s k Hk. eapply hd_val; [|apply hd_add; [apply H1; exact Hk|apply G1; exact Hk]].
    unfold apply. rewrite <- Csum_add. apply Csum_ext. intros. ring.
  - intros k Hk. now rewrite H2, G2.
  - intros k Hk. now rewrite H3, G3.
Qed.
Lemma flows_sum {X} A t0 t (l : list X) v w : (forall x, In x l -> flows n A t0 t (v x) (w x)) -> flows n A t0 t (sum_vec l v) (sum_vec l w).
Proof.
  induction l as [|x l IH]; intro H; [apply flows_zero|].
  apply (flows_add A t0 t (v x) (w x) (sum_vec l v) (sum_vec l w)); [apply H; now left|apply IH; intros; apply H; now right].
Qed.
Lemma exps_ext A l : forall v w v' w', (forall k, k < n -> v k = v' k) -> (forall k, k < n -> w k = w' k) -> exponentials n A l v w -> exponentials n A l v' w'.
Proof.
  induction l as [|s l IH]; intros v w v' w' Hv Hw; cbn [exponentials].
  - intros H k Hk. rewrite <- Hw, <- Hv by exact Hk. auto.
  - intros (u & H1 & H2). exists u. split; [apply (flows_ext _ _ _ v u); auto|]. now apply (IH u w).
Qed.
Lemma exps_zero A l : exponentials n A l z0 z0.
Proof. induction l as [|s l IH]; cbn [exponentials]; [reflexivity|]. exists z0. split; [apply flows_zero|exact IH]. Qed.
Lemma exps_add A l : forall v w v' w', exponentials n A l v w -> exponentials n A l v' w' -> exponentials n A l (fun k => v k + v' k)%C (fun k => w k + w' k)%C.
Proof.
  induction l as [|s l IH]; intros v w v' w'; cbn [exponentials].
  - intros H H' k Hk. now rewrite H, H'.
  - intros (u & H1 & H2) (u' & G1 & G2). exists (fun k => u k + u' k)%C. split; [now apply flows_add|now apply IH].
Qed.
Lemma exps_sum {X} A l (k : list X) v w : (forall x, In x k -> exponentials n A l (v x) (w x)) -> exponentials n A l (sum_vec k v) (sum_vec k w).
Proof.
  induction k as [|x k IH]; intro H; [apply exps_zero|].
  apply (exps_add A l (v x) (w x) (sum_vec k v) (sum_vec k w)); [apply H; now left|apply IH; intros; apply H; now right].
Qed.

(* flows inside an invariant subspace are flows *)
Lemma lift A B cols t0 t v w : (forall s, invariant n (A s) cols (B s)) -> flows (length cols) B t0 t v w -> flows n A t0 t (pf cols v) (pf cols w).
Proof.
  intros HI (psi & H1 & H2 & H3). exists (fun s => pf cols (psi s)). split; [|split].
  - intros s k Hk. unfold pf at 1. eapply hd_val; [|apply hd_sum; intros i Hi; apply hd_scale; apply H1; apply in_seq in Hi; lia].
    unfold apply at 1. unfold apply at 1.
    transitivity (Csum (seq 0 (length cols)) (fun j => Csum (seq 0 (length cols)) (fun i => nth i cols z0 k * B s i j) * psi s j))%C.
    + transitivity (Csum (seq 0 (length cols)) (fun i => Csum (seq 0 (length cols)) (fun j => nth i cols z0 k * (B s i j * psi s j))))%C.
      * apply Csum_ext. intros i _. now rewrite Csum_mul_l.
      * rewrite Csum_swap. apply Csum_ext. intros j _. rewrite <- Csum_mul_r. apply Csum_ext. intros. ring.
    + transitivity (Csum (seq 0 (length cols)) (fun j => apply n (A s) (nth j cols z0) k * psi s j))%C.
      * apply Csum_ext. intros j Hj. apply in_seq in Hj. unfold z0. rewrite HI by (try exact Hk; lia). reflexivity.
      * unfold apply, pf.
        transitivity (Csum (seq 0 (length cols)) (fun j => Csum (seq 0 n) (fun i => A s k i * (nth j cols z0 i * psi s j))))%C.
        -- apply Csum_ext. intros j _. rewrite <- Csum_mul_r. apply Csum_ext. intros. ring.
        -- rewrite Csum_swap. apply Csum_ext. intros i _. now rewrite Csum_mul_l.
  - intros k Hk. unfold pf. apply Csum_ext. intros i Hi. apply in_seq in Hi. rewrite H2 by lia. reflexivity.
  - intros k Hk. unfold pf. apply Csum_ext. intros i Hi. apply in_seq in Hi. rewrite H3 by lia. reflexivity.
Qed.
Lemma lift_exps A B cols l : invariant n A cols B -> forall v w, exponentials (length cols) B l v w -> exponentials n A l (pf cols v) (pf cols w).
Proof.
  intros HI. induction l as [|s l IH]; intros v w; cbn [exponentials].
  - intros H k Hk. unfold pf. apply Csum_ext. intros i Hi. apply in_seq in Hi. rewrite H by lia. reflexivity.
  - intros (u & H1 & H2). exists (pf cols u). split; [|now apply IH]. apply (lift (fun _ => A) (fun _ => B)); [intros; exact HI|exact H1].
Qed.

Lemma inv_affine A cols B a s : invariant n A cols B -> invariant n (affine a s A) cols (affine a s B).
Proof.
  intros HI k j Hk Hj. fold z0. 
  transitivity (a * apply n A (nth j cols z0) k + a * s * nth j cols z0 k)%C.
  - unfold apply, affine. transitivity (Csum (seq 0 n) (fun x => a * (A k x * nth j cols z0 x) + a * s * (delta k x * nth j cols z0 x)))%C; [apply Csum_ext; intros; ring|].
    rewrite Csum_add, !Csum_mul_l. f_equal. f_equal. rewrite (Csum_single _ _ k); [|apply seq_NoDup|apply in_seq; lia|].
    + unfold delta. rewrite Nat.eqb_refl. ring.
    + intros x _ Hx. unfold delta. destruct (Nat.eqb_spec k x); [congruence|ring].
  - unfold z0. rewrite HI by assumption. fold z0. unfold affine.
    transitivity (Csum (seq 0 (length cols)) (fun i => a * (nth i cols z0 k * B i j) + a * s * (nth i cols z0 k * delta i j)))%C; [|apply Csum_ext; intros; ring].
    rewrite Csum_add, !Csum_mul_l. f_equal. f_equal. symmetry. rewrite (Csum_single _ _ j); [|apply seq_NoDup|apply in_seq; lia|].
    + unfold delta. rewrite Nat.eqb_refl. ring.
    + intros x _ Hx. unfold delta. destruct (Nat.eqb_spec x j); [congruence|ring].
Qed.
Lemma inv_ext A A' cols B B' : (forall i j, i < n -> j < n -> A i j = A' i j) -> (forall i j, i < length cols -> j < length cols -> B i j = B' i j) ->
  invariant n A cols B -> invariant n A' cols B'.
Proof.
  intros HA HB HI k j Hk Hj. transitivity (apply n A (nth j cols (fun _ => C0)) k).
  - unfold apply. apply Csum_ext. intros x Hx. apply in_seq in Hx. rewrite HA by lia. reflexivity.
  - rewrite HI by assumption. apply Csum_ext. intros i Hi. apply in_seq in Hi. rewrite HB by lia. reflexivity.
Qed.
Lemma seq_split_sum (a b : nat) (f : nat -> C) : Csum (seq 0 (a + b)) f = (Csum (seq 0 a) f + Csum (seq 0 b) (fun i => f (a + i)%nat))%C.
Proof.
  rewrite seq_app, Csum_app. f_equal. cbn [Nat.add]. rewrite <- (Csum_map (fun i => a + i)). f_equal.
  clear. induction a as [|a IH]; [cbn; now rewrite map_id|]. rewrite <- seq_shift, IH, map_map. reflexivity.
Qed.
Lemma inv_app A c1 c2 B1 B2 m1 m2 : m1 = length c1 -> m2 = length c2 -> invariant n A c1 B1 -> invariant n A c2 B2 ->
  invariant n A (c1 ++ c2) (snd (block_diag2 (m1, B1) (m2, B2))).
Proof.
  intros E1 E2 H1 H2 k j Hk Hj. rewrite app_length in *. cbn [block_diag2 fst snd].
  rewrite seq_split_sum.
  destruct (lt_dec j (length c1)) as [Hl|Hl].
  - rewrite app_nth1 by exact Hl. rewrite H1 by assumption.
    rewrite (Csum_zero (seq 0 (length c2))).
    + transitivity (Csum (seq 0 (length c1)) (fun i => nth i c1 z0 k * B1 i j) + C0)%C; [unfold z0; ring|]. f_equal.
      apply Csum_ext. intros i Hi. apply in_seq in Hi. rewrite app_nth1 by lia. subst m1.
      destruct (Nat.ltb_spec i (length c1)); [|lia]. destruct (Nat.ltb_spec j (length c1)); [reflexivity|lia].
    + intros i _. subst m1. destruct (Nat.ltb_spec (length c1 + i) (length c1)); [lia|]. destruct (Nat.ltb_spec j (length c1)); [|lia]. ring.
  - rewrite app_nth2 by lia. rewrite H2 by lia.
    rewrite (Csum_zero (seq 0 (length c1))).
    + transitivity (C0 + Csum (seq 0 (length c2)) (fun i => nth i c2 z0 k * B2 i (j - length c1)%nat))%C; [unfold z0; ring|]. f_equal.
      apply Csum_ext. intros i Hi. apply in_seq in Hi. rewrite app_nth2 by lia. subst m1.
      destruct (Nat.ltb_spec (length c1 + i) (length c1)); [lia|]. destruct (Nat.ltb_spec j (length c1)); [lia|].
      replace (length c1 + i - length c1) with i by lia. reflexivity.
    + intros i Hi. apply in_seq in Hi. subst m1. destruct (Nat.ltb_spec i (length c1)); [|lia]. destruct (Nat.ltb_spec j (length c1)); [lia|]. ring.
Qed.
Lemma inv_nil A B : invariant n A [] B. Proof. intros k j _ Hj. cbn in Hj. lia. Qed.
Lemma inv_concat {X} A (l : list X) (c : X -> list vec) (M : X -> nat * mat) :
  (forall x, In x l -> fst (M x) = length (c x) /\ invariant n A (c x) (snd (M x))) ->
  fst (block_diag_of (map M l)) = length (concat (map c l)) /\ invariant n A (concat (map c l)) (snd (block_diag_of (map M l))).
Proof.
  induction l as [|x l IH]; intro H; cbn [map concat block_diag_of fold_right]; [split; [reflexivity|apply inv_nil]|].
  destruct (H x) as [Hx1 Hx2]; [now left|]. destruct IH as [I1 I2]; [intros; apply H; now right|].
  unfold block_diag_of in *. destruct (M x) as [m1 B1]. destruct (fold_right block_diag2 _ (map M l)) as [m2 B2]. cbn [fst snd] in *. split.
  - cbn. rewrite app_length. lia.
  - now apply inv_app.
Qed.
End N.

(* stacked projectors *)
Lemma combine_app' {X Y} (a a' : list X) (b b' : list Y) : length a = length b -> combine (a ++ a') (b ++ b') = combine a b ++ combine a' b'.
Proof. revert b. induction a as [|x a IH]; intros [|y b] H; cbn in *; try lia; [reflexivity|]. rewrite IH by lia. reflexivity. Qed.
Lemma pd_app c1 c2 v1 v2 k : length c1 = length v1 -> pd (c1 ++ c2) (v1 ++ v2) k = (pd c1 v1 k + pd c2 v2 k)%C.
Proof. intro H. unfold pd. now rewrite combine_app', Csum_app. Qed.
Lemma pd_concat {X} (l : list X) (c : X -> list vec) (v : X -> list C) k : (forall x, In x l -> length (c x) = length (v x)) ->
  pd (concat (map c l)) (concat (map v l)) k = sum_vec l (fun x => pd (c x) (v x)) k.
Proof.
  induction l as [|x l IH]; intro H; cbn [map concat]; [reflexivity|].
  rewrite pd_app by (apply H; now left). unfold sum_vec. rewrite Csum_cons. f_equal. apply IH. intros; apply H; now right.
Qed.
Lemma len_concat {X} (l : list X) (c : X -> list vec) (v : X -> list C) : (forall x, In x l -> length (c x) = length (v x)) ->
  length (concat (map c l)) = length (concat (map v l)).
Proof. induction l as [|x l IH]; intro H; cbn [map concat]; [reflexivity|]. rewrite !app_length, IH, (H x) by (intros; try apply H; cbn; auto). reflexivity. Qed.
Lemma pd_pf cols v k : length cols = length v -> pd cols v k = pf cols (vf v) k.
Proof.
  revert v. unfold pd, pf. induction cols as [|c cols IH]; intros [|x v] H; cbn in H; try lia; [reflexivity|].
  cbn [combine length seq]. rewrite !Csum_cons. cbn [nth fst snd vf]. f_equal.
  rewrite IH by lia. rewrite <- seq_shift, Csum_map. reflexivity.
Qed.
Lemma pd_part n cols psi k : pd cols (map (fun c => inner n c psi) cols) k = part n cols psi k.
Proof. unfold pd, part. induction cols as [|c cols IH]; [reflexivity|]. cbn [map combine]. rewrite !Csum_cons. cbn [fst snd]. now rewrite IH. Qed.

Lemma to_full_returns P states : (forall s, In s states -> length P = length s) -> to_full P states = Returns (map (pd P) states).
Proof.
  intro H. unfold to_full.
  assert (E : all_some (map (dot P) states) = Some (map (pd P) states)); [|now rewrite E].
  induction states as [|s l IH]; [reflexivity|]. cbn [map all_some]. unfold dot at 1. rewrite (H s) by now left. rewrite Nat.eqb_refl.
  rewrite IH by (intros; apply H; now right). reflexivity.
Qed.

(* the slices *)
Lemma slice_map {X Y} (f : X -> Y) l i m : slice (map f l) i m = map f (slice l i m).
Proof. unfold slice. now rewrite skipn_map, firstn_map. Qed.
Lemma groups_map {X Y} (f : X -> Y) jobs l : groups jobs (map f l) = map (map f) (groups jobs l).
Proof. unfold groups. rewrite map_length. cbn [map]. rewrite slice_map, map_map. f_equal. apply map_ext. intro. apply slice_map. Qed.
Lemma slices_concat {X} (l : list X) p m : forall a, concat (map (fun i => slice l (a + i * p) p) (seq 0 m)) = slice l a (m * p).
Proof.
  assert (FF : forall (k : list X) a b, firstn (a + b) k = firstn a k ++ firstn b (skipn a k)).
  { intro k. induction k as [|x k IH]; intros [|a] b; cbn; try reflexivity; [now rewrite firstn_nil|]. now rewrite IH. }
  assert (SS : forall (k : list X) a b, skipn (a + b) k = skipn b (skipn a k)).
  { intro k. induction k as [|x k IH]; intros [|a] b; cbn; try reflexivity; [now rewrite skipn_nil|]. now rewrite IH. }
  induction m as [|m IH]; intro a; [reflexivity|]. cbn [seq map concat]. rewrite Nat.add_0_r.
  rewrite <- seq_shift, map_map.
  rewrite (map_ext _ (fun i => slice l (a + p + i * p) p)) by (intro i; f_equal; cbn; lia). rewrite IH.
  unfold slice. cbn [Nat.mul]. rewrite FF. now rewrite SS.
Qed.
Lemma groups_concat {X} jobs (l : list X) : concat (groups jobs l) = l.
Proof.
  unfold groups. cbn [concat]. rewrite slices_concat. unfold slice. rewrite skipn_O.
  set (a := length l / S jobs + length l mod S jobs).
  rewrite (firstn_all2 (skipn a l)); [apply firstn_skipn|].
  rewrite skipn_length. unfold a. pose proof (Nat.div_mod (length l) (S jobs) ltac:(lia)) as H.
  set (q := length l / S jobs) in *. set (r := length l mod S jobs) in *. clearbody q r. cbn [Nat.mul] in H. lia.
Qed.

(* time scaling *)
Lemma hd_scale_time f c t d : has_derivative f (t * c)%R d -> has_derivative (fun s => f (s * c)%R) t (RtoC c * d)%C.
Proof.
  assert (L : derivable_pt_lim (fun s => s * c)%R t c).
  { pose proof (derivable_pt_lim_mult id (fun _ => c) t 1 0 (derivable_pt_lim_id t) (derivable_pt_lim_const c t)) as P.
    cbv beta in P. replace (1 * c + id t * 0)%R with c in P by (unfold id; ring). exact P. }
  intros [H1 H2]. split; cbn.
  - replace (c * fst d - 0 * snd d)%R with (fst d * c)%R by ring. exact (derivable_pt_lim_comp (fun s => s * c)%R (fun s => fst (f s)) t c (fst d) L H1).
  - replace (c * snd d + 0 * fst d)%R with (snd d * c)%R by ring. exact (derivable_pt_lim_comp (fun s => s * c)%R (fun s => snd (f s)) t c (snd d) L H2).
Qed.
Lemma exp_start m M v w t : exponential m M t v w -> exponential m M 0 v v.
Proof. intros (psi & H1 & H2 & _). exists psi. auto. Qed.
Lemma exp_scale m M c v w x : exponential m (fun i j => RtoC c * M i j)%C 1 v w -> exponential m M 1 v x -> exponential m M c v w.
Proof.
  intros (psi & H1 & H2 & H3) HX. destruct (Req_EM_T c 0) as [->|Hc].
  - apply (flows_ext m _ _ _ v v); [reflexivity| |exact (exp_start _ _ _ _ _ HX)].
    intros k Hk. rewrite <- H2, <- H3 by exact Hk. apply (hd_zero (fun s => psi s k)). intro t.
    eapply hd_val; [|apply H1; exact Hk]. unfold apply. apply Csum_zero. intros. apply C_eq; cbn; ring.
  - exists (fun s => psi (s * / c)%R). split; [|split].
    + intros s k Hk. eapply hd_val; [|apply (hd_scale_time (fun u => psi u k) (/ c)); apply H1; exact Hk].
      unfold apply. rewrite <- Csum_mul_l. apply Csum_ext. intros j _.
      replace (RtoC (/ c) * (RtoC c * M k j * psi (s * / c)%R j))%C with ((RtoC (/ c) * RtoC c) * (M k j * psi (s * / c)%R j))%C by ring.
      rewrite <- RtoC_mul, Rinv_l by exact Hc. apply C_eq; cbn; ring.
    + intros k Hk. rewrite Rmult_0_l. auto.
    + intros k Hk. rewrite Rinv_r by exact Hc. auto.
Qed.
