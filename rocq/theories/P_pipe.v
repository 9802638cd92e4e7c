(* Invariant, progress and termination of the worker pipeline. *)
From Coq Require Import FunctionalExtensionality.
From Verif Require Import AuxN SpecPipe M_pipe.
Local Open Scope nat_scope.

Section Proof.
Variable A : Type.
Variables (np n : nat) (items : nat -> list (list A)).
Hypothesis Hlen : forall w, w < np -> length (items w) = n.
Definition item (w k : nat) : list A := nth k (items w) [].
Definition row (k w : nat) : list A := flat_map (fun v => item v k) (seq 0 w).
Definition got (p : parent A) (w : nat) : nat :=
  match p with Pget _ i w' _ => if w <? w' then S i else i | Pset _ i w' _ => if w <=? w' then S i else i | _ => n end.
Definition sets (p : parent A) (w : nat) : nat :=
  match p with Pget _ i w' _ => if w <? w' then S i else i | Pset _ i w' _ => if w <? w' then S i else i | _ => n end.
Definition winv (wk : worker A) (q : option (list A)) (e : bool) (g s w : nat) : Prop :=
  match wk with
  | Whead _ rest => exists k, k <= n /\ rest = skipn k (items w) /\ g = k /\ s = k /\ q = None
  | Wclear _ x rest => exists k, k < n /\ x = item w k /\ rest = skipn (S k) (items w) /\ g = k /\ s = k /\ q = None
  | Wput _ x rest => exists k, k < n /\ x = item w k /\ rest = skipn (S k) (items w) /\ g = k /\ s = k /\ q = None /\ e = false
  | Wwait _ rest => exists k, k < n /\ rest = skipn (S k) (items w) /\
      ((q = Some (item w k) /\ e = false /\ g = k /\ s = k) \/ (q = None /\ e = false /\ g = S k /\ s = k) \/ (q = None /\ e = true /\ g = S k /\ s = S k))
  | Wclose _ | Wend _ => g = n /\ s = n /\ q = None
  end.
Definition pinv (st : state A) : Prop :=
  match par st with
  | Pget _ i w acc => i < n /\ w <= np /\ out st = map (fun k => row k np) (seq 0 i) /\ acc = row i w
  | Pset _ i w acc => i < n /\ w < np /\ out st = map (fun k => row k np) (seq 0 i) /\ acc = row i (S w)
  | Pjoin _ w => w <= np /\ out st = map (fun k => row k np) (seq 0 n) /\ forall v, v < w -> wks st v = Wend A
  | Pend => out st = map (fun k => row k np) (seq 0 n) /\ forall v, v < np -> wks st v = Wend A
  end.
Definition inv (st : state A) : Prop :=
  pinv st /\ forall w, w < np -> winv (wks st w) (que st w) (evt st w) (got (par st) w) (sets (par st) w) w.

Lemma set_same {B} (f : nat -> B) w b : set_at f w b w = b. Proof. unfold set_at. rewrite Nat.eqb_refl. reflexivity. Qed.
Lemma set_other {B} (f : nat -> B) w b v : v <> w -> set_at f w b v = f v. Proof. intros H. unfold set_at. rewrite (proj2 (Nat.eqb_neq v w) H). reflexivity. Qed.
Lemma skipn_cons w k : w < np -> k < n -> skipn k (items w) = item w k :: skipn (S k) (items w).
Proof.
  intros Hw Hk. unfold item. assert (L := Hlen w Hw). revert k Hk. rewrite <- L. generalize (items w). induction l as [|x l IH]; intros k Hk; [cbn in Hk; lia|].
  destruct k as [|k]; [reflexivity|]. apply IH. cbn in Hk. lia.
Qed.
Lemma skipn_end w : w < np -> skipn n (items w) = []. Proof. intros Hw. rewrite <- (Hlen w Hw). apply skipn_all. Qed.
Lemma row_S k w : row k (S w) = row k w ++ item w k.
Proof. unfold row. rewrite seq_S, flat_map_app. cbn. rewrite app_nil_r. reflexivity. Qed.

Lemma inv_start subs : (forall w, w < np -> izip (nth w subs []) = items w) -> inv (start n subs).
Proof.
  intros E. split.
  - unfold pinv, start, next_iter. cbn [par out wks]. destruct (Nat.ltb_spec 0 n) as [H|H]; cbn.
    + repeat split; try lia.
    + replace n with 0 by lia. repeat split; lia.
  - intros w Hw. cbn [start par wks que evt winv]. exists 0. split; [lia|]. split; [rewrite E by assumption; reflexivity|].
    unfold next_iter. destruct (Nat.ltb_spec 0 n) as [H|H]; cbn; [repeat split; destruct (w <? 0) eqn:X; try reflexivity; apply Nat.ltb_lt in X; lia|].
    repeat split; lia.
Qed.

(* a worker moves: the parent does not *)
Lemma inv_worker st wk' q' e' w : inv st -> w < np ->
  (par st = Pend -> False) -> (forall v, par st = Pjoin A v -> v <= w) ->
  winv wk' q' e' (got (par st) w) (sets (par st) w) w ->
  inv {| par := par st; wks := set_at (wks st) w wk'; que := set_at (que st) w q'; evt := set_at (evt st) w e'; out := out st |}.
Proof.
  intros [HP HW] Hw NE NJ I. split.
  - unfold pinv in *. cbn [par wks que evt out]. destruct (par st) as [i u acc|i u acc|u|] eqn:E; try exact HP.
    + destruct HP as [H1 [H2 H3]]. split; [exact H1|]. split; [exact H2|]. intros v Hv. rewrite set_other; [apply H3; assumption|]. specialize (NJ u eq_refl). lia.
    + exfalso. apply NE. reflexivity.
  - intros v Hv. cbn [par wks que evt out]. destruct (Nat.eq_dec v w) as [-> |N]; [rewrite !set_same; exact I|rewrite !set_other by exact N; apply HW; exact Hv].
Qed.
Lemma set_id {B} (f : nat -> B) w : set_at f w (f w) = f.
Proof. apply functional_extensionality. intros v. unfold set_at. destruct (Nat.eqb_spec v w) as [-> |]; reflexivity. Qed.

Lemma not_ended st w : inv st -> w < np -> wks st w <> Wend A -> (par st = Pend -> False) /\ (forall v, par st = Pjoin A v -> v <= w).
Proof.
  intros [HP _] Hw N. unfold pinv in HP. split.
  - intros E. rewrite E in HP. destruct HP as [_ H]. apply N, H, Hw.
  - intros v E. rewrite E in HP. destruct HP as [_ [_ H]]. destruct (le_lt_dec v w) as [L|L]; [exact L|]. exfalso. apply N, H, L.
Qed.
Ltac wmove st w E :=
  let X := fresh in pose proof (not_ended st w) as X; rewrite E in X; destruct X as [NE NJ]; [assumption|assumption|discriminate|].

Lemma inv_step st st' : inv st -> step np n st st' -> inv st'.
Proof.
  intros I S. destruct S as [st w s rest Hw E|st w Hw E|st w s rest Hw E|st w s rest Hw E Q|st w rest Hw E V|st w Hw E|st i w acc s E Hw Q|st i w acc E|st i w acc E Hw|st w E Hw W|st w E Hw].
  - wmove st w E. rewrite <- (set_id (que st) w), <- (set_id (evt st) w). apply inv_worker; try assumption. pose proof (proj2 I w Hw) as J. rewrite E in J. cbn [winv] in J |- *.
    destruct J as [k [K1 [K2 [K3 [K4 K5]]]]]. assert (Hk : k < n). { destruct (Nat.eq_dec k n) as [-> |]; [|lia]. rewrite skipn_end in K2 by exact Hw. discriminate. }
    rewrite skipn_cons in K2 by assumption. injection K2 as -> ->. exists k. repeat split; assumption.
  - wmove st w E. rewrite <- (set_id (que st) w), <- (set_id (evt st) w). apply inv_worker; try assumption. pose proof (proj2 I w Hw) as J. rewrite E in J. cbn [winv] in J |- *.
    destruct J as [k [K1 [K2 [K3 [K4 K5]]]]]. assert (Hk : k = n). { destruct (Nat.eq_dec k n) as [|N]; [assumption|]. rewrite skipn_cons in K2 by (assumption || lia). discriminate. }
    repeat split; (congruence || assumption).
  - wmove st w E. rewrite <- (set_id (que st) w). apply inv_worker; try assumption. pose proof (proj2 I w Hw) as J. rewrite E in J. cbn [winv] in J |- *.
    destruct J as [k [K1 [K2 [K3 [K4 [K5 K6]]]]]]. exists k. repeat split; assumption.
  - wmove st w E. rewrite <- (set_id (evt st) w). apply inv_worker; try assumption. pose proof (proj2 I w Hw) as J. rewrite E in J. cbn [winv] in J |- *.
    destruct J as [k [K1 [K2 [K3 [K4 [K5 [K6 K7]]]]]]]. exists k. split; [assumption|]. split; [assumption|]. left. subst s. repeat split; assumption.
  - wmove st w E. rewrite <- (set_id (que st) w), <- (set_id (evt st) w). apply inv_worker; try assumption. pose proof (proj2 I w Hw) as J. rewrite E in J. cbn [winv] in J |- *.
    destruct J as [k [K1 [K2 [K3|[K3|K3]]]]]; destruct K3 as [K3 [K4 [K5 K6]]]; [congruence|congruence|]. exists (S k). repeat split; (assumption || lia).
  - wmove st w E. rewrite <- (set_id (que st) w), <- (set_id (evt st) w). apply inv_worker; try assumption. pose proof (proj2 I w Hw) as J. rewrite E in J. exact J.
  - destruct I as [HP HW]. unfold pinv in HP. rewrite E in HP. destruct HP as [P1 [P2 [P3 P4]]].
    assert (G : got (par st) w = i) by (rewrite E; cbn [got]; rewrite Nat.ltb_irrefl; reflexivity).
    assert (Es : s = item w i).
    { pose proof (HW w Hw) as J. rewrite Q, G in J. destruct (wks st w); cbn [winv] in J.
      - destruct J as [k J]; decompose [and] J; discriminate.
      - destruct J as [k J]; decompose [and] J; discriminate.
      - destruct J as [k J]; decompose [and] J; discriminate.
      - destruct J as [k [K1 [K2 [K3|[K3|K3]]]]]; destruct K3 as [K3 [K4 [K5 K6]]]; [injection K3 as ->; congruence|discriminate|discriminate].
      - decompose [and] J; discriminate.
      - decompose [and] J; discriminate. }
    split; [unfold pinv; cbn [par out]; rewrite row_S, P4, Es; repeat split; assumption|]. intros v Hv. cbn [par wks que evt]. specialize (HW v Hv). rewrite E in HW.
    destruct (Nat.eq_dec v w) as [-> |N].
    + rewrite set_same, Q in *. cbn [got sets] in HW |- *. rewrite Nat.ltb_irrefl in HW |- *. rewrite Nat.leb_refl. destruct (wks st w); cbn [winv] in HW |- *.
      * destruct HW as [k J]; decompose [and] J; discriminate.
      * destruct HW as [k J]; decompose [and] J; discriminate.
      * destruct HW as [k J]; decompose [and] J; discriminate.
      * destruct HW as [k [K1 [K2 [K3|[K3|K3]]]]]; destruct K3 as [K3 [K4 [K5 K6]]]; [|discriminate|discriminate].
        exists k. split; [assumption|]. split; [assumption|]. right. left. subst k. repeat split; assumption.
      * decompose [and] HW; discriminate.
      * decompose [and] HW; discriminate.
    + rewrite set_other by exact N. cbn [got sets] in HW |- *. replace (v <=? w) with (v <? w); [exact HW|].
      destruct (Nat.ltb_spec v w), (Nat.leb_spec v w); reflexivity || lia.
  - destruct I as [HP HW]. unfold pinv in HP. rewrite E in HP. destruct HP as [P1 [P2 [P3 P4]]].
    split; [unfold pinv; cbn [par out]; repeat split; (assumption || lia)|]. intros v Hv. cbn [par wks que evt]. specialize (HW v Hv). rewrite E in HW. cbn [got sets] in HW |- *.
    destruct (Nat.eq_dec v w) as [-> |N].
    + rewrite set_same. rewrite Nat.leb_refl, Nat.ltb_irrefl in HW. rewrite (proj2 (Nat.ltb_lt w (S w)) (Nat.lt_succ_diag_r w)). destruct (wks st w); cbn [winv] in HW |- *.
      * destruct HW as [k J]; decompose [and] J; lia.
      * destruct HW as [k J]; decompose [and] J; lia.
      * destruct HW as [k J]; decompose [and] J; lia.
      * destruct HW as [k [K1 [K2 [K3|[K3|K3]]]]]; destruct K3 as [K3 [K4 [K5 K6]]]; [lia| |lia].
        exists k. split; [assumption|]. split; [assumption|]. right. right. repeat split; (assumption || lia).
      * lia.
      * lia.
    + rewrite set_other by exact N. replace (v <? S w) with (v <? w) by (destruct (Nat.ltb_spec v w), (Nat.ltb_spec v (S w)); reflexivity || lia).
      replace (v <=? w) with (v <? w) in HW by (destruct (Nat.ltb_spec v w), (Nat.leb_spec v w); reflexivity || lia). exact HW.
  - destruct I as [HP HW]. unfold pinv in HP. rewrite E in HP. destruct HP as [P1 [P2 [P3 P4]]]. assert (w = np) by lia. subst w.
    assert (O : out st ++ [acc] = map (fun k => row k np) (seq 0 (S i))) by (rewrite seq_S, map_app, P3, P4; reflexivity).
    unfold next_iter. destruct (Nat.ltb_spec (S i) n) as [L|L].
    + split; [unfold pinv; cbn [par out]; repeat split; (exact O || lia)|]. intros v Hv. cbn [par wks que evt]. specialize (HW v Hv). rewrite E in HW. cbn [got sets] in HW |- *.
      rewrite (proj2 (Nat.ltb_lt v np) Hv) in HW. exact HW.
    + assert (n = S i) as En by lia. split; [unfold pinv; cbn [par out]; rewrite En; repeat split; (exact O || lia)|]. intros v Hv. cbn [par wks que evt]. specialize (HW v Hv). rewrite E in HW. cbn [got sets] in HW |- *.
      rewrite (proj2 (Nat.ltb_lt v np) Hv) in HW. rewrite En. exact HW.
  - destruct I as [HP HW]. unfold pinv in HP. rewrite E in HP. destruct HP as [P1 [P2 P3]]. split.
    + unfold pinv. cbn [par out wks]. split; [lia|]. split; [exact P2|]. intros v Hv. destruct (Nat.eq_dec v w) as [-> |]; [exact W|apply P3; lia].
    + intros v Hv. cbn [par wks que evt]. specialize (HW v Hv). rewrite E in HW. exact HW.
  - destruct I as [HP HW]. unfold pinv in HP. rewrite E in HP. destruct HP as [P1 [P2 P3]]. split.
    + unfold pinv. cbn [par out wks]. split; [exact P2|]. intros v Hv. apply P3. lia.
    + intros v Hv. cbn [par wks que evt]. specialize (HW v Hv). rewrite E in HW. exact HW.
Qed.
Lemma inv_steps st st' : inv st -> steps np n st st' -> inv st'.
Proof. intros I S. induction S as [|st st1 st2 S IH H]; [exact I|]. eapply inv_step; [apply IH; exact I|exact H]. Qed.

(* no deadlock *)
Lemma progress st : inv st -> par st = Pend \/ exists st', step np n st st'.
Proof.
  intros [HP HW]. unfold pinv in HP. destruct (par st) as [i w acc|i w acc|w|] eqn:E.
  - right. destruct HP as [P1 [P2 [P3 P4]]]. destruct (le_lt_dec np w) as [L|L]; [eexists; eapply p_yield; eassumption|].
    specialize (HW w L). cbn [got sets] in HW. rewrite Nat.ltb_irrefl in HW. destruct (wks st w) as [rest|s rest|s rest|rest| |] eqn:F; cbn [winv] in HW.
    + destruct HW as [k HW]. destruct rest as [|s rest]; eexists; [eapply w_stop|eapply w_next]; eassumption.
    + eexists. eapply w_clear; eassumption.
    + destruct HW as [k HW]. decompose [and] HW. eexists. eapply w_put; eassumption.
    + destruct HW as [k [K1 [K2 [K3|[K3|K3]]]]]; destruct K3 as [K3 [K4 [K5 K6]]]; [eexists; eapply p_get; eassumption|lia|eexists; eapply w_wait; eassumption].
    + lia.
    + lia.
  - right. eexists. eapply p_set. exact E.
  - right. destruct (le_lt_dec np w) as [L|L]; [eexists; eapply p_end; eassumption|]. specialize (HW w L). cbn [got sets] in HW.
    destruct (wks st w) as [rest|s rest|s rest|rest| |] eqn:F; cbn [winv] in HW.
    + destruct rest as [|s rest]; eexists; [eapply w_stop|eapply w_next]; eassumption.
    + eexists. eapply w_clear; eassumption.
    + destruct HW as [k HW]. decompose [and] HW. eexists. eapply w_put; eassumption.
    + destruct HW as [k [K1 [K2 [K3|[K3|K3]]]]]; destruct K3 as [K3 [K4 [K5 K6]]]; [lia|lia|eexists; eapply w_wait; eassumption].
    + eexists. eapply w_close; eassumption.
    + eexists. eapply p_join; eassumption.
  - left. reflexivity.
Qed.

(* termination *)
Definition wsize (wk : worker A) : nat :=
  match wk with Whead _ r => 4 * length r + 2 | Wclear _ _ r => 4 * length r + 5 | Wput _ _ r => 4 * length r + 4 | Wwait _ r => 4 * length r + 3 | Wclose _ => 1 | Wend _ => 0 end.
Definition psize (p : parent A) : nat :=
  match p with
  | Pget _ i w _ => (n - 1 - i) * (2 * np + 1) + (2 * (np - w) + 1) + (np + 1)
  | Pset _ i w _ => (n - 1 - i) * (2 * np + 1) + 2 * (np - w) + (np + 1)
  | Pjoin _ w => np - w + 1
  | Pend => 0
  end.
Definition sum_to (k : nat) (f : nat -> nat) : nat := list_sum (map f (seq 0 k)).
Definition size (st : state A) : nat := psize (par st) + sum_to np (fun w => wsize (wks st w)).
Lemma sum_S k f : sum_to (S k) f = sum_to k f + f k.
Proof. unfold sum_to. rewrite seq_S, map_app, list_sum_app. cbn. lia. Qed.
Lemma sum_set k (f : nat -> worker A) w b : w < k -> wsize b < wsize (f w) -> sum_to k (fun v => wsize (set_at f w b v)) < sum_to k (fun v => wsize (f v)).
Proof.
  intros Hw L. assert (Q : forall j, j <= w -> sum_to j (fun v => wsize (set_at f w b v)) = sum_to j (fun v => wsize (f v))).
  { induction j as [|j IH]; intros Hj; [reflexivity|]. rewrite !sum_S, IH, set_other by lia. reflexivity. }
  induction k as [|k IH]; [lia|]. rewrite !sum_S. destruct (Nat.eq_dec k w) as [-> |N]; [rewrite Q, set_same by lia; lia|].
  rewrite set_other by exact N. specialize (IH ltac:(lia)). lia.
Qed.
Lemma step_size st st' : inv st -> step np n st st' -> size st' < size st.
Proof.
  intros I S. unfold size. destruct S as [st w s rest Hw E|st w Hw E|st w s rest Hw E|st w s rest Hw E Q|st w rest Hw E V|st w Hw E|st i w acc s E Hw Q|st i w acc E|st i w acc E Hw|st w E Hw W|st w E Hw];
  cbn [par wks]; try (apply Nat.add_lt_mono_l, sum_set; [exact Hw|rewrite E; cbn; lia]); apply Nat.add_lt_mono_r.
  - rewrite E. cbn [psize]. lia.
  - destruct I as [HP _]. unfold pinv in HP. rewrite E in HP |- *. cbn [psize]. lia.
  - destruct I as [HP _]. unfold pinv in HP. rewrite E in HP |- *. destruct HP as [P1 _]. unfold next_iter. destruct (Nat.ltb_spec (S i) n) as [L|L]; cbn [psize].
    + replace (n - 1 - i) with (S (n - 1 - S i)) by lia. set (q := n - 1 - S i). clearbody q. lia.
    + lia.
  - rewrite E. cbn [psize]. lia.
  - rewrite E. cbn [psize]. lia.
Qed.
Lemma can_finish st : inv st -> exists st', steps np n st st' /\ par st' = Pend.
Proof.
  assert (X : forall k st, size st < k -> inv st -> exists st', steps np n st st' /\ par st' = Pend).
  { induction k as [|k IH]; intros s Hk I; [lia|]. destruct (progress s I) as [E|[s1 H]]; [exists s; split; [apply steps_refl|exact E]|].
    destruct (IH s1) as [s2 [H2 E2]]; [pose proof (step_size s s1 I H); lia|eapply inv_step; eassumption|]. exists s2. split; [|exact E2].
    clear - H H2. induction H2 as [|a b c S2 IH2 H3]; [eapply steps_step; [apply steps_refl|exact H]|]. eapply steps_step; [apply IH2; exact H|exact H3]. }
  apply (X (S (size st))). lia.
Qed.
Lemma final st : inv st -> par st = Pend -> out st = map (fun k => row k np) (seq 0 n).
Proof. intros [HP _] E. unfold pinv in HP. rewrite E in HP. apply HP. Qed.
(* what has been yielded so far is a beginning of the full sequence *)
Lemma prefix st : inv st -> exists k, k <= n /\ out st = map (fun k => row k np) (seq 0 k).
Proof.
  intros [HP _]. unfold pinv in HP. destruct (par st) as [i w acc|i w acc|w|].
  - exists i. split; [lia|apply HP].
  - exists i. split; [lia|apply HP].
  - exists n. split; [lia|apply HP].
  - exists n. split; [lia|apply HP].
Qed.
End Proof.
