(* Distribution of the generators over the processes; the result of the pipeline. *)
From Verif Require Import AuxN SpecPipe M_pipe P_pipe.
Local Open Scope nat_scope.

Section S.
Variable A : Type.
Variable d : A.
Lemma zip_cons_spec (g : list A) n : forall t, length g = n -> length t = n ->
  length (zip_cons A g t) = n /\ forall k, k < n -> nth k (zip_cons A g t) [] = nth k g d :: nth k t [].
Proof.
  revert g. induction n as [|n IH]; intros g t Hg Ht; destruct g, t; try discriminate; [split; [reflexivity|lia]|].
  cbn in Hg, Ht. injection Hg as Hg. injection Ht as Ht. destruct (IH g t Hg Ht) as [H1 H2]. cbn [zip_cons length]. split; [lia|].
  intros k Hk. destruct k as [|k]; [reflexivity|]. cbn [nth]. apply H2. lia.
Qed.
Lemma izip_spec n gens : gens <> [] -> (forall g, In g gens -> length g = n) -> length (izip gens) = n /\ forall k, k < n -> nth k (izip gens) [] = kth d gens k.
Proof.
  induction gens as [|g gens IH]; intros NE H; [congruence|]. destruct gens as [|g' gens].
  - cbn [izip]. rewrite map_length. split; [apply H; left; reflexivity|]. intros k Hk. rewrite <- (H g (or_introl eq_refl)) in Hk.
    rewrite (nth_indep _ [] [d]) by (rewrite map_length; exact Hk). rewrite (map_nth (fun a => [a])). reflexivity.
  - destruct IH as [L N]; [discriminate|intros; apply H; right; assumption|]. change (izip (g :: g' :: gens)) with (zip_cons A g (izip (g' :: gens))).
    destruct (zip_cons_spec g n (izip (g' :: gens)) (H g (or_introl eq_refl)) L) as [H1 H2]. split; [exact H1|].
    intros k Hk. rewrite H2, N by exact Hk. reflexivity.
Qed.
Lemma izip_lock n gens : gens <> [] -> (forall g, In g gens -> length g = n) -> izip gens = lock_step d gens n.
Proof.
  intros NE H. destruct (izip_spec n gens NE H) as [L N]. apply (nth_ext _ _ [] []); [unfold lock_step; rewrite map_length, seq_length; exact L|].
  intros k Hk. rewrite L in Hk. rewrite N by exact Hk. unfold lock_step. rewrite (nth_indep _ [] (kth d gens 0)) by (rewrite map_length, seq_length; exact Hk).
  rewrite (map_nth (kth d gens)), seq_nth by exact Hk. reflexivity.
Qed.
End S.

Section D.
Variable B : Type.
Lemma skip_skip (a b : nat) : forall l : list B, skipn a (skipn b l) = skipn (a + b) l.
Proof. induction b as [|b IH]; intros l; [rewrite Nat.add_0_r; reflexivity|]. destruct l; [rewrite !skipn_nil; reflexivity|]. rewrite Nat.add_succ_r. cbn [skipn]. apply IH. Qed.
Lemma slices (l : list B) p : forall m a, concat (map (fun i => slice l (a + i * p) (a + (i + 1) * p)) (seq 0 m)) = slice l a (a + m * p).
Proof.
  induction m as [|m IH]; intros a.
  - cbn. unfold slice. replace (a + 0 - a) with 0 by lia. reflexivity.
  - rewrite seq_S, map_app, concat_app, IH. cbn [map concat Nat.add]. rewrite app_nil_r. unfold slice.
    replace (a + (m + 1) * p - (a + m * p)) with p by lia. replace (a + m * p - a) with (m * p) by lia. replace (a + S m * p - a) with (m * p + p) by lia.
    generalize (skip_skip (m * p) a l). intros E. replace (a + m * p) with (m * p + a) by lia. rewrite <- E. generalize (skipn a l) as l'. clear. intros l'.
    generalize (m * p) as q. intros q. revert l'. induction q as [|q IH]; intros l'; [reflexivity|]. destruct l'; cbn; [rewrite !firstn_nil; reflexivity|]. f_equal. apply IH.
Qed.
Lemma sub_concat (l : list B) np pp lf : 1 <= np -> lf + (np - 1) * pp = length l -> concat (sub_lists l np pp lf) = l.
Proof.
  intros Hn E. unfold sub_lists. cbn [concat]. rewrite slices, E. unfold slice. rewrite Nat.sub_0_r. cbn [skipn].
  rewrite (firstn_all2 (skipn lf l)) by (rewrite skipn_length; lia). apply firstn_skipn.
Qed.
Lemma sub_length (l : list B) np pp lf : 1 <= np -> length (sub_lists l np pp lf) = np.
Proof. intros H. unfold sub_lists. cbn. rewrite map_length, seq_length. lia. Qed.
Lemma sub_nonempty (l : list B) np pp lf : 1 <= lf -> 1 <= pp -> lf + (np - 1) * pp = length l -> forall s, In s (sub_lists l np pp lf) -> s <> [].
Proof.
  intros Hl Hp E s [<- |H] N.
  - generalize dependent ((np - 1) * pp). intros q E. unfold slice in N. apply (f_equal (@length B)) in N. rewrite firstn_length, skipn_length in N. cbn in N. lia.
  - apply in_map_iff in H. destruct H as [i [<- Hi]]. apply in_seq in Hi. unfold slice in N. apply (f_equal (@length B)) in N. rewrite firstn_length, skipn_length in N. cbn in N.
    assert ((i + 1) * pp <= (np - 1) * pp) by (apply Nat.mul_le_mono_r; lia). lia.
Qed.
Lemma distribute_ok n n_process : match distribute n n_process with (p, pp, lf) =>
  (1 < p)%Z -> 2 <= Z.to_nat p <= n /\ 1 <= lf /\ 1 <= pp /\ lf + (Z.to_nat p - 1) * pp = n end.
Proof.
  unfold distribute. destruct (Z.leb_spec (Z.of_nat n) n_process); destruct (Z.ltb_spec 0 n_process); cbn [andb].
  - intros H1. lia.
  - destruct (Z.ltb_spec n_process (Z.of_nat n)); cbn [andb]; lia.
  - rewrite (proj2 (Z.ltb_lt n_process (Z.of_nat n)) H). cbn [andb]. intros H1. set (q := Z.to_nat n_process). assert (Hq : 2 <= q < n) by lia.
    pose proof (Nat.div_mod n q ltac:(lia)) as D. assert (1 <= n / q) by (apply Nat.div_le_lower_bound; lia). replace (Z.to_nat n_process) with q by reflexivity.
    split; [lia|]. split; [lia|]. split; [lia|]. rewrite Nat.mul_sub_distr_r. nia.
  - rewrite (proj2 (Z.ltb_lt n_process (Z.of_nat n)) H). cbn [andb]. lia.
Qed.
End D.

Section R.
Variable A : Type.
Variable d : A.
Variables (n_process : Z) (n : nat) (gens : list (list A)).
Hypothesis NE : gens <> [].
Hypothesis HL : forall g, In g gens -> length g = n.

Section Par.
Variables (np pp lf : nat).
Hypothesis H2 : 2 <= np <= length gens.
Hypothesis Hl : 1 <= lf.
Hypothesis Hp : 1 <= pp.
Hypothesis E : lf + (np - 1) * pp = length gens.
Notation subs := (sub_lists gens np pp lf).
Notation items := (fun w => izip (nth w subs [])).
Lemma sub_in w : w < np -> nth w subs [] <> [] /\ forall g, In g (nth w subs []) -> length g = n.
Proof.
  intros Hw. assert (Hi : In (nth w subs []) subs) by (apply nth_In; rewrite sub_length by lia; exact Hw). split; [exact (sub_nonempty _ gens np pp lf Hl Hp E _ Hi)|].
  intros g Hg. apply HL. rewrite <- (sub_concat _ gens np pp lf) by (lia || exact E). apply in_concat. exists (nth w subs []). split; assumption.
Qed.
Lemma items_len w : w < np -> length (items w) = n.
Proof. intros Hw. destruct (sub_in w Hw) as [S1 S2]. apply (izip_spec A d n _ S1 S2). Qed.
Lemma start_inv : inv A np n items (start n subs).
Proof. apply inv_start; [exact items_len|]. intros; reflexivity. Qed.
Lemma row_eq k : k < n -> row A items k np = kth d gens k.
Proof.
  intros Hk. unfold kth. transitivity (map (fun g => nth k g d) (concat subs)); [|rewrite sub_concat by (lia || exact E); reflexivity].
  rewrite concat_map. unfold row. rewrite flat_map_concat_map. f_equal.
  apply (nth_ext _ _ [] []); [rewrite !map_length, seq_length, sub_length by lia; reflexivity|].
  intros w Hw. rewrite map_length, seq_length in Hw.
  rewrite (nth_indep _ [] (item A items 0 k)) by (rewrite map_length, seq_length; exact Hw). rewrite (map_nth (fun v => item A items v k)), seq_nth by exact Hw. cbn [Nat.add].
  etransitivity; [|symmetry; exact (map_nth (map (fun g => nth k g d)) subs [] w)]. unfold item.
  destruct (sub_in w Hw) as [S1 S2]. destruct (izip_spec A d n _ S1 S2) as [_ N]. rewrite N by exact Hk. reflexivity.
Qed.
Lemma rows_eq k : k <= n -> map (fun k => row A items k np) (seq 0 k) = lock_step d gens k.
Proof. intros Hk. unfold lock_step. apply map_ext_in. intros j Hj. apply in_seq in Hj. apply row_eq. lia. Qed.
End Par.

Lemma reach_inv st : reachable n_process n gens st -> exists np pp lf, np = Z.to_nat (fst (fst (distribute (length gens) n_process))) /\
  2 <= np <= length gens /\ 1 <= lf /\ 1 <= pp /\ lf + (np - 1) * pp = length gens /\ inv A np n (fun w => izip (nth w (sub_lists gens np pp lf) [])) st.
Proof.
  unfold reachable. pose proof (distribute_ok (length gens) n_process) as D. destruct (distribute (length gens) n_process) as [[p pp] lf].
  intros [H1 H]. destruct (D H1) as [D1 [D2 [D3 D4]]]. exists (Z.to_nat p), pp, lf. split; [reflexivity|]. repeat (split; [assumption|]).
  eapply inv_steps; [intros w Hw; apply (items_len (Z.to_nat p) pp lf); assumption| |exact H]. apply start_inv; assumption.
Qed.
Lemma pipe_result res : generate_parallel n_process n gens res -> res = lock_step d gens n.
Proof.
  unfold generate_parallel. destruct (distribute (length gens) n_process) as [[p pp] lf] eqn:ED.
  destruct (Z.leb_spec p 1) as [L|L]; [intros ->; apply izip_lock; assumption|]. intros [st [S [P1 <-]]].
  assert (R : reachable n_process n gens st) by (unfold reachable; rewrite ED; split; [lia|exact S]).
  destruct (reach_inv st R) as (np & pp' & lf' & _ & H2 & Hl & Hp & E & I). rewrite (final A np n _ st I P1). apply rows_eq; assumption || lia.
Qed.
Lemma pipe_exists : exists res, generate_parallel n_process n gens res.
Proof.
  unfold generate_parallel. destruct (distribute (length gens) n_process) as [[p pp] lf] eqn:ED.
  destruct (Z.leb_spec p 1) as [L|L]; [eexists; reflexivity|].
  assert (R : reachable n_process n gens (start n (sub_lists gens (Z.to_nat p) pp lf))) by (unfold reachable; rewrite ED; split; [lia|apply steps_refl]).
  pose proof (distribute_ok (length gens) n_process) as D. rewrite ED in D. destruct (D L) as [D1 [D2 [D3 D4]]].
  destruct (can_finish A (Z.to_nat p) n (fun w => izip (nth w (sub_lists gens (Z.to_nat p) pp lf) []))) with (st := start n (sub_lists gens (Z.to_nat p) pp lf)) as [st [S P1]].
  - intros w Hw. apply (items_len (Z.to_nat p) pp lf); assumption.
  - apply start_inv; assumption.
  - exists (out st), st. repeat split; assumption.
Qed.
Lemma pipe_live st : reachable n_process n gens st -> par st = Pend \/ exists st', moves n_process n gens st st'.
Proof.
  intros R. destruct (reach_inv st R) as (np & pp & lf & En & H2 & Hl & Hp & E & I). unfold moves. rewrite <- En.
  eapply progress; [|exact I]. intros w Hw. apply (items_len np pp lf); assumption.
Qed.
Lemma pipe_prefix st : reachable n_process n gens st -> exists k, k <= n /\ out st = lock_step d gens k.
Proof.
  intros R. destruct (reach_inv st R) as (np & pp & lf & En & H2 & Hl & Hp & E & I). destruct (prefix A np n _ (items_len np pp lf H2 Hl Hp E) st I) as [k [Hk O]].
  exists k. split; [exact Hk|]. rewrite O. apply rows_eq; assumption.
Qed.
Lemma pipe_terminates : exists size : state A -> nat, forall st st', reachable n_process n gens st -> moves n_process n gens st st' -> size st' < size st.
Proof.
  exists (size A (Z.to_nat (fst (fst (distribute (length gens) n_process)))) n). intros st st' R M.
  destruct (reach_inv st R) as (np & pp & lf & En & H2 & Hl & Hp & E & I). unfold moves in M. rewrite <- En in *. exact (step_size A np n _ (items_len np pp lf H2 Hl Hp E) st st' I M).
Qed.
End R.

Lemma reach_moves {A} p n (gens : list (list A)) st st' : reachable p n gens st -> moves p n gens st st' -> reachable p n gens st'.
Proof.
  unfold reachable, moves. destruct (distribute (length gens) p) as [[q pp] lf]. cbn [fst]. intros [H1 H2] M. split; [exact H1|]. eapply steps_step; eassumption.
Qed.
Lemma pipe_no_infinite {A} (d : A) p n (gens : list (list A)) (f : nat -> state A) : gens <> [] -> (forall g, In g gens -> length g = n) -> reachable p n gens (f 0) ->
  ~ forall i, moves p n gens (f i) (f (S i)).
Proof.
  intros NE HL R M. destruct (pipe_terminates A d p n gens HL) as [size H].
  assert (HR : forall i, reachable p n gens (f i)) by (intros i; induction i; [exact R|eapply reach_moves; eauto]).
  assert (B : forall i, size (f i) + i <= size (f 0)) by (intros i; induction i as [|i IH]; [lia|specialize (H _ _ (HR i) (M i)); lia]).
  specialize (B (S (size (f 0)))). lia.
Qed.

(* a worker whose generator ends early *)
Definition short : list (list nat) := [[5]; []].
Lemma steps_head {A} np n (a b c : state A) : step np n a b -> steps np n b c -> steps np n a c.
Proof. intros H S. induction S as [|b c d S IH T]; [eapply steps_step; [apply steps_refl|exact H]|eapply steps_step; [apply IH; exact H|exact T]]. Qed.
Lemma eval_dist : distribute (length short) 2 = (2%Z, 1, 1). Proof. reflexivity. Qed.
Definition start_s : state nat := start 1 (sub_lists short 2 1 1).
Lemma heads : wks start_s 0 = Whead nat [[5]] /\ wks start_s 1 = Whead nat []. Proof. split; reflexivity. Qed.
Definition view (p : parent nat) (w0 w1 : worker nat) (q0 q1 : option (list nat)) (e0 : bool) : Prop := exists st, steps 2 1 start_s st /\
  par st = p /\ wks st 0 = w0 /\ wks st 1 = w1 /\ que st 0 = q0 /\ que st 1 = q1 /\ evt st 0 = e0.
Lemma run_short : view (Pget nat 0 1 [5]) (Wend nat) (Wend nat) None None true.
Proof.
  assert (H : view (Pget nat 0 0 []) (Whead nat [[5]]) (Whead nat []) (None) (None) (false)) by (exists start_s; split; [apply steps_refl|repeat split]).
  assert (H' : view (Pget nat 0 0 []) (Wclear nat [5] []) (Whead nat []) (None) (None) (false)); [|clear H; rename H' into H].
  { destruct H as [st [S (P & W0 & W1 & Q0 & Q1 & E0)]]. eexists. split; [eapply steps_step; [exact S|eapply (w_next nat 2 1 st 0); (lia || eassumption)]|]. repeat split; assumption. }
  assert (H' : view (Pget nat 0 0 []) (Wput nat [5] []) (Whead nat []) (None) (None) (false)); [|clear H; rename H' into H].
  { destruct H as [st [S (P & W0 & W1 & Q0 & Q1 & E0)]]. eexists. split; [eapply steps_step; [exact S|eapply (w_clear nat 2 1 st 0); (lia || eassumption)]|]. repeat split; assumption. }
  assert (H' : view (Pget nat 0 0 []) (Wwait nat []) (Whead nat []) (Some [5]) (None) (false)); [|clear H; rename H' into H].
  { destruct H as [st [S (P & W0 & W1 & Q0 & Q1 & E0)]]. eexists. split; [eapply steps_step; [exact S|eapply (w_put nat 2 1 st 0); (lia || eassumption)]|]. repeat split; assumption. }
  assert (H' : view (Pset nat 0 0 [5]) (Wwait nat []) (Whead nat []) (None) (None) (false)); [|clear H; rename H' into H].
  { destruct H as [st [S (P & W0 & W1 & Q0 & Q1 & E0)]]. eexists. split; [eapply steps_step; [exact S|eapply (p_get nat 2 1 st 0 0); (lia || eassumption)]|]. repeat split; assumption. }
  assert (H' : view (Pget nat 0 1 [5]) (Wwait nat []) (Whead nat []) (None) (None) (true)); [|clear H; rename H' into H].
  { destruct H as [st [S (P & W0 & W1 & Q0 & Q1 & E0)]]. eexists. split; [eapply steps_step; [exact S|eapply (p_set nat 2 1 st); (lia || eassumption)]|]. repeat split; assumption. }
  assert (H' : view (Pget nat 0 1 [5]) (Whead nat []) (Whead nat []) (None) (None) (true)); [|clear H; rename H' into H].
  { destruct H as [st [S (P & W0 & W1 & Q0 & Q1 & E0)]]. eexists. split; [eapply steps_step; [exact S|eapply (w_wait nat 2 1 st 0); (lia || eassumption)]|]. repeat split; assumption. }
  assert (H' : view (Pget nat 0 1 [5]) (Wclose nat) (Whead nat []) (None) (None) (true)); [|clear H; rename H' into H].
  { destruct H as [st [S (P & W0 & W1 & Q0 & Q1 & E0)]]. eexists. split; [eapply steps_step; [exact S|eapply (w_stop nat 2 1 st 0); (lia || eassumption)]|]. repeat split; assumption. }
  assert (H' : view (Pget nat 0 1 [5]) (Wend nat) (Whead nat []) (None) (None) (true)); [|clear H; rename H' into H].
  { destruct H as [st [S (P & W0 & W1 & Q0 & Q1 & E0)]]. eexists. split; [eapply steps_step; [exact S|eapply (w_close nat 2 1 st 0); (lia || eassumption)]|]. repeat split; assumption. }
  assert (H' : view (Pget nat 0 1 [5]) (Wend nat) (Wclose nat) (None) (None) (true)); [|clear H; rename H' into H].
  { destruct H as [st [S (P & W0 & W1 & Q0 & Q1 & E0)]]. eexists. split; [eapply steps_step; [exact S|eapply (w_stop nat 2 1 st 1); (lia || eassumption)]|]. repeat split; assumption. }
  assert (H' : view (Pget nat 0 1 [5]) (Wend nat) (Wend nat) (None) (None) (true)); [|clear H; rename H' into H].
  { destruct H as [st [S (P & W0 & W1 & Q0 & Q1 & E0)]]. eexists. split; [eapply steps_step; [exact S|eapply (w_close nat 2 1 st 1); (lia || eassumption)]|]. repeat split; assumption. }
  exact H.
Qed.
Lemma stuck_reachable : exists st, reachable 2 1 short st /\ par st <> Pend /\ forall st', ~ moves 2 1 short st st'.
Proof.
  destruct run_short as [st [S (HP & W0 & W1 & _ & HQ & _)]]. exists st. split; [|split; [rewrite HP; discriminate|]].
  - unfold reachable. rewrite eval_dist. split; [lia|exact S].
  - unfold moves. rewrite eval_dist. change (Z.to_nat (fst (fst (2%Z, 1, 1)))) with 2. intros st' M.
    assert (HW : forall w, w < 2 -> wks st w = Wend nat) by (intros w Hw; destruct w as [|[|w]]; [exact W0|exact W1|lia]). clear S W0 W1.
    destruct M as [st w s rest L H|st w L H|st w s rest L H|st w s rest L H|st w rest L H|st w L H|st i w acc s H|st i w acc H|st i w acc H L|st w H|st w H];
      try (rewrite (HW w L) in H; discriminate); rewrite HP in H; try discriminate.
    + injection H as <- <- <-. congruence.
    + injection H as <- <- <-. lia.
Qed.
