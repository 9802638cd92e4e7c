From Verif Require Import AuxN SpecC SpecExpm SpecHam SpecPars SpecViews M_views P_qop.
Local Open Scope nat_scope.

Definition same_mat (A B : cmat) : Prop := forall i j, A i j = B i j.
Lemma nth_app_l {A} (l l' : list A) i x : i < length l -> nth i (l ++ l') x = nth i l x.
Proof. apply app_nth1. Qed.
Lemma nth_last {A} (l : list A) y x : nth (length l) (l ++ [y]) x = y.
Proof. rewrite app_nth2 by lia. rewrite Nat.sub_diag. reflexivity. Qed.

Section Laws.
Variable n : nat.
Lemma view_same k A B : same_mat A B -> same_mat (view_of k A) (view_of k B).
Proof. intros H i j. destruct k; cbn; unfold mat_T, mat_conj, mat_H; rewrite H; reflexivity. Qed.

(* ---- quantum_operator ---- *)
Definition ok_refs (cs : list cmat) (o : list mref) : Prop := Forall (fun r => cell r < length cs) o.
Lemma deref_grow cs cs' r : cell r < length cs -> deref (cs ++ cs') r = deref cs r.
Proof. intros H. unfold deref. rewrite nth_app_l by exact H. reflexivity. Qed.
Lemma total_grow cs cs' o : ok_refs cs o -> same_mat (total (cs ++ cs') o) (total cs o).
Proof.
  intros H i j. unfold total. apply Csum_ext. intros r I. rewrite deref_grow; [reflexivity|]. unfold ok_refs in H. rewrite Forall_forall in H. apply H, I.
Qed.
Lemma ok_grow cs cs' o : ok_refs cs o -> ok_refs (cs ++ cs') o.
Proof. unfold ok_refs. intros H. eapply Forall_impl; [|exact H]. intros r L. eapply Nat.lt_le_trans; [exact L|]. rewrite app_length. apply Nat.le_add_r. Qed.
Lemma total_flip cs o : same_mat (total cs (map flip_ref o)) (mat_T (total cs o)).
Proof. intros i j. unfold total, mat_T. rewrite Csum_map. apply Csum_ext. intros r _. unfold deref, flip_ref. cbn. destruct (flip r); reflexivity. Qed.
Lemma ok_flip cs o : ok_refs cs o -> ok_refs cs (map flip_ref o).
Proof. unfold ok_refs. rewrite Forall_map. auto. Qed.
Lemma conj_ok cs o : ok_refs cs o -> let '(cs', o') := conj_refs cs o in ok_refs cs' o' /\ same_mat (total cs' o') (mat_conj (total cs o)).
Proof.
  intros H. unfold conj_refs. split.
  - unfold ok_refs. rewrite Forall_map, Forall_forall. intros k I. apply in_seq in I. cbn. rewrite app_length, map_length. lia.
  - intros i j. unfold total, mat_conj. rewrite Csum_map, Csum_conj.
    transitivity (Csum (seq 0 (length o)) (fun k => Cconj (deref cs (nth k o {| cell := 0; flip := false |}) i j))).
    + apply Csum_ext. intros k I. apply in_seq in I. unfold deref at 1. cbn [cell flip].
      rewrite app_nth2 by lia. replace (length cs + k - length cs) with k by lia.
      rewrite nth_indep with (d' := mat_conj (deref cs {| cell := 0; flip := false |})) by (rewrite map_length; lia).
      rewrite (map_nth (fun r => mat_conj (deref cs r))). reflexivity.
    + rewrite <- (Csum_map (fun k => nth k o {| cell := 0; flip := false |}) (seq 0 (length o)) (fun r => Cconj (deref cs r i j))).
      f_equal. apply (nth_ext _ _ {| cell := 0; flip := false |} {| cell := 0; flip := false |}); [rewrite map_length, seq_length; reflexivity|].
      intros k Hk. rewrite map_length, seq_length in Hk. set (z := {| cell := 0; flip := false |}).
      rewrite (nth_indep _ z (nth 0 o z)) by (rewrite map_length, seq_length; exact Hk).
      rewrite (map_nth (fun k => nth k o z)). rewrite seq_nth by exact Hk. reflexivity.
Qed.
(* every name stands for the object with the right matrix *)
Definition q_rel (w : qworld) (ms : list cmat) : Prop :=
  length (qnames w) = length ms /\ (forall h, h < length ms -> nth h (qnames w) 0 < length (qobjs w)) /\
  (forall i, i < length (qobjs w) -> ok_refs (cells w) (nth i (qobjs w) [])) /\
  (forall h, h < length ms -> same_mat (total (cells w) (nth (nth h (qnames w) 0) (qobjs w) [])) (mat_at ms h)).
Lemma q_make w ms cs' o' A : q_rel w ms -> ok_refs (cells w ++ cs') o' -> same_mat (total (cells w ++ cs') o') A ->
  q_rel {| cells := cells w ++ cs'; qobjs := qobjs w ++ [o']; qnames := qnames w ++ [length (qobjs w)] |} (ms ++ [A]).
Proof.
  intros (L & V & O & S) Ho HA. unfold q_rel. cbn [cells qobjs qnames]. rewrite !app_length. cbn [length]. split; [lia|]. split; [|split].
  - intros h Hh. destruct (Nat.eq_dec h (length ms)) as [->|N].
    + rewrite <- L, nth_last. lia.
    + rewrite nth_app_l by lia. specialize (V h). lia.
  - intros i Hi. destruct (Nat.eq_dec i (length (qobjs w))) as [->|N].
    + rewrite nth_last. exact Ho.
    + rewrite nth_app_l by lia. apply ok_grow, O. lia.
  - intros h Hh. destruct (Nat.eq_dec h (length ms)) as [->|N].
    + rewrite <- L at 1. rewrite nth_last, nth_last. unfold mat_at. rewrite nth_last. exact HA.
    + assert (h < length ms) by lia. rewrite (nth_app_l (qnames w)) by lia. rewrite nth_app_l by (apply V; assumption).
      unfold mat_at. rewrite nth_app_l by assumption. intros i j. rewrite total_grow by (apply O, V; assumption). apply S. assumption.
Qed.
Definition q_pure (u : use) : Prop := match u with View _ _ _ | Copy _ | Act _ _ | LeftAct _ _ | AdjAct _ _ => True | _ => False end.
Lemma q_step w ms u : q_rel w ms -> q_pure u -> name_of u < length ms ->
  q_rel (fst (q_use n w u)) (fst (meaning n ms u)) /\ snd (q_use n w u) = snd (meaning n ms u).
Proof.
  intros R P Hh. pose proof R as (L & V & O & S). specialize (V _ Hh). specialize (S _ Hh).
  set (i := nth (name_of u) (qnames w) 0) in *. set (o := nth i (qobjs w) []) in *. specialize (O _ V). fold o in O.
  destruct u as [k c h|h|h|c h|h v|h v|h v|h X]; cbn [q_pure] in P; try contradiction; cbn [q_use meaning name_of] in *; fold i; fold o.
  - destruct k.
    + cbn [fst snd]. split; [|reflexivity]. pose proof (q_make w ms [] (map flip_ref o) (view_of Tr (mat_at ms h)) R) as Q. rewrite app_nil_r in Q. apply Q.
      * apply ok_flip, O.
      * intros a b. rewrite total_flip. cbn. unfold mat_T. apply S.
    + pose proof (conj_ok (cells w) o O) as Q. unfold conj_refs in *. destruct Q as [Q1 Q2]. cbn [fst snd]. split; [|reflexivity].
      apply q_make; [exact R|exact Q1|]. intros a b. rewrite Q2. cbn. unfold mat_conj. rewrite S. reflexivity.
    + pose proof (conj_ok (cells w) o O) as Q. unfold conj_refs in *. destruct Q as [Q1 Q2]. cbn [fst snd]. split; [|reflexivity].
      apply q_make; [exact R|apply ok_flip, Q1|]. intros a b. rewrite total_flip. unfold mat_T. rewrite Q2. cbn. unfold mat_conj, mat_H. rewrite S. reflexivity.
  - cbn [fst snd]. split; [|reflexivity]. pose proof (q_make w ms [] o (mat_at ms h) R) as Q. rewrite app_nil_r in Q. apply Q; [exact O|exact S].
  - split; [exact R|]. cbn [snd]. f_equal. apply mat_vec_ext. exact S.
  - split; [exact R|]. cbn [snd]. f_equal. apply mat_vec_ext. intros a b. rewrite total_flip. unfold mat_T. apply S.
  - pose proof (conj_ok (cells w) o O) as Q. unfold conj_refs in *. destruct Q as [Q1 Q2]. cbn [fst snd]. split; [exact R|]. f_equal. apply mat_vec_ext.
    intros a b. rewrite total_flip. unfold mat_T. rewrite Q2. unfold mat_conj, mat_H. rewrite S. reflexivity.
Qed.
Lemma meaning_length ms u : length (fst (meaning n ms u)) = if names_one u then S (length ms) else length ms.
Proof.
  destruct u; cbn [meaning fst names_one]; rewrite ?app_length; cbn [length]; try lia.
  unfold set_at. rewrite <- (firstn_skipn h ms) at 3. rewrite !app_length. f_equal. destruct (skipn h ms); reflexivity.
Qed.
Lemma q_all us : forall w ms, q_rel w ms -> Forall q_pure us -> scoped (length ms) us -> q_run n w us = meanings n ms us.
Proof.
  induction us as [|u us IH]; intros w ms R P Sc; [reflexivity|]. inversion P; subst. destruct Sc as [Hh Sc]. cbn [q_run meanings].
  pose proof (q_step w ms u R H1 Hh) as [R' E]. pose proof (meaning_length ms u) as Le.
  destruct (q_use n w u) as [w' r]. destruct (meaning n ms u) as [ms' r']. cbn [fst snd] in *. subst r'. f_equal. apply IH; try assumption. rewrite Le. exact Sc.
Qed.
Lemma q_start_rel ms : q_rel (q_start ms) [fun i j => Csum ms (fun A => A i j)].
Proof.
  unfold q_rel, q_start. cbn [cells qobjs qnames length]. split; [reflexivity|]. split; [intros h H; replace h with 0 by lia; cbn; lia|].
  split.
  - intros i Hi. replace i with 0 by lia. cbn [nth]. unfold ok_refs. rewrite Forall_map, Forall_forall. intros k I. apply in_seq in I. cbn. lia.
  - intros h H. replace h with 0 by lia. intros i j. cbn [nth mat_at]. unfold total. rewrite Csum_map.
    rewrite <- (Csum_map (fun k => deref ms {| cell := k; flip := false |}) (seq 0 (length ms)) (fun A => A i j)). f_equal.
    apply (nth_ext _ _ zero_mat zero_mat); [rewrite map_length, seq_length; reflexivity|]. intros k Hk. rewrite map_length, seq_length in Hk.
    rewrite (nth_indep _ zero_mat (deref ms {| cell := 0; flip := false |})) by (rewrite map_length, seq_length; exact Hk).
    rewrite (map_nth (fun k => deref ms {| cell := k; flip := false |})). rewrite seq_nth by exact Hk. reflexivity.
Qed.

(* ---- exp_op ---- *)
Variable expm : cmat -> cmat.
Hypothesis expm_same : forall A B, same_mat A B -> same_mat (expm A) (expm B).
Hypothesis expm_T : forall A, same_mat (expm (mat_T A)) (mat_T (expm A)).
Hypothesis expm_conj : forall A, same_mat (expm (mat_conj A)) (mat_conj (expm A)).
Lemma exponent_view k o : same_mat (exponent (exp_view k o)) (view_of k (exponent o)).
Proof. intros i j. destruct k; cbn; unfold exponent, mat_scale, mat_T, mat_conj, mat_H; cbn; rewrite ?Cconj_mul; reflexivity. Qed.
Lemma expm_view k A : same_mat (expm (view_of k A)) (view_of k (expm A)).
Proof.
  destruct k; cbn; [apply expm_T|apply expm_conj|]. intros i j. rewrite (expm_same (mat_H A) (mat_T (mat_conj A))) by (intros a b; reflexivity).
  rewrite expm_T. unfold mat_T. rewrite expm_conj. reflexivity.
Qed.
Lemma exp_view_mat k o : same_mat (expm (exponent (exp_view k o))) (view_of k (expm (exponent o))).
Proof. intros i j. rewrite (expm_same _ _ (exponent_view k o)). apply expm_view. Qed.
Definition e_rel (w : exp_world) (ms : list cmat) : Prop :=
  length (enames w) = length ms /\ (forall h, h < length ms -> nth h (enames w) 0 < length (eobjs w)) /\
  (forall h, h < length ms -> same_mat (expm (exponent (nth (nth h (enames w) 0) (eobjs w) expo0))) (mat_at ms h)).
Lemma e_make w ms o A : e_rel w ms -> same_mat (expm (exponent o)) A -> e_rel (new_exp w o) (ms ++ [A]).
Proof.
  intros (L & V & S) HA. unfold e_rel, new_exp. cbn [eobjs enames]. rewrite !app_length. cbn [length]. split; [lia|]. split.
  - intros h Hh. destruct (Nat.eq_dec h (length ms)) as [->|N].
    + rewrite <- L, nth_last. lia.
    + rewrite nth_app_l by lia. specialize (V h). lia.
  - intros h Hh. destruct (Nat.eq_dec h (length ms)) as [->|N].
    + rewrite <- L at 1. rewrite nth_last, nth_last. unfold mat_at. rewrite nth_last. exact HA.
    + assert (h < length ms) by lia. rewrite (nth_app_l (enames w)) by lia. rewrite nth_app_l by (apply V; assumption).
      unfold mat_at. rewrite nth_app_l by assumption. apply S. assumption.
Qed.
Definition e_pure (u : use) : Prop :=
  match u with View Tr true _ | View Ad true _ | Copy _ | Act _ _ | LeftAct _ _ => True | _ => False end.
Lemma e_step w ms u : e_rel w ms -> e_pure u -> name_of u < length ms ->
  e_rel (fst (exp_use n expm w u)) (fst (meaning n ms u)) /\ snd (exp_use n expm w u) = snd (meaning n ms u).
Proof.
  intros R P Hh. pose proof R as (L & V & S). specialize (V _ Hh). specialize (S _ Hh).
  destruct u as [k c h|h|h|c h|h v|h v|h v|h X]; cbn [e_pure] in P; try (destruct k, c); try contradiction; cbn [exp_use meaning name_of] in *; cbn [fst snd].
  - split; [|reflexivity]. apply e_make; [exact R|]. intros i j. rewrite (exp_view_mat Tr). apply (view_same Tr _ _ S).
  - split; [|reflexivity]. apply e_make; [exact R|]. intros i j. rewrite (exp_view_mat Ad). apply (view_same Ad _ _ S).
  - split; [|reflexivity]. apply e_make; assumption.
  - split; [exact R|]. f_equal. apply mat_vec_ext, S.
  - split; [exact R|]. f_equal. apply mat_vec_ext. intros i j. rewrite expm_T. unfold mat_T. apply S.
Qed.
Lemma e_all us : forall w ms, e_rel w ms -> Forall e_pure us -> scoped (length ms) us -> exp_run n expm w us = meanings n ms us.
Proof.
  induction us as [|u us IH]; intros w ms R P Sc; [reflexivity|]. inversion P; subst. destruct Sc as [Hh Sc]. cbn [exp_run meanings].
  pose proof (e_step w ms u R H1 Hh) as [R' E]. pose proof (meaning_length ms u) as Le.
  destruct (exp_use n expm w u) as [w' r]. destruct (meaning n ms u) as [ms' r']. cbn [fst snd] in *. subst r'. f_equal. apply IH; try assumption. rewrite Le. exact Sc.
Qed.
Lemma e_start_rel A a : e_rel (exp_start A a) [expm (mat_scale a A)].
Proof.
  unfold e_rel, exp_start. cbn [eobjs enames length]. split; [reflexivity|]. split; intros h H; replace h with 0 by lia; cbn; [lia|]. intros i j. reflexivity.
Qed.
Lemma table_ext A B : (forall i j, i < n -> j < n -> A i j = B i j) -> table n A = table n B.
Proof. intros H. unfold table. apply tab_ext. intros i Hi. apply tab_ext. intros j Hj. apply H; assumption. Qed.
(* what sandwich returns: E X E+ *)
Lemma sandwich_value o X : table n (mat_T (mat_mul n (expm (mat_T (exponent (exp_view Ad o)))) (mat_T (mat_mul n (expm (exponent o)) (entry X)))))
  = table n (mat_mul n (mat_mul n (expm (exponent o)) (entry X)) (mat_H (expm (exponent o)))).
Proof.
  apply table_ext. intros i j _ _. unfold mat_T at 1. unfold mat_mul at 1. unfold mat_mul at 2. apply Csum_ext. intros k _.
  rewrite expm_T. unfold mat_T at 1. rewrite (exp_view_mat Ad). cbn [view_of]. unfold mat_T. ring.
Qed.

(* ---- quantum_LinearOperator ---- *)
Definition turns_T (u : use) : bool := match u with View Tr _ _ | View Ad _ _ | LeftAct _ _ | AdjAct _ _ => true | _ => false end.
Definition turns_C (u : use) : bool := match u with View Cj _ _ | View Ad _ _ | AdjAct _ _ => true | _ => false end.
Definition parity (f : use -> bool) (us : list use) : bool := fold_left xorb (map f us) false.
Definition l_same (u : use) : Prop := match u with View _ false _ | Act _ _ | LeftAct _ _ | AdjAct _ _ => True | _ => False end.
Definition with_diag (A : cmat) (d : nat -> C) : cmat := fun i j => (A i j + if i =? j then d i else C0)%C.
Lemma lin_matvec_eq o v : lin_matvec n o v = mat_vec n (with_diag (flagged (transposed o) (conjugated o) (off o)) (diag o)) v.
Proof.
  unfold lin_matvec, mat_vec. apply tab_ext. intros i Hi. unfold with_diag.
  symmetry. rewrite (Csum_ext (seq 0 n) _ (fun j => flagged (transposed o) (conjugated o) (off o) i j * nth j v C0 + (if i =? j then diag o i else C0) * nth j v C0)%C).
  2:{ intros j _. ring. }
  rewrite Csum_add. rewrite (Csum_single (seq 0 n) (fun j => (if i =? j then diag o i else C0) * nth j v C0)%C i).
  - rewrite Nat.eqb_refl. ring.
  - apply seq_NoDup.
  - apply in_seq. lia.
  - intros j _ N. replace (i =? j) with false by (symmetry; apply Nat.eqb_neq; auto). ring.
Qed.
Definition l_rel (m : nat) (A : cmat) (d : nat -> C) (t c : bool) (k : nat) (w : lin_world) : Prop :=
  lobjs w = [{| terms := m; off := A; diag := d; transposed := t; conjugated := c |}] /\ lnames w = repeat (Some 0) k.
Lemma repeat_snoc {A} (x : A) k : repeat x k ++ [x] = repeat x (S k).
Proof. induction k as [|k IH]; [reflexivity|]. cbn [repeat app]. rewrite IH. reflexivity. Qed.
Lemma nth_repeat_lt {A} (x y : A) k h : h < k -> nth h (repeat x k) y = x.
Proof. revert h. induction k as [|k IH]; intros h H; [lia|]. destruct h; [reflexivity|]. cbn. apply IH. lia. Qed.
Lemma l_step m A d t c k w u : l_rel m A d t c k w -> l_same u -> name_of u < k ->
  l_rel m A d (xorb t (turns_T u)) (xorb c (turns_C u)) (if names_one u then S k else k) (fst (lin_use n w u)) /\
  (snd (lin_use n w u) = match u with
    | View _ _ _ => Named_
    | Act _ v | LeftAct _ v | AdjAct _ v => VecR (mat_vec n (with_diag (flagged (xorb t (turns_T u)) (xorb c (turns_C u)) A) d) v)
    | _ => Fails end).
Proof.
  intros [E1 E2] P H. unfold lin_use, obj_of. rewrite E2, nth_repeat_lt by exact H. rewrite E1. cbn [nth].
  destruct u as [v cp h|h|h|z h|h v|h v|h v|h X]; cbn [l_same] in P; try contradiction.
  - destruct v, cp; try contradiction; (cbn [fst snd]; split; [|reflexivity]; unfold l_rel, put_obj, name_it; cbn [lobjs lnames]; rewrite E1, E2; cbn [names_one]; rewrite <- repeat_snoc;
    split; [|reflexivity]; destruct t, c; reflexivity).
  - cbn [fst snd turns_T turns_C]. rewrite !xorb_false_r. split; [split; assumption|]. f_equal. apply lin_matvec_eq.
  - cbn [fst snd turns_T turns_C]. rewrite xorb_false_r, xorb_true_r. split.
    + unfold l_rel, put_obj. cbn [lobjs lnames]. rewrite E1, E2. split; reflexivity.
    + f_equal. apply lin_matvec_eq.
  - cbn [fst snd turns_T turns_C]. rewrite !xorb_true_r. split.
    + unfold l_rel, put_obj. cbn [lobjs lnames]. rewrite E1, E2. split; reflexivity.
    + f_equal. apply lin_matvec_eq.
Qed.
Lemma parity_snoc f us u : parity f (us ++ [u]) = xorb (parity f us) (f u).
Proof. unfold parity. rewrite map_app, fold_left_app. reflexivity. Qed.
Lemma parity_cons (f : use -> bool) u us b : fold_left xorb (map f (u :: us)) b = fold_left xorb (map f us) (xorb b (f u)).
Proof. reflexivity. Qed.
Lemma l_all m A d us : forall t c k w u, l_rel m A d t c k w -> Forall l_same (us ++ [u]) -> scoped k (us ++ [u]) ->
  last (lin_run n w (us ++ [u])) Fails = match u with
    | View _ _ _ => Named_
    | Act _ v | LeftAct _ v | AdjAct _ v =>
        VecR (mat_vec n (with_diag (flagged (fold_left xorb (map turns_T (us ++ [u])) t) (fold_left xorb (map turns_C (us ++ [u])) c) A) d) v)
    | _ => Fails end.
Proof.
  induction us as [|u0 us IH]; intros t c k w u R P Sc.
  - cbn [app lin_run] in *. inversion P; subst. destruct Sc as [Hh _]. pose proof (l_step _ _ _ _ _ _ _ _ R H1 Hh) as [_ E].
    destruct (lin_use n w u) as [w' r]. cbn [snd] in E. cbn [last map fold_left]. exact E.
  - cbn [app] in *. inversion P; subst. destruct Sc as [Hh Sc]. cbn [lin_run]. pose proof (l_step _ _ _ _ _ _ _ _ R H1 Hh) as [R' _].
    destruct (lin_use n w u0) as [w' r]. cbn [fst] in R'. specialize (IH _ _ _ _ u R' H2 Sc).
    rewrite !parity_cons. rewrite <- IH. destruct (lin_run n w' (us ++ [u])) eqn:E; [|reflexivity].
    destruct us; cbn [app lin_run] in E; destruct (lin_use n w' _); discriminate.
Qed.
End Laws.
