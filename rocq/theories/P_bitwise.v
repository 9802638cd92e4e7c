(* The array bit operations give the element-wise result in every interleaving. *)
From Verif Require Import AuxN M_bitwise.
Local Open Scope nat_scope.

Lemma nth_set l i v j d : nth j (set_nth l i v) d = if (j =? i) && (i <? length l) then v else nth j l d.
Proof. revert i j. induction l as [|x l IH]; intros [|i] [|j]; cbn; try reflexivity; [rewrite andb_false_r; reflexivity|]. rewrite IH. reflexivity. Qed.
Lemma len_set l i v : length (set_nth l i v) = length l. Proof. revert i. induction l as [|x l IH]; intros [|i]; cbn; auto. Qed.
Section K.
Variables (w : N) (o : bop) (p1 p2 po : nat) (wh : option (list bool)) (inst : list nat) (n : nat) (h0 : heap).
Hypothesis Hi : forall k, k < length inst -> nth k inst 0 < n.
Hypothesis Hn : length (h0 po) = n.
Definition want (i : nat) : N := if on wh i then op_val w o (nth i (h0 p1) 0%N) (nth i (h0 p2) 0%N) else nth i (h0 po) 0%N.
Definition goal (h : heap) : Prop := length (h po) = n /\ (forall i, i < n -> nth i (h po) 0%N = want i) /\ forall q, q <> po -> h q = h0 q.
(* out is a new array: any number of threads *)
Section Fresh.
Hypothesis D1 : po <> p1.
Hypothesis D2 : po <> p2.
Definition inv (t : list act) (s : heap * (nat -> N)) : Prop :=
  let (h, reg) := s in length (h po) = n /\ (forall q, q <> po -> h q = h0 q) /\
  (forall k, In (Load k) t -> on wh (nth k inst 0) = true -> reg k = op_val w o (nth (nth k inst 0) (h0 p1) 0%N) (nth (nth k inst 0) (h0 p2) 0%N)) /\
  (forall i, i < n -> nth i (h po) 0%N = want i \/ nth i (h po) 0%N = nth i (h0 po) 0%N) /\
  (forall k, In (Store k) t -> k < length inst -> nth (nth k inst 0) (h po) 0%N = want (nth k inst 0)).
Lemma inv_step t s a : inv t s -> (forall k, a = Store k -> In (Load k) t /\ k < length inst) -> inv (t ++ [a]) (step w o p1 p2 po wh inst s a).
Proof.
  destruct s as [h reg]. intros (L & Q & R & U & S) Ha. destruct a as [k|k]; cbn [step]; destruct (on wh (nth k inst 0)) eqn:On; cbn [inv].
  - split; [exact L|]. split; [exact Q|]. split; [|split; [exact U|]].
    + intros j I Oj. destruct (Nat.eqb_spec j k) as [-> |D]; [rewrite !Q by congruence; reflexivity|]. apply R; [|exact Oj]. apply in_app_or in I. destruct I as [I|[I|[]]]; [exact I|congruence].
    + intros j I Hj. apply S; [|exact Hj]. apply in_app_or in I. destruct I as [I|[I|[]]]; [exact I|discriminate].
  - split; [exact L|]. split; [exact Q|]. split; [|split; [exact U|]].
    + intros j I Oj. apply R; [|exact Oj]. apply in_app_or in I. destruct I as [I|[I|[]]]; [exact I|congruence].
    + intros j I Hj. apply S; [|exact Hj]. apply in_app_or in I. destruct I as [I|[I|[]]]; [exact I|discriminate].
  - destruct (Ha k eq_refl) as [Il Lk]. pose proof (R k Il On) as Rk. assert (W : reg k = want (nth k inst 0)) by (unfold want; rewrite On; exact Rk). pose proof (Hi k Lk) as Hk.
    unfold set_arr. rewrite Nat.eqb_refl. split; [rewrite len_set; exact L|]. split; [|split; [|split]].
    + intros q D. rewrite (proj2 (Nat.eqb_neq _ _) D). apply Q, D.
    + intros j I Oj. apply R; [|exact Oj]. apply in_app_or in I. destruct I as [I|[I|[]]]; [exact I|discriminate].
    + intros i Hin. rewrite nth_set, L. destruct (Nat.eqb_spec i (nth k inst 0)) as [-> |D]; cbn [andb]; [rewrite (proj2 (Nat.ltb_lt _ _) Hk); left; exact W|apply U, Hin].
    + intros j I Hj. rewrite nth_set, L. destruct (Nat.eqb_spec (nth j inst 0) (nth k inst 0)) as [E|D]; cbn [andb]; [rewrite (proj2 (Nat.ltb_lt _ _) Hk), E; exact W|]. apply S; [|exact Hj]. apply in_app_or in I. destruct I as [I|[I|[]]]; [exact I|]. injection I as <-. contradiction.
  - split; [exact L|]. split; [exact Q|]. split; [|split; [exact U|]].
    + intros j I Oj. apply R; [|exact Oj]. apply in_app_or in I. destruct I as [I|[I|[]]]; [exact I|discriminate].
    + intros j I Hj. apply in_app_or in I. destruct I as [I|[I|[]]]; [apply S; assumption|]. injection I as <-. pose proof (Hi k Hj) as Hk. destruct (U (nth k inst 0) Hk) as [E|E]; [exact E|]. rewrite E. unfold want. rewrite On. reflexivity.
Qed.
Lemma inv_run t : (forall t1 t2 k, t = t1 ++ Store k :: t2 -> In (Load k) t1 /\ k < length inst) -> forall reg, inv t (run w o p1 p2 po wh inst t (h0, reg)).
Proof.
  induction t as [|a t IH] using rev_ind; intros Ht reg.
  - unfold run. cbn [fold_left inv]. split; [exact Hn|]. split; [auto|]. split; [intros k []|]. split; [auto|intros k []].
  - unfold run. rewrite fold_left_app. cbn [fold_left]. apply inv_step.
    + apply IH. intros t1 t2 k E. apply (Ht t1 (t2 ++ [a]) k). rewrite E, <- app_assoc. reflexivity.
    + intros k ->. apply (Ht t [] k). reflexivity.
Qed.
Lemma fresh_ok t reg : (forall i, i < n -> In i inst) -> execution inst t -> goal (fst (run w o p1 p2 po wh inst t (h0, reg))).
Proof.
  intros Cov (ND & A & Bf). assert (I := inv_run t). assert (Pre : forall t1 t2 k, t = t1 ++ Store k :: t2 -> In (Load k) t1 /\ k < length inst).
  { intros t1 t2 k E. split; [apply (Bf t1 t2 k E)|]. assert (IS : In (Store k) t) by (rewrite E; apply in_or_app; right; left; reflexivity). apply A in IS. destruct IS as (k' & Hk & [E'|E']); [discriminate|injection E' as <-; exact Hk]. }
  specialize (I Pre reg). destruct (run w o p1 p2 po wh inst t (h0, reg)) as [h r]. destruct I as (L & Q & _ & _ & S). cbn [fst]. split; [exact L|]. split; [|exact Q].
  intros i Hin. destruct (In_nth inst i 0 (Cov i Hin)) as (k & Hk & E). rewrite <- E. apply S; [|exact Hk]. apply A. exists k. auto.
Qed.
End Fresh.
(* every element is handled once: out may be one of the inputs *)
Hypothesis N1 : length (h0 p1) = n.
Definition inv1 (t : list act) (s : heap * (nat -> N)) : Prop :=
  let (h, reg) := s in length (h po) = n /\ (forall q, q <> po -> h q = h0 q) /\
  (forall k, In (Load k) t -> on wh (nth k inst 0) = true -> reg k = op_val w o (nth (nth k inst 0) (h0 p1) 0%N) (nth (nth k inst 0) (h0 p2) 0%N)) /\
  (forall k, k < length inst -> ~ In (Store k) t -> nth (nth k inst 0) (h po) 0%N = nth (nth k inst 0) (h0 po) 0%N) /\
  (forall k, In (Store k) t -> k < length inst -> nth (nth k inst 0) (h po) 0%N = want (nth k inst 0)).
Hypothesis ND : NoDup inst.
Lemma idx_inj j k : j < length inst -> k < length inst -> nth j inst 0 = nth k inst 0 -> j = k. Proof. intros Hj Hk E. apply (proj1 (NoDup_nth inst 0) ND j k Hj Hk E). Qed.
Lemma inv1_step t s a : inv1 t s -> ~ In a t -> (forall k, a = Load k -> k < length inst /\ ~ In (Store k) t) -> (forall k, a = Store k -> In (Load k) t /\ k < length inst) -> inv1 (t ++ [a]) (step w o p1 p2 po wh inst s a).
Proof.
  destruct s as [h reg]. intros (L & Q & R & U & S) Na Hl Hs. destruct a as [k|k]; cbn [step]; destruct (on wh (nth k inst 0)) eqn:On; cbn [inv1].
  - destruct (Hl k eq_refl) as [Lk NS]. split; [exact L|]. split; [exact Q|]. split; [|split].
    + intros j I Oj. destruct (Nat.eqb_spec j k) as [-> |D]; [|apply R; [|exact Oj]; apply in_app_or in I; destruct I as [I|[I|[]]]; [exact I|congruence]].
      assert (G : forall p, nth (nth k inst 0) (h p) 0%N = nth (nth k inst 0) (h0 p) 0%N) by (intros p; destruct (Nat.eq_dec p po) as [-> |Dp]; [apply U; assumption|rewrite Q by exact Dp; reflexivity]). rewrite !G. reflexivity.
    + intros j Hj NI. apply U; [exact Hj|]. intros I. apply NI, in_or_app. left. exact I.
    + intros j I Hj. apply S; [|exact Hj]. apply in_app_or in I. destruct I as [I|[I|[]]]; [exact I|discriminate].
  - split; [exact L|]. split; [exact Q|]. split; [|split].
    + intros j I Oj. apply R; [|exact Oj]. apply in_app_or in I. destruct I as [I|[I|[]]]; [exact I|congruence].
    + intros j Hj NI. apply U; [exact Hj|]. intros I. apply NI, in_or_app. left. exact I.
    + intros j I Hj. apply S; [|exact Hj]. apply in_app_or in I. destruct I as [I|[I|[]]]; [exact I|discriminate].
  - destruct (Hs k eq_refl) as [Il Lk]. pose proof (R k Il On) as Rk. assert (W : reg k = want (nth k inst 0)) by (unfold want; rewrite On; exact Rk). pose proof (Hi k Lk) as Hk.
    unfold set_arr. rewrite Nat.eqb_refl. split; [rewrite len_set; exact L|]. split; [|split; [|split]].
    + intros q D. rewrite (proj2 (Nat.eqb_neq _ _) D). apply Q, D.
    + intros j I Oj. apply R; [|exact Oj]. apply in_app_or in I. destruct I as [I|[I|[]]]; [exact I|discriminate].
    + intros j Hj NI. rewrite nth_set, L. destruct (Nat.eqb_spec (nth j inst 0) (nth k inst 0)) as [E|D]; cbn [andb].
      * apply idx_inj in E; [|exact Hj|exact Lk]. subst j. exfalso. apply NI, in_or_app. right. left. reflexivity.
      * apply U; [exact Hj|]. intros I. apply NI, in_or_app. left. exact I.
    + intros j I Hj. rewrite nth_set, L. destruct (Nat.eqb_spec (nth j inst 0) (nth k inst 0)) as [E|D]; cbn [andb]; [rewrite (proj2 (Nat.ltb_lt _ _) Hk), E; exact W|]. apply S; [|exact Hj]. apply in_app_or in I. destruct I as [I|[I|[]]]; [exact I|]. injection I as <-. contradiction.
  - destruct (Hs k eq_refl) as [Il Lk]. split; [exact L|]. split; [exact Q|]. split; [|split].
    + intros j I Oj. apply R; [|exact Oj]. apply in_app_or in I. destruct I as [I|[I|[]]]; [exact I|discriminate].
    + intros j Hj NI. apply U; [exact Hj|]. intros I. apply NI, in_or_app. left. exact I.
    + intros j I Hj. apply in_app_or in I. destruct I as [I|[I|[]]]; [apply S; assumption|]. injection I as <-. rewrite (U k Hj Na). unfold want. rewrite On. reflexivity.
Qed.
Lemma once_ok t reg : (forall i, i < n -> In i inst) -> execution inst t -> goal (fst (run w o p1 p2 po wh inst t (h0, reg))).
Proof.
  intros Cov (NDt & A & Bf).
  assert (G : forall t1 t2, t = t1 ++ t2 -> inv1 t1 (run w o p1 p2 po wh inst t1 (h0, reg))).
  { intros t1. induction t1 as [|a t1 IH] using rev_ind; intros t2 E.
    - unfold run. cbn [fold_left inv1]. split; [exact Hn|]. split; [auto|]. split; [intros k []|]. split; [auto|intros k []].
    - rewrite <- app_assoc in E. cbn [app] in E. unfold run. rewrite fold_left_app. cbn [fold_left]. assert (Ia : In a t) by (rewrite E; apply in_or_app; right; left; reflexivity). pose proof NDt as NDt'. rewrite E in NDt'.
      assert (Na : ~ In a t1) by (intros I; apply NoDup_remove_2 in NDt'; apply NDt', in_or_app; left; exact I).
      apply inv1_step; [apply (IH (a :: t2) E)|exact Na| |].
      + intros k ->. apply A in Ia. destruct Ia as (k' & Hk & [E'|E']); [injection E' as <-|discriminate]. split; [exact Hk|]. intros I. destruct (in_split _ _ I) as (u & v & Ev). apply Na. rewrite Ev. apply in_or_app. left. apply (Bf u (v ++ Load k :: t2) k). rewrite E, Ev, <- app_assoc. reflexivity.
      + intros k ->. split; [apply (Bf t1 t2 k E)|]. apply A in Ia. destruct Ia as (k' & Hk & [E'|E']); [discriminate|injection E' as <-; exact Hk]. }
  specialize (G t [] ltac:(rewrite app_nil_r; reflexivity)). destruct (run w o p1 p2 po wh inst t (h0, reg)) as [h r]. destruct G as (L & Q & _ & _ & S). cbn [fst]. split; [exact L|]. split; [|exact Q].
  intros i Hin. destruct (In_nth inst i 0 (Cov i Hin)) as (k & Hk & E). rewrite <- E. apply S; [|exact Hk]. apply A. exists k. auto.
Qed.
End K.
Lemma inst_in threads n i : 1 <= threads -> i < n -> In i (instances threads n).
Proof. intros H Hi. unfold instances. apply in_concat. exists (seq 0 n). split; [destruct threads; [lia|left; reflexivity]|apply in_seq; lia]. Qed.
Lemma inst_lt threads n k : k < length (instances threads n) -> nth k (instances threads n) 0 < n.
Proof. intros H. pose proof (nth_In _ 0 H) as I. unfold instances in I at 2. apply in_concat in I. destruct I as (l & Il & I). apply repeat_spec in Il. subst l. apply in_seq in I. lia. Qed.
