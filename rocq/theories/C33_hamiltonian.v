(* C33 for hamiltonian: after any history of transposes, conjugates, adjoints and copies of one operator and of the operators made from it,
   with or without copy=True, every operator has at every time the matrix its name stands for.
   hwf h s A: the matrices of A are distinct arrays of s, its coefficient functions are hashable and pairwise different. *)
From Verif Require Import AuxN SpecC SpecExpm SpecFunc SpecHam SpecPars SpecViews M_func P_func M_ham P_ham P_ham2 P_ham3 P_ham4 P_ham5 P_ham6 M_hamviews C31_Functions.
Local Open Scope nat_scope.

Definition takes_view (u : use) : Prop := match u with View _ _ _ | Copy _ => True | _ => False end.
(* the matrices the names stand for after the steps us *)
Fixpoint names_after (n : nat) (ms : list cmat) (us : list use) : list cmat :=
  match us with [] => ms | u :: us' => names_after n (fst (meaning n ms u)) us' end.

Section Proofs.
Variables (n : nat) (F Args : Type) (call : F -> Args -> R -> C) (h : hashing F Args).
Hypothesis NC : no_collision h.
Definition plain (A : ham F Args) : Prop := forall e, In e (dyn A) -> exists f a, fst e = Fun f a \/ fst e = Conj (Fun f a).
Lemma plain_simple A : plain A -> forall e, In e (dyn A) -> simple (fst e).
Proof. intros P e I. destruct (P e I) as (f & a & [-> | ->]); exact Logic.I. Qed.
Lemma simple_plain A : (forall e, In e (dyn A) -> simple (fst e)) -> plain A.
Proof. intros S e I. specialize (S e I). destruct (fst e) as [f a|? ?|[f a|? ?|?|? ?]|? ?]; destruct S; exists f, a; auto. Qed.
Lemma keys_simple (d d' : list (fn F Args * ref)) : map fst d' = map fst d -> (forall e, In e d -> simple (fst e)) -> forall e, In e d' -> simple (fst e).
Proof. intros E S e I. apply (in_map fst) in I. rewrite E in I. apply in_map_iff in I. destruct I as (e' & E' & I). rewrite <- E'. apply S, I. Qed.
Definition made (s s' : store) (v : cmat -> cmat) (A H : ham F Args) : Prop :=
  hwf h s' H /\ plain H /\ frame s s' [] /\ forall t i j, at_time call s' H t i j = v (at_time call s A t) i j.
Lemma transpose_made s A copy : hwf h s A -> plain A -> wp (transpose F Args h copy A) s (fun s' H => made s s' mat_T A H).
Proof.
  intros W P. destruct copy.
  - eapply wp_mono; [apply (transpose_copy_ok n call h s A W)|]. intros s' H [(W' & Fr & _ & V) K]. split; [exact W'|]. split; [|split; [exact Fr|exact V]].
    apply simple_plain. exact (keys_simple _ _ K (plain_simple A P)).
  - eapply wp_mono; [apply (transpose_share_ok n call h s A W)|]. intros s' H (W' & Fr & D & _ & _ & V). split; [exact W'|]. split; [|split; [exact Fr|exact V]].
    apply simple_plain. rewrite D. exact (keys_simple _ _ (flip_keys _) (plain_simple A P)).
Qed.
Lemma conjugate_made s A : hwf h s A -> plain A -> wp (conjugate F Args h A) s (fun s' H => made s s' mat_conj A H).
Proof.
  intros W P. eapply wp_mono; [apply (conjugate_ok' n 0%R call h NC s A W (plain_simple A P))|]. intros s' H [(W' & Fr & _ & V) S].
  split; [exact W'|]. split; [apply simple_plain, S|split; [exact Fr|exact V]].
Qed.
Lemma getH_made s A copy : hwf h s A -> plain A -> wp (getH F Args h copy A) s (fun s' H => made s s' mat_H A H).
Proof.
  intros W P. unfold getH. apply wp_bind. eapply wp_mono; [apply conjugate_made; assumption|]. intros s1 H1 (W1 & P1 & Fr1 & V1).
  eapply wp_mono; [apply transpose_made; assumption|]. intros s2 H2 (W2 & P2 & Fr2 & V2). split; [exact W2|]. split; [exact P2|].
  split; [eapply frame_trans; [exact Fr1|exact Fr2|intros ? []]|]. intros t i j. rewrite V2. unfold mat_T. rewrite V1. reflexivity.
Qed.
Lemma copy_made s A : hwf h s A -> plain A -> wp (copy_ham F Args h A) s (fun s' H => made s s' (fun M => M) A H).
Proof.
  intros W P. assert (W0 := W). destruct W0 as (N & L & K). unfold copy_ham. eapply wp_mono; [apply (wp_make_true n h s (static A) (dyn A) K)|].
  - apply L; left; reflexivity.
  - intros b I. apply L. right; exact I.
  - intros s' H (Fr & G & W' & B & M). split; [exact W'|]. split; [|split; [exact Fr|]].
    + apply simple_plain. exact (keys_simple _ _ (keys_mapped _ _ _ _ _ M) (plain_simple A P)).
    + intros t i j. rewrite !at_time_eq, G, (dval_mapped call _ _ _ _ _ t i j M). reflexivity.
Qed.
Definition h_rel (s : store) (hs : list (ham F Args)) (ms : R -> list cmat) : Prop :=
  forall k A, nth_error hs k = Some A -> hwf h s A /\ plain A /\ forall t i j, at_time call s A t i j = mat_at (ms t) k i j.
Lemma h_views us : forall s hs ms, h_rel s hs ms -> (forall t, length (ms t) = length hs) -> Forall takes_view us -> scoped (length hs) us ->
  wp (ham_views F Args h hs us) s (fun s' hs' => h_rel s' hs' (fun t => names_after n (ms t) us) /\ length hs' = length hs + length us /\ frame s s' []).
Proof.
  induction us as [|u us IH]; intros s hs ms R L P S.
  - apply wp_ret. split; [exact R|]. split; [cbn; lia|split; [lia|reflexivity]].
  - inversion P as [|x y Pu P']; subst. destruct S as [Su S'].
    assert (NO : names_one u = true) by (destruct u; try destruct Pu; reflexivity). rewrite NO in S'.
    destruct (nth_error hs (name_of u)) as [A|] eqn:EA; [|apply nth_error_None in EA; lia].
    destruct (R _ _ EA) as (WA & PA & VA).
    set (v := match u with View k _ _ => SpecViews.view_of k | _ => fun M => M end).
    assert (ST : wp (ham_view F Args h hs u) s (fun s' H => made s s' v A H)).
    { unfold ham_view. rewrite EA. destruct u as [k c hd|hd|hd|cc hd|hd w|hd w|hd w|hd X]; try destruct Pu.
      - destruct k; [apply transpose_made|apply conjugate_made|apply getH_made]; assumption.
      - apply copy_made; assumption. }
    cbn [ham_views]. apply wp_bind. eapply wp_mono; [exact ST|]. intros s1 H (W1 & P1 & Fr1 & V1).
    assert (ME : forall M, fst (meaning n M u) = M ++ [v (mat_at M (name_of u))]) by (intros M; destruct u; try destruct Pu; reflexivity).
    eapply wp_mono; [apply (IH s1 (hs ++ [H]) (fun t => fst (meaning n (ms t) u)))|].
    + intros k B EB. destruct (Nat.lt_ge_cases k (length hs)) as [Lk|Lk].
      * rewrite nth_error_app1 in EB by exact Lk. destruct (R _ _ EB) as (WB & PB & VB). split; [eapply hwf_frame; [exact Fr1|exact WB]|]. split; [exact PB|].
        intros t i j. rewrite (other_time call h s s1 B t i j Fr1 WB), VB, ME. unfold mat_at. rewrite app_nth1 by (rewrite L; exact Lk). reflexivity.
      * rewrite nth_error_app2 in EB by exact Lk. destruct (k - length hs) as [|q] eqn:Eq; [|destruct q; discriminate EB]. injection EB as <-.
        split; [exact W1|]. split; [exact P1|]. intros t i j. rewrite V1, ME. unfold mat_at at 1. rewrite app_nth2 by (rewrite L; lia).
        rewrite L. replace (k - length hs) with 0 by lia. cbn [nth].
        unfold v. destruct u as [[| |] c hd|hd|hd|cc hd|hd w|hd w|hd w|hd X]; try destruct Pu; cbn [SpecViews.view_of]; unfold mat_T, mat_conj, mat_H; rewrite VA; reflexivity.
    + intros t. rewrite ME, !app_length, L. reflexivity.
    + exact P'.
    + rewrite app_length. cbn. replace (length hs + 1) with (S (length hs)) by lia. exact S'.
    + intros s2 hs2 (R2 & L2 & Fr2). split; [exact R2|]. split; [rewrite L2, app_length; cbn; lia|]. eapply frame_trans; [exact Fr1|exact Fr2|intros ? []].
Qed.
End Proofs.

Theorem C33_hamiltonian_partial : forall n F Args (call : F -> Args -> R -> C) (h : hashing F Args) s A us,
  no_collision h -> hwf h s A -> (forall e, In e (dyn A) -> exists f a, fst e = Fun f a \/ fst e = Conj (Fun f a)) ->
  Forall takes_view us -> scoped 1 us ->
  exists s' hs, ham_views F Args h [A] us s = Some (s', hs) /\ length hs = 1 + length us /\
    forall k H, nth_error hs k = Some H -> forall t i j, at_time call s' H t i j = mat_at (names_after n [at_time call s A t] us) k i j.
Proof.
  intros n F Args call h s A us NC W P V S.
  destruct (wp_run _ _ _ (h_views n F Args call h NC us s [A] (fun t => [at_time call s A t])
    ltac:(intros [|[|k]] B E; cbn in E; try discriminate E; injection E as <-; split; [exact W|split; [exact P|reflexivity]]) ltac:(reflexivity) V S))
    as (s' & hs & E & R & L & _).
  exists s', hs. split; [exact E|]. split; [exact L|]. intros k H EH. apply (R k H EH).
Qed.
Print Assumptions C33_hamiltonian_partial.

Example C33_hyps_ham : Forall takes_view [View Tr false 0; View Ad true 1; Copy 0; View Cj false 3; View Ad false 4] /\
  scoped 1 [View Tr false 0; View Ad true 1; Copy 0; View Cj false 3; View Ad false 4].
Proof. split; [repeat constructor|cbn; lia]. Qed.
