(* C61: generator and array hold the same states, and evolving twice is evolving for the sum of the times. *)
From Verif Require Import AuxN SpecC SpecExpm SpecLanczos SpecExpect SpecFloquet SpecBlock SpecEd P_floquet P_block P_unique M_edtime C61_edtime.
Local Open Scope nat_scope.

Lemma evolves_exponential n H T v w : evolves n (fun _ => H) T v w <-> exponential n (fun i j => - Ci * H i j)%C T v w.
Proof.
  assert (E : forall (p : vec) k, apply n (fun i j => - Ci * H i j)%C p k = (- Ci * apply n H p k)%C) by (intros p k; unfold apply; rewrite <- Csum_mul_l; apply Csum_ext; intros; ring).
  split; intros (p & P1 & P2); exists p; (split; [|exact P2]); intros s k Hk; [rewrite E|rewrite <- E]; exact (P1 s k Hk).
Qed.

Theorem C61_same_states : forall n H E V psi times l d0 d1 f, 1 < n -> eigenbasis n H E V ->
  ED_state_vs_time (V1 n psi) E (V2 n n V) times true = States l -> ED_state_vs_time (V1 n psi) E (V2 n n V) times false = Arr2 d0 d1 f ->
  d0 = n /\ d1 = length times /\ length l = length times /\ forall k i, k < length times -> i < n -> f i k = nth k l (fun _ => C0) i.
Proof.
  intros n H E V psi times l d0 d1 f Hn B E1 E2. destruct (C61_pure n H E V (V1 n psi) psi times Hn B (or_introl eq_refl)) as [(l' & F1 & L1 & P1) (f' & F2 & P2)].
  rewrite E1 in F1. injection F1 as <-. rewrite E2 in F2. injection F2 as -> -> ->. split; [reflexivity|]. split; [reflexivity|]. split; [exact L1|].
  intros k i Hk Hi. destruct (P1 k Hk) as (w & W1 & W2). rewrite (nth_error_nth l k _ W1). apply evolves_exponential in W2. pose proof (P2 k Hk) as W3. apply evolves_exponential in W3.
  exact (exponential_unique n _ _ _ _ _ W3 W2 i Hi).
Qed.
Print Assumptions C61_same_states.

(* The state after the time s, evolved for the time t, is the state after s + t. *)
Theorem C61_group : forall n H E V psi s t w u, 1 < n -> eigenbasis n H E V ->
  ED_state_vs_time (V1 n psi) E (V2 n n V) [s] true = States [w] -> ED_state_vs_time (V1 n w) E (V2 n n V) [t] true = States [u] ->
  exists u', ED_state_vs_time (V1 n psi) E (V2 n n V) [(s + t)%R] true = States [u'] /\ forall i, i < n -> u' i = u i.
Proof.
  intros n H E V psi s t w u Hn B E1 E2.
  destruct (proj1 (C61_pure n H E V (V1 n psi) psi [s] Hn B (or_introl eq_refl))) as (l1 & F1 & _ & P1). rewrite E1 in F1. injection F1 as <-.
  destruct (proj1 (C61_pure n H E V (V1 n w) w [t] Hn B (or_introl eq_refl))) as (l2 & F2 & _ & P2). rewrite E2 in F2. injection F2 as <-.
  destruct (proj1 (C61_pure n H E V (V1 n psi) psi [(s + t)%R] Hn B (or_introl eq_refl))) as (l3 & F3 & L3 & P3).
  destruct (P1 0 ltac:(cbn; lia)) as (w1 & W1 & Q1). destruct (P2 0 ltac:(cbn; lia)) as (w2 & W2 & Q2). destruct (P3 0 ltac:(cbn; lia)) as (w3 & W3 & Q3).
  cbn [nth_error nth] in *. injection W1 as <-. injection W2 as <-. destruct l3 as [|u' [|x l3]]; try discriminate. injection W3 as <-. exists u'. split; [exact F3|].
  apply evolves_exponential in Q1, Q2, Q3. intros i Hi. exact (exponential_unique n _ _ _ _ _ Q3 (exponential_compose n _ _ _ _ _ _ Q1 Q2) i Hi).
Qed.
Print Assumptions C61_group.

(* sigma_x: both calls return *)
Example C61_agree_meets : exists l d0 d1 f, ED_state_vs_time (V1 2 (unit_vec 0)) [1; -1]%R (V2 2 2 had) [0; 1]%R true = States l /\
  ED_state_vs_time (V1 2 (unit_vec 0)) [1; -1]%R (V2 2 2 had) [0; 1]%R false = Arr2 d0 d1 f /\ exists w u, ED_state_vs_time (V1 2 (unit_vec 0)) [1; -1]%R (V2 2 2 had) [1]%R true = States [w] /\
  ED_state_vs_time (V1 2 w) [1; -1]%R (V2 2 2 had) [2]%R true = States [u].
Proof.
  destruct C61_meets as (_ & B & M).
  destruct (C61_pure 2 flip [1; -1]%R had (V1 2 (unit_vec 0)) (unit_vec 0) [0; 1]%R ltac:(lia) B M) as [(l & F1 & _) (f & F2 & _)].
  destruct (proj1 (C61_pure 2 flip [1; -1]%R had (V1 2 (unit_vec 0)) (unit_vec 0) [1]%R ltac:(lia) B M)) as (l1 & G1 & K1 & _). destruct l1 as [|w [|]]; try discriminate.
  destruct (proj1 (C61_pure 2 flip [1; -1]%R had (V1 2 w) w [2]%R ltac:(lia) B (or_introl eq_refl))) as (l2 & G2 & K2 & _). destruct l2 as [|u [|]]; try discriminate.
  exists l, 2, 2, f. split; [exact F1|]. split; [exact F2|]. exists w, u. split; [exact G1|exact G2].
Qed.
