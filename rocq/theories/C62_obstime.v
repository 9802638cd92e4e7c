(* C62: expectation values along an evolution (obs_vs_time). *)
From Verif Require Import AuxN SpecC SpecExpm SpecLanczos SpecExpect SpecFloquet SpecEd M_edtime C61_edtime M_expect P_expect C45_expect M_obstime.
Local Open Scope nat_scope.

(* the mean of H(t) in the state S k at the time t = times[k], for all k *)
Definition means (n : nat) (H : operator) (times : list R) (S : nat -> state) : list C :=
  map (fun k => mean n (at_time H (nth k times 0%R)) (S k)) (seq 0 (length times)).
(* the numbers in the result for one observable: one for each time *)
Definition series_is (s : series) (zs : list C) : Prop := match s with
  | Once r => values r = Some zs
  | Each l => map values l = map (fun z => Some [z]) zs
  end.
(* the array holds the states: vectors as columns, matrices along the last axis *)
Definition holds_states (n : nat) (times : list R) (S : nat -> state) (a : array) : Prop :=
  forall k, k < length times -> match S k with
    | Ket v => exists f, a = V2 n (length times) f /\ forall i, i < n -> f i k = v i
    | Density r => exists f, a = V3 n n (length times) f /\ forall i j, i < n -> j < n -> f i j k = r i j
    end.
(* every observable has its means; the states are returned if they were asked for *)
Definition observes (n : nat) (obs : list operator) (times : list R) (S : nat -> state) (ret : bool) (out : outcome) : Prop :=
  exists vals st, out = Gives vals st /\ Forall2 (fun H s => series_is s (means n H times S)) obs vals /\
    (if ret then exists a, st = Some a /\ holds_states n times S a else st = None).
Definition state_array (n : nat) (s : state) : array := match s with Ket v => V1 n v | Density r => V2 n n r end.
Definition same_kind (S : nat -> state) : Prop := (exists v, forall k, S k = Ket (v k)) \/ (exists r, forall k, S k = Density (r k)).

Lemma existsb_map {X Y} (f : Y -> bool) (g : X -> Y) : forall l, existsb f (map g l) = existsb (fun x => f (g x)) l.
Proof. induction l as [|x l IH]; [reflexivity|]. cbn. now rewrite IH. Qed.
Lemma values_raises r l : values r = Some l -> raises r = false.
Proof. destruct r; cbn; congruence. Qed.
Lemma mean_ket n A v w : (forall i, i < n -> v i = w i) -> mean n A (Ket v) = mean n A (Ket w).
Proof.
  intro E. cbn [mean]. apply inner_ext; [exact E|]. intros i _. apply Csum_ext. intros j Hj. apply in_seq in Hj. now rewrite E by lia.
Qed.
Lemma mean_density n A r s : (forall i j, i < n -> j < n -> r i j = s i j) -> mean n A (Density r) = mean n A (Density s).
Proof.
  intro E. cbn [mean]. unfold tr, mul. apply Csum_ext. intros i Hi. apply Csum_ext. intros k Hk. apply in_seq in Hi, Hk. now rewrite E by lia.
Qed.

Lemma at_once_right n obs times S pure a st : 2 <= n -> (forall H, In H obs -> Ns H = n) -> 0 < length times -> holds_states n times S a ->
  exists vals, at_once obs a times pure st = Gives vals st /\ Forall2 (fun H s => series_is s (means n H times S)) obs vals.
Proof.
  intros Hn HO HT HS.
  assert (V : forall H, In H obs -> values (expt_value H (Times times) pure a) = Some (means n H times S)).
  { intros H HH. assert (HNs := HO H HH).
    assert (HD : handled (Ns H) (Times times) pure a).
    { pose proof (HS 0 HT) as H0. destruct (S 0); destruct H0 as (f & -> & _); cbn; auto. }
    rewrite (C45_expt_value H (Times times) pure a) by (try assumption; lia). f_equal. unfold means. rewrite HNs.
    pose proof (HS 0 HT) as H0. destruct (S 0); destruct H0 as (f & Ea & _); subst a; cbn [interpret]; rewrite map_map; apply map_ext_in; intros k Hk; apply in_seq in Hk; cbn [fst snd]; pose proof (HS k ltac:(lia)) as Q; destruct (S k); destruct Q as (g & Eg & Q); try discriminate; injection Eg as <-.
    - apply mean_ket. exact Q.
    - apply mean_density. exact Q. }
  exists (map Once (map (fun H => expt_value H (Times times) pure a) obs)). split.
  - unfold at_once. replace (existsb raises (map (fun H => expt_value H (Times times) pure a) obs)) with false; [reflexivity|].
    symmetry. rewrite existsb_map. clear -V. induction obs as [|H obs IH]; [reflexivity|]. cbn [existsb]. rewrite (values_raises _ _ (V H (or_introl eq_refl))), IH; [reflexivity|]. intros; apply V; now right.
  - rewrite map_map. clear -V. induction obs as [|H obs IH]; [constructor|]. cbn [map]. constructor; [apply V; now left|]. apply IH. intros; apply V; now right.
Qed.

Lemma combine_seq {X} (g : nat -> X) : forall ts b, combine ts (map g (seq b (length ts))) = map (fun k => (nth (k - b) ts 0%R, g k)) (seq b (length ts)).
Proof.
  induction ts as [|t ts IH]; intro b; [reflexivity|]. cbn [length seq map combine]. rewrite Nat.sub_diag. cbn [nth]. f_equal. rewrite IH.
  apply map_ext_in. intros k Hk. apply in_seq in Hk. f_equal. replace (k - b) with (S (k - S b)) by lia. reflexivity.
Qed.
Lemma along_right n obs times S : 2 <= n -> (forall H, In H obs -> Ns H = n) -> 0 < length times ->
  exists vals, along obs (map (fun k => state_array n (S k)) (seq 0 (length times))) times = Gives vals None /\ Forall2 (fun H s => series_is s (means n H times S)) obs vals.
Proof.
  intros Hn HO HT. set (l := map (fun k => state_array n (S k)) (seq 0 (length times))).
  assert (V : forall H, In H obs -> map values (map (fun p => expt_value H (At (fst p)) false (snd p)) (combine times l)) = map (fun z => Some [z]) (means n H times S)).
  { intros H HH. assert (HNs := HO H HH). unfold l, means. rewrite combine_seq, !map_map. apply map_ext. intro k. cbn [fst snd]. rewrite Nat.sub_0_r.
    rewrite (C45_expt_value H (At (nth k times 0%R)) false (state_array n (S k))); [|lia|destruct (S k); cbn; congruence]. rewrite HNs.
    destruct (S k); cbn [state_array interpret]; [reflexivity|]. rewrite Nat.eqb_refl. reflexivity. }
  exists (map Each (map (fun H => map (fun p => expt_value H (At (fst p)) false (snd p)) (combine times l)) obs)). split.
  - unfold along. assert (HL : length l = length times) by (unfold l; now rewrite map_length, seq_length).
    destruct l as [|x l'] eqn:El; [cbn in HL; lia|]. rewrite <- El in *. rewrite HL, Nat.ltb_irrefl.
    replace (existsb (existsb raises) _) with false; [reflexivity|]. symmetry. rewrite existsb_map. clear -V. induction obs as [|H obs IH]; [reflexivity|]. cbn [existsb].
    rewrite IH by (intros; apply V; now right). rewrite orb_false_r. pose proof (V H (or_introl eq_refl)) as Q. revert Q. generalize (means n H times S). generalize (map (fun p => expt_value H (At (fst p)) false (snd p)) (combine times l)).
    induction l0 as [|r l0 IH2]; intros [|z zs] Q; try reflexivity; try discriminate. cbn [map] in Q. injection Q as Q1 Q2. cbn [existsb]. rewrite (values_raises _ _ Q1). exact (IH2 _ Q2).
  - rewrite map_map. clear -V. induction obs as [|H obs IH]; [constructor|]. cbn [map]. constructor; [apply V; now left|]. apply IH. intros; apply V; now right.
Qed.

Lemma rows_fit n obs m : (forall H, In H obs -> Ns H = n) -> m = n -> forallb (fun H => m =? Ns H) obs = true.
Proof. intros HO ->. apply forallb_forall. intros H HH. rewrite (HO H HH). apply Nat.eqb_refl. Qed.

(* An array with the states along its last axis. *)
Theorem C62_array : forall n obs times S a ret pure, 2 <= n -> (forall H, In H obs -> Ns H = n) -> 0 < length times -> holds_states n times S a ->
  observes n obs times S ret (obs_vs_time (Whole a) times obs ret pure).
Proof.
  intros n obs times S a ret pure Hn HO HT HS. cbn [obs_vs_time].
  rewrite (rows_fit n obs (rows a) HO) by (pose proof (HS 0 HT) as Q; destruct (S 0); destruct Q as (f & -> & _); reflexivity). cbn [negb].
  destruct (at_once_right n obs times S pure a (if ret then Some a else None) Hn HO HT HS) as (vals & E & F). exists vals, (if ret then Some a else None).
  split; [exact E|]. split; [exact F|]. destruct ret; [|reflexivity]. exists a. split; [reflexivity|exact HS].
Qed.
Print Assumptions C62_array.

Lemma nth_states n (S : nat -> state) m k d : k < m -> nth k (map (fun k => state_array n (S k)) (seq 0 m)) d = state_array n (S k).
Proof.
  intro Hk. rewrite (nth_indep _ d ((fun k => state_array n (S k)) 0)) by (rewrite map_length, seq_length; exact Hk).
  rewrite (map_nth (fun k => state_array n (S k))), seq_nth by exact Hk. reflexivity.
Qed.
Lemma stacked_right n (S : nat -> state) times : 2 <= n -> 2 <= length times -> same_kind S ->
  exists a, stacked (map (fun k => state_array n (S k)) (seq 0 (length times))) = Some a /\ holds_states n times S a /\ rows a = n.
Proof.
  intros Hn HT K. set (l := map (fun k => state_array n (S k)) (seq 0 (length times))).
  assert (HL : length l = length times) by (unfold l; now rewrite map_length, seq_length).
  assert (E1 : (n =? 1) = false) by (apply Nat.eqb_neq; lia). assert (E2 : (length times =? 1) = false) by (apply Nat.eqb_neq; lia).
  assert (HF : forall P, (forall k, P (state_array n (S k)) = true) -> forallb P l = true).
  { intros P HP. apply forallb_forall. intros x Hx. apply in_map_iff in Hx. destruct Hx as (k & <- & _). apply HP. }
  assert (HH : exists l', l = state_array n (S 0) :: l') by (unfold l; destruct (length times); [lia|]; eexists; reflexivity).
  destruct HH as (l' & El). unfold stacked, dstack. destruct K as [(v & K)|(r & K)].
  - assert (Q : match l with V1 r _ :: _ => r = n | _ => False end) by (rewrite El, K; reflexivity).
    destruct l as [|[r0 f0| | |] l0] eqn:El2; try contradiction. subst r0. rewrite <- El2 in *. rewrite HF by (intro k; rewrite K; apply Nat.eqb_refl).
    rewrite HL. cbn [M_edtime.squeeze Nat.eqb]. unfold squeeze2. rewrite E1, E2. cbn [squeezed_array]. eexists. split; [reflexivity|]. split; [|reflexivity].
    intros k Hk. rewrite K. eexists. split; [reflexivity|]. intros i _. cbn beta. unfold l. rewrite nth_states by exact Hk. now rewrite K.
  - assert (Q : match l with V2 r c _ :: _ => r = n /\ c = n | _ => False end) by (rewrite El, K; split; reflexivity).
    destruct l as [|[|r0 c0 f0| |] l0] eqn:El2; try contradiction. destruct Q as [-> ->]. rewrite <- El2 in *. rewrite HF by (intro k; rewrite K; cbn; now rewrite Nat.eqb_refl).
    rewrite HL. cbn [M_edtime.squeeze]. rewrite E1, E2. cbn [squeezed_array]. eexists. split; [reflexivity|]. split; [|reflexivity].
    intros k Hk. rewrite K. eexists. split; [reflexivity|]. intros i j _ _. cbn beta. unfold l. rewrite nth_states by exact Hk. now rewrite K.
Qed.

(* A generator that yields a state for each time; with return_state at least two times. *)
Theorem C62_generator : forall n obs times S ret pure, 2 <= n -> (forall H, In H obs -> Ns H = n) -> 0 < length times -> same_kind S -> (ret = true -> 2 <= length times) ->
  observes n obs times S ret (obs_vs_time (Generator (map (fun k => state_array n (S k)) (seq 0 (length times)))) times obs ret pure).
Proof.
  intros n obs times S ret pure Hn HO HT HK HR. cbn [obs_vs_time]. destruct ret.
  - destruct (stacked_right n S times Hn (HR eq_refl) HK) as (a & -> & HS & Ha). rewrite (rows_fit n obs (rows a) HO Ha). cbn [negb].
    destruct (at_once_right n obs times S pure a (Some a) Hn HO HT HS) as (vals & E & F). exists vals, (Some a). split; [exact E|]. split; [exact F|]. exists a. split; [reflexivity|exact HS].
  - destruct (along_right n obs times S Hn HO HT) as (vals & E & F). exists vals, None. split; [exact E|]. split; [exact F|reflexivity].
Qed.
Print Assumptions C62_generator.

Lemma list_seq {X} (d : X) : forall l, l = map (fun k => nth k l d) (seq 0 (length l)).
Proof.
  induction l as [|x l IH]; [reflexivity|]. cbn [length seq map nth]. f_equal. rewrite IH at 1. rewrite <- seq_shift, map_map. reflexivity.
Qed.
Lemma shapes_fit n obs V : (forall H, In H obs -> Ns H = n) -> forallb (fun H => shape_is (V2 n n V) (Ns H)) obs = true.
Proof. intro HO. apply forallb_forall. intros H HH. rewrite (HO H HH). cbn. now rewrite Nat.eqb_refl. Qed.

(* A state and an eigenbasis of the Hamiltonian G: the observables in the solutions of the Schroedinger equation. *)
Theorem C62_eigen : forall n G E V psi obs times ret pure, 2 <= n -> eigenbasis n G E V -> (forall H, In H obs -> Ns H = n) -> 0 < length times ->
  exists S, (forall k, k < length times -> exists w, S k = Ket w /\ evolves n (fun _ => G) (nth k times 0%R) psi w) /\
    observes n obs times S ret (obs_vs_time (Eigen (V1 n psi) E (V2 n n V)) times obs ret pure).
Proof.
  intros n G E V psi obs times ret pure Hn B HO HT. assert (HL : length E = n) by exact (proj1 B).
  destruct (C61_pure n G E V (V1 n psi) psi times ltac:(lia) B (or_introl eq_refl)) as [(l & E1 & L1 & P1) (f & E2 & P2)].
  cbn [obs_vs_time rows]. rewrite HL, (shapes_fit n obs V HO). cbn [shape_is]. rewrite !Nat.eqb_refl. cbn [andb negb]. destruct ret.
  - exists (fun k => Ket (fun i => f i k)). split; [intros k Hk; eexists; split; [reflexivity|now apply P2]|]. rewrite E2.
    assert (HS : holds_states n times (fun k => Ket (fun i => f i k)) (V2 n (length times) f)) by (intros k _; exists f; split; reflexivity).
    destruct (at_once_right n obs times _ pure _ (Some (V2 n (length times) f)) Hn HO HT HS) as (vals & Q & F). exists vals, (Some (V2 n (length times) f)).
    split; [exact Q|]. split; [exact F|]. eexists. split; [reflexivity|exact HS].
  - exists (fun k => Ket (nth k l (fun _ => C0))). split.
    { intros k Hk. destruct (P1 k Hk) as (w & W1 & W2). eexists. split; [reflexivity|]. rewrite (nth_error_nth l k _ W1). exact W2. }
    rewrite E1. destruct (along_right n obs times (fun k => Ket (nth k l (fun _ => C0))) Hn HO HT) as (vals & Q & F). exists vals, None. split; [|split; [exact F|reflexivity]].
    rewrite <- Q. rewrite <- L1. f_equal. rewrite (list_seq (fun _ => C0) l) at 1. rewrite map_map. reflexivity.
Qed.
Print Assumptions C62_eigen.

(* The same for a density matrix. *)
Theorem C62_eigen_mixed : forall n G E V rho obs times ret pure, 2 <= n -> hermitian n G -> eigenbasis n G E V -> (forall H, In H obs -> Ns H = n) -> 0 < length times ->
  exists S, (forall k, k < length times -> exists w, S k = Density w /\ evolves_density n G (nth k times 0%R) rho w) /\
    observes n obs times S ret (obs_vs_time (Eigen (V2 n n rho) E (V2 n n V)) times obs ret pure).
Proof.
  intros n G E V rho obs times ret pure Hn HG B HO HT. assert (HL : length E = n) by exact (proj1 B).
  destruct (C61_mixed n G E V (V2 n n rho) rho times ltac:(lia) HG B (or_introl eq_refl)) as [(l & E1 & L1 & P1) (f & E2 & P2)].
  cbn [obs_vs_time rows]. rewrite HL, (shapes_fit n obs V HO). cbn [shape_is]. rewrite !Nat.eqb_refl. cbn [andb negb]. destruct ret.
  - exists (fun k => Density (fun i j => f i j k)). split; [intros k Hk; eexists; split; [reflexivity|now apply P2]|]. rewrite E2.
    assert (HS : holds_states n times (fun k => Density (fun i j => f i j k)) (V3 n n (length times) f)) by (intros k _; exists f; split; reflexivity).
    destruct (at_once_right n obs times _ pure _ (Some (V3 n n (length times) f)) Hn HO HT HS) as (vals & Q & F). exists vals, (Some (V3 n n (length times) f)).
    split; [exact Q|]. split; [exact F|]. eexists. split; [reflexivity|exact HS].
  - exists (fun k => Density (nth k l (fun _ _ => C0))). split.
    { intros k Hk. destruct (P1 k Hk) as (w & W1 & W2). eexists. split; [reflexivity|]. rewrite (nth_error_nth l k _ W1). exact W2. }
    rewrite E1. destruct (along_right n obs times (fun k => Density (nth k l (fun _ _ => C0))) Hn HO HT) as (vals & Q & F). exists vals, None. split; [|split; [exact F|reflexivity]].
    rewrite <- Q. rewrite <- L1. f_equal. rewrite (list_seq (fun _ _ => C0) l) at 1. rewrite map_map. reflexivity.
Qed.
Print Assumptions C62_eigen_mixed.

(* Generators that are empty or yield more states than there are times, and observables of another dimension, raise an exception. *)
Theorem C62_refused : forall obs times pure,
  (forall ret, obs_vs_time (Generator []) times obs ret pure = Fails) /\
  (forall l, length times < length l -> obs_vs_time (Generator l) times obs false pure = Fails) /\
  (forall a ret H, In H obs -> rows a <> Ns H -> obs_vs_time (Whole a) times obs ret pure = Fails) /\
  (forall psi E V ret H, In H obs -> Ns H <> length E -> obs_vs_time (Eigen psi E V) times obs ret pure = Fails).
Proof.
  intros obs times pure. repeat split.
  - intros []; reflexivity.
  - intros l Hl. cbn. destruct l; [reflexivity|]. apply Nat.ltb_lt in Hl. unfold along. now rewrite Hl.
  - intros a ret H HH Hne. cbn. replace (forallb (fun H => rows a =? Ns H) obs) with false; [reflexivity|]. symmetry. apply Bool.not_true_is_false. intro Q.
    rewrite forallb_forall in Q. specialize (Q H HH). apply Nat.eqb_eq in Q. congruence.
  - intros psi E V ret H HH Hne. cbn. destruct (shape_is V (length E)) eqn:ES; [|reflexivity]. destruct (rows psi =? length E); [|reflexivity]. cbn [negb].
    replace (forallb (fun H => shape_is V (Ns H)) obs) with false; [reflexivity|]. symmetry. apply Bool.not_true_is_false. intro Q.
    rewrite forallb_forall in Q. specialize (Q H HH). destruct V; try discriminate. cbn in ES, Q. apply andb_prop in ES, Q. destruct ES as [ES _], Q as [Q _]. apply Nat.eqb_eq in ES, Q. congruence.
Qed.
Print Assumptions C62_refused.

(* A generator that ends early: the result covers only the first times, without an exception. *)
Theorem C62_short : forall l times obs pure, length l <= length times ->
  obs_vs_time (Generator l) times obs false pure = obs_vs_time (Generator l) (firstn (length l) times) obs false pure.
Proof.
  intros l times obs pure Hl. cbn [obs_vs_time]. unfold along. destruct l as [|x l]; [reflexivity|].
  set (L := x :: l) in *. rewrite firstn_length_le by exact Hl. rewrite Nat.ltb_irrefl. replace (length times <? length L) with false by (symmetry; apply Nat.ltb_ge; exact Hl).
  replace (combine (firstn (length L) times) L) with (combine times L); [reflexivity|].
  symmetry. rewrite <- combine_firstn_r. reflexivity.
Qed.
Print Assumptions C62_short.

(* --- cases --- *)
Example C62_meets : let obs := [ {| Ns := 2; fixed := flip; driven := [(fun t => RtoC t, flip)] |} ] in let S := fun k => Ket (unit_vec k) in
  hermitian 2 flip /\ eigenbasis 2 flip [1; -1]%R had /\ (forall H, In H obs -> Ns H = 2) /\ same_kind S /\
  holds_states 2 [0; 1]%R S (V2 2 2 (fun i k => unit_vec k i)) /\
  map (fun H => means 2 H [0; 1]%R (fun _ => Ket (fun _ => C1))) obs = [[RtoC 2; RtoC 4]].
Proof.
  cbv zeta. destruct C61_meets as (M1 & M2 & _). split; [exact M1|]. split; [exact M2|]. split; [intros H [<-|[]]; reflexivity|]. split; [left; exists unit_vec; reflexivity|]. split.
  - intros k _. eexists. split; [reflexivity|]. reflexivity.
  - cbn [map]. unfold means. cbn [length seq map nth]. repeat f_equal; cbn [mean]; unfold inner, SpecLanczos.apply, at_time, flip, Csum; apply C_eq; cbn; ring.
Qed.

(* enforce_pure: the option is not passed on when the states come from a generator and are not returned; the columns of a square array
   are then taken for a density matrix, although the call asks for pure states. *)
Theorem C62_enforce_pure_refuted : ~ (forall n obs times l, (forall H, In H obs -> Ns H = n) -> (forall a, In a l -> exists f, a = V2 n n f) -> length l = length times -> 0 < length l -> 2 <= n ->
  exists vals, obs_vs_time (Generator l) times obs false true = Gives vals None /\
    Forall2 (fun H s => s = Each (map (fun p => expt_value H (At (fst p)) true (snd p)) (combine times l))) obs vals).
Proof.
  intro F. pose (H := {| Ns := 2; fixed := unit_vec; driven := [] |}).
  destruct (F 2 [H] [0%R] [V2 2 2 unit_vec]) as (vals & E & Q).
  - intros G [<-|[]]. reflexivity.
  - intros a [<-|[]]. eexists. reflexivity.
  - reflexivity.
  - cbn. lia.
  - lia.
  - inversion Q as [|? s ? ? Hs Q2]; subst. inversion Q2; subst. clear F Q Q2.
    cbn in E. discriminate.
Qed.
Print Assumptions C62_enforce_pure_refuted.

(* With return_state a generator that yields the states of a single time is refused: squeeze removes the axis of the times. *)
Theorem C62_single_refuted : forall n H v r t pure, 2 <= n -> Ns H = n ->
  obs_vs_time (Generator [V1 n v]) [t] [H] true pure = Fails /\ obs_vs_time (Generator [V2 n n r]) [t] [H] true pure = Fails /\
  observes n [H] [t] (fun _ => Ket v) false (obs_vs_time (Generator [V1 n v]) [t] [H] false pure).
Proof.
  intros n H v r t pure Hn HN. assert (E1 : (n =? 1) = false) by (apply Nat.eqb_neq; lia). assert (E0 : (n =? 0) = false) by (apply Nat.eqb_neq; lia). split; [|split].
  - assert (Q : exists f, stacked [V1 n v] = Some (V1 n f)).
    { unfold stacked, dstack. cbn [forallb]. rewrite Nat.eqb_refl. cbn [andb M_edtime.squeeze length Nat.eqb]. unfold squeeze2. rewrite ?E1. cbn [Nat.eqb andb]. unfold squeeze1. rewrite ?E1. eexists. reflexivity. }
    destruct Q as (f & Q). cbn [obs_vs_time]. rewrite Q. cbn [rows forallb]. rewrite HN, Nat.eqb_refl. cbn [andb negb]. unfold at_once, expt_value. cbn [map]. rewrite HN, E0.
    unfold dot. cbn [rows]. rewrite HN, Nat.eqb_refl. reflexivity.
  - assert (Q : exists f, stacked [V2 n n r] = Some (V2 n n f)).
    { unfold stacked, dstack. cbn [forallb]. rewrite Nat.eqb_refl. cbn [andb M_edtime.squeeze length Nat.eqb]. unfold squeeze2. rewrite ?E1. cbn [Nat.eqb andb]. unfold squeeze1. rewrite ?E1. eexists. reflexivity. }
    destruct Q as (f & Q). cbn [obs_vs_time]. rewrite Q. cbn [rows forallb]. rewrite HN, Nat.eqb_refl. cbn [andb negb]. unfold at_once, expt_value. cbn [map]. rewrite HN, E0.
    unfold dot. cbn [rows]. rewrite HN, Nat.eqb_refl. cbn [length]. rewrite E1. reflexivity.
  - apply (C62_generator n [H] [t] (fun _ => Ket v) false pure Hn); [intros G [<-|[]]; exact HN|cbn; lia|left; exists (fun _ => v); reflexivity|discriminate].
Qed.
Print Assumptions C62_single_refuted.

(* Many pure states at each time in an array of three dimensions, as documented: refused unless their number is the dimension of the space,
   and then taken for density matrices even with enforce_pure. *)
Theorem C62_many_refuted : forall n m f H times ret, 0 < n -> Ns H = n ->
  (m <> n -> forall pure, obs_vs_time (Whole (V3 n m (length times) f)) times [H] ret pure = Fails) /\
  (obs_vs_time (Whole (V3 n n (length times) f)) times [H] ret true = obs_vs_time (Whole (V3 n n (length times) f)) times [H] ret false).
Proof.
  intros n m f H times ret Hn HN. assert (E0 : (n =? 0) = false) by (apply Nat.eqb_neq; lia). split; [|reflexivity].
  intros Hm pure. cbn [obs_vs_time rows forallb]. rewrite HN, Nat.eqb_refl. cbn [andb negb]. unfold at_once, expt_value. cbn [map]. rewrite HN, E0.
  unfold dot. cbn [rows]. rewrite HN, Nat.eqb_refl. rewrite (proj2 (Nat.eqb_neq n m)) by congruence. rewrite andb_false_r. reflexivity.
Qed.
Print Assumptions C62_many_refuted.
