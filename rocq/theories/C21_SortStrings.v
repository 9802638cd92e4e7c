(* C21: sorting an operator string by site keeps the operator and gives a canonical form. *)
From Verif Require Import AuxN SpecC SpecOps M_ops M_opstr P_fermion P_opstr P_opinst P_hc.
From Coq Require Import Sorted Permutation.
Local Open Scope nat_scope.

Theorem C21_spin : forall pauli n t, Forall (fun oi => In (fst oi) ["I"; "n"; "z"; "x"; "y"; "+"; "-"]%char /\ snd oi < n) (fst t) ->
  meq (N.to_nat (2 ^ N.of_nat n)) (term_matrix (spin_op pauli n) (sort_opstr t)) (term_matrix (spin_op pauli n) t).
Proof. intros pauli n [l J] H. apply P_mat.mscale_proper; [reflexivity|]. exact (plain_sort _ _ _ _ (spin_good pauli n) l H). Qed.
Print Assumptions C21_spin.

Theorem C21_boson : forall B n t, (2 <= B)%N -> Forall (fun oi => In (fst oi) ["I"; "n"; "z"; "+"; "-"]%char /\ snd oi < n) (fst t) ->
  meq (N.to_nat (B ^ N.of_nat n)) (term_matrix (boson_op B n) (sort_opstr t)) (term_matrix (boson_op B n) t).
Proof. intros B n [l J] HB H. apply P_mat.mscale_proper; [reflexivity|]. exact (plain_sort _ _ _ _ (boson_good B n HB) l H). Qed.
Print Assumptions C21_boson.

Theorem C21_higher_spin : forall B n t, (2 <= B)%N -> Forall (fun oi => In (fst oi) ["I"; "z"; "+"; "-"]%char /\ snd oi < n) (fst t) ->
  meq (N.to_nat (B ^ N.of_nat n)) (term_matrix (higher_spin_op B n) (sort_opstr t)) (term_matrix (higher_spin_op B n) t).
Proof. intros B n [l J] HB H. apply P_mat.mscale_proper; [reflexivity|]. exact (plain_sort _ _ _ _ (higher_spin_good B n HB) l H). Qed.
Print Assumptions C21_higher_spin.

Theorem C21_fermion : forall bytes n t, (N.of_nat n <= 8 * bytes)%N -> n <= 256 ->
  Forall (fun oi => In (fst oi) ["I"; "n"; "z"; "+"; "-"]%char /\ snd oi < n) (fst t) ->
  exists t', fermion_sort_opstr t = Some t' /\
    meq (N.to_nat (2 ^ N.of_nat n)) (term_matrix (fermion_op bytes n) t') (term_matrix (fermion_op bytes n) t).
Proof.
  intros bytes n [l J] Hw Hn H. destruct (fermion_sort_spec l J) as (s & E & _).
  eexists. split; [exact E|]. exact (graded_sort _ _ _ _ (fermion_good bytes n Hw Hn) l J _ _ H E).
Qed.
Print Assumptions C21_fermion.

Theorem C21_spinful : forall bytes L up down J, (N.of_nat (2 * L) <= 8 * bytes)%N -> 2 * L <= 256 ->
  Forall (fun oi => In (fst oi) ["I"; "n"; "z"; "+"; "-"]%char /\ snd oi < L) up ->
  Forall (fun oi => In (fst oi) ["I"; "n"; "z"; "+"; "-"]%char /\ snd oi < L) down ->
  let joined up down := up ++ map (fun oi => (fst oi, snd oi + L)) down in
  exists up' down' J', spinful_sort_opstr (up, down, J) = Some (up', down', J') /\
    meq (N.to_nat (2 ^ N.of_nat (2 * L))) (term_matrix (fermion_op bytes (2 * L)) (joined up' down', J'))
      (term_matrix (fermion_op bytes (2 * L)) (joined up down, J)).
Proof.
  intros bytes L up down J Hw Hn H1 H2 joined. destruct (spinful_sort_opstr (up, down, J)) as [[[up' down'] J']|] eqn:E.
  - exists up', down', J'. split; [reflexivity|]. exact (spinful_sort bytes L Hw Hn up down J up' down' J' H1 H2 E).
  - exfalso. unfold spinful_sort_opstr in E. destruct (fermion_sort_spec up C1) as (s & E1 & _). destruct (fermion_sort_spec down C1) as (s' & E2 & _).
    rewrite E1, E2 in E. discriminate.
Qed.
Print Assumptions C21_spinful.

(* the result is ordered by site and has the same letters *)
Theorem C21_sorted : forall t, StronglySorted (fun x y => snd x <= snd y) (fst (sort_opstr t)) /\ Permutation (fst t) (fst (sort_opstr t)).
Proof. intros [l J]. split; [exact (stable_sort_sorted l)|exact (reord_perm _ _ _ _ (stable_sort_reord l))]. Qed.
Print Assumptions C21_sorted.
Theorem C21_fermion_sorted : forall t t', fermion_sort_opstr t = Some t' -> StronglySorted (fun x y => snd x <= snd y) (fst t') /\ Permutation (fst t) (fst t').
Proof.
  intros [l J] t' E. destruct (fermion_sort_spec l J) as (s & E' & HR & _). assert (X := eq_trans (eq_sym E') E). injection X as <-.
  split; [exact (stable_sort_sorted l)|exact (reord_perm _ _ _ _ HR)].
Qed.
Print Assumptions C21_fermion_sorted.

(* canonical form: exchanging neighbours on different sites does not change the result (for fermions after the sign) *)
Theorem C21_canonical : forall l1 x y l2 J, snd x <> snd y -> sort_opstr (l1 ++ x :: y :: l2, J) = sort_opstr (l1 ++ y :: x :: l2, J).
Proof.
  intros l1 x y l2 J H. unfold sort_opstr. cbn [fst snd]. f_equal. exact (stable_sort_unique nograde _ _ _ (reord_swap nograde l1 x y l2 _ 1 H (reord_refl _ _))).
Qed.
Print Assumptions C21_canonical.
Theorem C21_fermion_canonical : forall l1 x y l2 J, snd x <> snd y ->
  let both := (is_pm (fst x) && is_pm (fst y))%bool in
  fermion_sort_opstr (l1 ++ x :: y :: l2, J) = fermion_sort_opstr (l1 ++ y :: x :: l2, if both then Copp J else J).
Proof.
  intros l1 x y l2 J H both. etransitivity; [exact (fermion_sort_unique _ _ _ J (reord_swap is_pm l1 x y l2 _ 1 H (reord_refl _ _)))|]. f_equal. f_equal.
  unfold sg. fold both. destruct both; apply C_eq; cbn; ring.
Qed.
Print Assumptions C21_fermion_canonical.

Example C21_example : exists t', fermion_sort_opstr ([("+", 2); ("n", 1); ("-", 0)]%char, C1) = Some t' /\
  fst t' = [("-", 0); ("n", 1); ("+", 2)]%char /\ snd t' = RtoC (-1).
Proof. eexists. split; [reflexivity|]. split; [reflexivity|]. apply C_eq; cbn; lra. Qed.
