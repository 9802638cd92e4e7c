(* C16: the Hermitian conjugate of an operator string is the adjoint matrix. *)
From Verif Require Import AuxN SpecC SpecOps M_ops M_opstr P_fermion P_opinst P_hc.
Local Open Scope nat_scope.

(* t = (string with sites, coupling); term_matrix op t: coupling times the matrix computed by the basis for the string *)
Theorem C16_spin : forall pauli n t, Forall (fun oi => In (fst oi) ["I"; "n"; "z"; "x"; "y"; "+"; "-"]%char /\ snd oi < n) (fst t) ->
  meq (N.to_nat (2 ^ N.of_nat n)) (term_matrix (spin_op pauli n) (hc_opstr t)) (madj (term_matrix (spin_op pauli n) t)).
Proof. intros pauli n [l J] H. exact (plain_hc _ _ _ _ (spin_good pauli n) l J H). Qed.
Print Assumptions C16_spin.

Theorem C16_boson : forall B n t, (2 <= B)%N -> Forall (fun oi => In (fst oi) ["I"; "n"; "z"; "+"; "-"]%char /\ snd oi < n) (fst t) ->
  meq (N.to_nat (B ^ N.of_nat n)) (term_matrix (boson_op B n) (hc_opstr t)) (madj (term_matrix (boson_op B n) t)).
Proof. intros B n [l J] HB H. exact (plain_hc _ _ _ _ (boson_good B n HB) l J H). Qed.
Print Assumptions C16_boson.

Theorem C16_higher_spin : forall B n t, (2 <= B)%N -> Forall (fun oi => In (fst oi) ["I"; "z"; "+"; "-"]%char /\ snd oi < n) (fst t) ->
  meq (N.to_nat (B ^ N.of_nat n)) (term_matrix (higher_spin_op B n) (hc_opstr t)) (madj (term_matrix (higher_spin_op B n) t)).
Proof. intros B n [l J] HB H. exact (plain_hc _ _ _ _ (higher_spin_good B n HB) l J H). Qed.
Print Assumptions C16_higher_spin.

(* the fermion routines always return, and what they return is the adjoint *)
Theorem C16_fermion : forall bytes n t, (N.of_nat n <= 8 * bytes)%N -> n <= 256 ->
  Forall (fun oi => In (fst oi) ["I"; "n"; "z"; "+"; "-"]%char /\ snd oi < n) (fst t) ->
  exists t', fermion_hc_opstr t = Some t' /\
    meq (N.to_nat (2 ^ N.of_nat n)) (term_matrix (fermion_op bytes n) t') (madj (term_matrix (fermion_op bytes n) t)).
Proof.
  intros bytes n [l J] Hw Hn H. destruct (P_opstr.fermion_sort_spec (hc_list l) (Cconj J)) as (s & E & _).
  eexists. split; [exact E|]. exact (graded_hc _ _ _ _ (fermion_good bytes n Hw Hn) l J _ _ H E).
Qed.
Print Assumptions C16_fermion.

(* spinful fermions on L sites: the string "up|down" acts as the up letters on sites 0..L-1 and the down letters on L..2L-1 *)
Theorem C16_spinful : forall bytes L up down J, (N.of_nat (2 * L) <= 8 * bytes)%N -> 2 * L <= 256 ->
  Forall (fun oi => In (fst oi) ["I"; "n"; "z"; "+"; "-"]%char /\ snd oi < L) up ->
  Forall (fun oi => In (fst oi) ["I"; "n"; "z"; "+"; "-"]%char /\ snd oi < L) down ->
  let joined up down := up ++ map (fun oi => (fst oi, snd oi + L)) down in
  exists up' down' J', spinful_hc_opstr (up, down, J) = Some (up', down', J') /\
    meq (N.to_nat (2 ^ N.of_nat (2 * L))) (term_matrix (fermion_op bytes (2 * L)) (joined up' down', J'))
      (madj (term_matrix (fermion_op bytes (2 * L)) (joined up down, J))).
Proof.
  intros bytes L up down J Hw Hn H1 H2 joined. destruct (spinful_hc_opstr (up, down, J)) as [[[up' down'] J']|] eqn:E.
  - exists up', down', J'. split; [reflexivity|]. exact (spinful_hc bytes L Hw Hn up down J up' down' J' H1 H2 E).
  - exfalso. unfold spinful_hc_opstr, fermion_hc_opstr in E. cbn [fst snd] in E.
    destruct (P_opstr.fermion_sort_spec (hc_list up) (Cconj J)) as (s & E1 & _). destruct (P_opstr.fermion_sort_spec (hc_list down) (Cconj C1)) as (s' & E2 & _).
    rewrite E1, E2 in E. discriminate.
Qed.
Print Assumptions C16_spinful.

(* c_0^+ c_2 with coupling i: h.c. is -i c_2^+ c_0 = i c_0 c_2^+ after sorting *)
Example C16_example : exists t', fermion_hc_opstr ([("+", 0); ("-", 2)]%char, Ci) = Some t' /\ fst t' = [("-", 0); ("+", 2)]%char /\ snd t' = Ci.
Proof. eexists. split; [reflexivity|]. split; [reflexivity|]. apply C_eq; cbn; lra. Qed.
