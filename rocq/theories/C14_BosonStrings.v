(* C14: operator strings of boson and spin-S bases. *)
From Verif Require Import AuxN SpecC SpecOps M_ops P_ops.
Local Open Scope nat_scope.

(* bosons, letters I n + -, any local dimension B >= 2 *)
Theorem C14_boson_string_is_product_partial : forall B n l,
  (2 <= B)%N -> Forall (fun oi => In (fst oi) ["I"; "n"; "+"; "-"]%char /\ snd oi < n) l ->
  acts_as (N.to_nat (B ^ N.of_nat n)) (boson_op B n l)
    (string_matrix (N.to_nat (B ^ N.of_nat n)) (fun o => site_matrix B n (boson_site B o)) l).
Proof. exact boson_op_acts. Qed.
Print Assumptions C14_boson_string_is_product_partial.

(* spin S = (B-1)/2, letters I z + - *)
Theorem C14_spin_string_is_product : forall B n l,
  (2 <= B)%N -> Forall (fun oi => In (fst oi) ["I"; "z"; "+"; "-"]%char /\ snd oi < n) l ->
  acts_as (N.to_nat (B ^ N.of_nat n)) (higher_spin_op B n l)
    (string_matrix (N.to_nat (B ^ N.of_nat n)) (fun o => site_matrix B n (spinS_site B o)) l).
Proof. exact higher_spin_op_acts. Qed.
Print Assumptions C14_spin_string_is_product.

(* the letter z of the boson bases is not the operator n - (B-1)/2: the code multiplies by n as well (missing break) *)
Theorem C14_boson_z_refuted : exists B n l, (2 <= B)%N /\ Forall (fun oi => In (fst oi) ["I"; "n"; "z"; "+"; "-"]%char /\ snd oi < n) l /\
  ~ acts_as (N.to_nat (B ^ N.of_nat n)) (boson_op B n l)
    (string_matrix (N.to_nat (B ^ N.of_nat n)) (fun o => site_matrix B n (boson_site B o)) l).
Proof.
  exists 2%N, 1, [("z"%char, 0)]. split; [lia|]. split; [constructor; [cbn; split; [tauto|lia]|constructor]|]. intros H.
  destruct (H 0%N C1 ltac:(cbn; lia)) as (r & m & E & Hr & HA). unfold boson_op, diag_op in E. cbn in E.
  assert (Z : Rzero (1 * ((Nr 0 - (Nr 2 - 1) / 2) * Nr 0)) = true).
  { unfold Rzero. rewrite Nr_0. destruct (Req_EM_T _ 0) as [_|X]; [reflexivity|destruct X; ring]. }
  rewrite Z in E. cbn [orb] in E. injection E as <- <-. specialize (HA 0%N ltac:(cbn; lia)).
  rewrite N.eqb_refl in HA. cbn [string_matrix fold_right fst snd] in HA. unfold mmul in HA.
  change (all_states (N.to_nat (2 ^ N.of_nat 1))) with [0%N; 1%N] in HA. rewrite !Csum_cons, Csum_nil in HA.
  change (site_matrix 2 1 (boson_site 2 "z") 0 0%N 0%N) with (RtoC (Nr 0 - (Nr 2 - 1) / 2)) in HA.
  change (mident 0%N 0%N) with C1 in HA. change (mident 1%N 0%N) with C0 in HA.
  apply (f_equal fst) in HA. unfold Nr in HA. cbn in HA. lra.
Qed.
Print Assumptions C14_boson_z_refuted.

(* raising twice from an empty site with cut-off 3 gives sqrt 2 *)
Example C14_example : Forall (fun oi => In (fst oi) ["I"; "n"; "+"; "-"]%char /\ snd oi < 1) [("+", 0); ("+", 0)]%char /\
  exists m, boson_op 3 1 [("+", 0); ("+", 0)]%char 0 C1 = Some (2%N, m) /\ m = RtoC (sqrt 2).
Proof.
  split; [repeat (constructor; [cbn; split; [tauto|lia]|]); constructor|]. unfold boson_op, diag_op. cbn.
  assert (Z1 : (Rzero (1 * 1) || Rzero (1 * Nr 1))%bool = false).
  { unfold Rzero, Nr. cbn. destruct (Req_EM_T (1 * 1) 0); [lra|reflexivity]. }
  assert (Z2 : (Rzero (1 * 1 * 1) || Rzero (1 * Nr 1 * Nr 2))%bool = false).
  { unfold Rzero, Nr. cbn. destruct (Req_EM_T (1 * 1 * 1) 0); [lra|]. destruct (Req_EM_T (1 * 1 * 2) 0); [lra|reflexivity]. }
  rewrite Z1. cbn. rewrite Z2. eexists. split; [reflexivity|]. replace (1 * Nr 1 * Nr 2)%R with 2%R by (unfold Nr; cbn; ring).
  apply C_eq; cbn; ring.
Qed.
