(* C13: operator strings of spin-1/2 and hard-core boson bases are products of the textbook local matrices. *)
From Verif Require Import AuxN SpecC SpecOps M_ops P_ops.
Local Open Scope nat_scope.

(* n sites, any string of known letters on sites < n (repetitions allowed), any state, any coupling *)
Theorem C13_string_is_product : forall n l,
  Forall (fun oi => spin_known (fst oi) /\ snd oi < n) l ->
  acts_as (N.to_nat (2 ^ N.of_nat n)) (hcb_op n l)
    (string_matrix (N.to_nat (2 ^ N.of_nat n)) (fun o => site_matrix 2 n (spin_half_site o)) l).
Proof. exact hcb_op_acts. Qed.
Print Assumptions C13_string_is_product.

(* the same for spin_basis in its three conventions for Pauli matrices *)
Theorem C13_pauli_conventions : forall pauli n l,
  Forall (fun oi => spin_known (fst oi) /\ snd oi < n) l ->
  acts_as (N.to_nat (2 ^ N.of_nat n)) (spin_op pauli n l)
    (string_matrix (N.to_nat (2 ^ N.of_nat n)) (fun o => site_matrix 2 n (pauli_site pauli o)) l).
Proof. exact spin_op_acts. Qed.
Print Assumptions C13_pauli_conventions.

(* only unknown letters are rejected *)
Theorem C13_rejects_only_unknown : forall n l s m, hcb_op n l s m = None -> exists oi, In oi l /\ ~ spin_known (fst oi).
Proof.
  intros n l s m H. unfold hcb_op in H. destruct (op_loop_unknown (hcb_local n) spin_known s (rev l)) with (r := s) (m := m) as (oi & H1 & H2);
    [|exact H|exists oi; split; [apply in_rev; exact H1|exact H2]].
  intros o i r Ho E. unfold spin_known in Ho. cbn [In] in Ho. destruct Ho as [<-|[<-|[<-|[<-|[<-|[<-|[<-|[]]]]]]]]; discriminate.
Qed.
Print Assumptions C13_rejects_only_unknown.

(* y then + on the same site of two sites, state 01: y gives 00 with i/2, + gives 01 back *)
Example C13_example : Forall (fun oi => spin_known (fst oi) /\ snd oi < 2) [("+", 1); ("y", 1)]%char /\
  exists m, hcb_op 2 [("+", 1); ("y", 1)]%char 1 C1 = Some (1%N, m) /\ m = (Ci * half)%C.
Proof.
  split; [repeat constructor; cbn; tauto|]. unfold hcb_op. cbn.
  assert (Z1 : Czero (C1 * (0, (1 / 2))%R)%C = false).
  { unfold Czero, Rzero, C1, Cmul. cbn [fst snd]. destruct (Req_EM_T (1 * 0 - 0 * (1 / 2)) 0); [|reflexivity]. destruct (Req_EM_T (1 * (1/2) + 0 * 0) 0); [lra|reflexivity]. }
  rewrite Z1. assert (Z2 : Czero (C1 * (0, (1 / 2))%R * C1)%C = false) by (replace (C1 * (0, (1 / 2))%R * C1)%C with (C1 * (0, (1 / 2))%R)%C by ring; exact Z1).
  rewrite Z2. eexists. split; [reflexivity|]. apply C_eq; cbn; lra.
Qed.
