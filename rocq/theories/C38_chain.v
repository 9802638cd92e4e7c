(* C38: translation, reflection and inversion of one-dimensional bases act as site maps and satisfy the relations of the
   chain's symmetry group. *)
From Verif Require Import AuxN SpecMaps SpecFermi SpecChain M_bits1d SpecChain1d P_maps P_bits1d P_bits1d4 P_bits1d5 P_bits1d6.
Local Open Scope nat_scope.

(* Every operation sends a state of the chain to the state obtained by moving (and, for inversions, inverting) its sites,
   and multiplies the sign by the parity of the crossings of occupied sites for fermions and by one otherwise.  k ranges
   over spins/hard-core bosons (Hcp false), spinless fermions (Hcp true), bosons and higher spins, spinful fermions; w over
   the three integer types. *)
Theorem C38_operations_act : forall w k L, states_fit w k L ->
  (forall x, (- Z.of_nat L <= x)%Z -> shift_fits w k L x -> acts (fermionic k) (levels k) (sites k L) (shift_map k L x) (op_shift w k L x)) /\
  acts (fermionic k) (levels k) (sites k L) (flip_map k L) (op_flip w k L) /\
  (has_inversion k -> acts (fermionic k) (levels k) (sites k L) (inv_map k L) (op_inv w k L)) /\
  (has_sublattices k -> acts (fermionic k) (levels k) (sites k L) (chain_inv L (from_right L 0)) (op_invA w k L) /\
                        acts (fermionic k) (levels k) (sites k L) (chain_inv L (from_right L 1)) (op_invB w k L)).
Proof.
  intros w k L H. split; [intros; apply op_shift_acts; assumption|]. split; [apply op_flip_acts, H|]. split; [apply op_inv_acts, H|].
  intros HS. split; [apply op_invA_acts|apply op_invB_acts]; assumption.
Qed.
Print Assumptions C38_operations_act.

(* T^L = 1; more generally r shifts by x with r x a multiple of L *)
Theorem C38_translation_period : forall w k L s sg, states_fit w k L -> (s < levels k ^ N.of_nat (sites k L))%N ->
  run_ops (repeat (op_shift w k L 1) L) (s, sg) = Some (s, sg) /\ run_ops (repeat (op_shift w k L (-1)) L) (s, sg) = Some (s, sg) /\
  forall x r, (- Z.of_nat L <= x)%Z -> shift_fits w k L x -> ((Z.of_nat r * x) mod Z.of_nat L = 0)%Z -> run_ops (repeat (op_shift w k L x) r) (s, sg) = Some (s, sg).
Proof.
  intros w k L s sg H Hs. pose proof (proj1 H) as HL. split; [|split].
  - apply rel_period; [exact H|lia|apply unit_fits; auto|rewrite Z.mul_1_r; apply Z.mod_same; lia|exact Hs].
  - apply rel_period; [exact H|lia|apply unit_fits; auto| |exact Hs]. replace (Z.of_nat L * -1)%Z with ((-1) * Z.of_nat L)%Z by lia. apply Z.mod_mul. lia.
  - intros. apply rel_period; assumption.
Qed.
Print Assumptions C38_translation_period.

(* P^2 = 1, Z^2 = 1, ZA^2 = ZB^2 = 1 *)
Theorem C38_involutions : forall w k L s sg, states_fit w k L -> (s < levels k ^ N.of_nat (sites k L))%N ->
  run_ops [op_flip w k L; op_flip w k L] (s, sg) = Some (s, sg) /\
  (has_inversion k -> run_ops [op_inv w k L; op_inv w k L] (s, sg) = Some (s, sg)) /\
  (has_sublattices k -> run_ops [op_invA w k L; op_invA w k L] (s, sg) = Some (s, sg) /\ run_ops [op_invB w k L; op_invB w k L] (s, sg) = Some (s, sg)).
Proof. intros w k L s sg H Hs. split; [apply rel_pp; assumption|]. split; [intros; apply rel_zz; assumption|intros; apply rel_aa; assumption]. Qed.
Print Assumptions C38_involutions.

(* both sequences of calls are defined, and give the same state and the same sign *)
Definition same (k : kind) (L : nat) (fs gs : list op) : Prop :=
  forall s sg, (s < levels k ^ N.of_nat (sites k L))%N -> exists z, run_ops fs (s, sg) = Some z /\ run_ops gs (s, sg) = Some z /\ (fst z < levels k ^ N.of_nat (sites k L))%N.

(* T_x T_y = T_(x+y) and P T_x P = T_(-x) *)
Theorem C38_dihedral : forall w k L x y, states_fit w k L -> (- Z.of_nat L <= x <= Z.of_nat L)%Z -> (- Z.of_nat L <= y)%Z -> (- Z.of_nat L <= x + y)%Z ->
  shift_fits w k L x -> shift_fits w k L (- x) -> shift_fits w k L y -> shift_fits w k L (x + y) ->
  same k L [op_shift w k L x; op_shift w k L y] [op_shift w k L (x + y)] /\
  same k L [op_flip w k L; op_shift w k L x; op_flip w k L] [op_shift w k L (- x)].
Proof. intros w k L x y H Hx Hy Hxy F1 F2 F3 F4. split; intros s sg Hs; [apply rel_add; (assumption || lia)|apply rel_ptp; assumption]. Qed.
Print Assumptions C38_dihedral.

(* inversion commutes with translation and reflection, and is the product of the sublattice inversions *)
Theorem C38_inversions : forall w k L x, states_fit w k L -> (- Z.of_nat L <= x)%Z -> shift_fits w k L x ->
  (has_inversion k -> same k L [op_inv w k L; op_shift w k L x] [op_shift w k L x; op_inv w k L] /\ same k L [op_flip w k L; op_inv w k L] [op_inv w k L; op_flip w k L]) /\
  (has_sublattices k -> same k L [op_invA w k L; op_invB w k L] [op_inv w k L] /\ same k L [op_invA w k L; op_invB w k L] [op_invB w k L; op_invA w k L]).
Proof.
  intros w k L x H Hx F. split; intros HI; (split; intros s sg Hs); [apply rel_zt|apply rel_pz|apply rel_ab|apply rel_ba]; assumption.
Qed.
Print Assumptions C38_inversions.

(* On a chain of even length a translation by an even number of sites commutes with the inversion of a sublattice, a
   translation by an odd number exchanges the sublattices; the reflection exchanges them on even chains and preserves
   them on odd ones. *)
Theorem C38_sublattices_move : forall w k L x, states_fit w k L -> has_sublattices k -> (- Z.of_nat L <= x)%Z -> shift_fits w k L x ->
  (Nat.even L = true -> same k L [op_invA w k L; op_shift w k L x] [op_shift w k L x; if Z.even x then op_invA w k L else op_invB w k L]) /\
  same k L [op_invA w k L; op_flip w k L] [op_flip w k L; if Nat.even L then op_invB w k L else op_invA w k L].
Proof. intros w k L x H HS Hx F. split; [intros HE|]; intros s sg Hs; [apply rel_ta|apply rel_pa]; assumption. Qed.
Print Assumptions C38_sublattices_move.

(* The type chosen by get_basis_type is wide enough: without particle conservation for spins, bosons and spinless fermions
   on chains of other than 32 and 64 sites, with at least one particle (of the first species) for spins, hard-core
   bosons, spinless fermions (same exception) and spinful fermions. *)
Theorem C38_chosen_type : forall k L, 1 <= L -> (2 <= levels k)%N ->
  (match k with Hcp true => L <> 32 /\ L <> 64 | Spf => False | _ => True end -> states_fit (basis_type k L None) k L) /\
  (match k with Hcp true => L <> 32 /\ L <> 64 | Boson _ => False | _ => True end -> forall np nq, (1 <= np)%N -> states_fit (basis_type k L (Some (np, nq))) k L).
Proof. intros k L HL HB. split; intros Hk; [apply type_all; assumption|intros np nq Hn; apply type_particles; assumption]. Qed.
Print Assumptions C38_chosen_type.

(* Spinless fermions on 32 or 64 sites: translation and reflection are undefined on every state (negative shift count in
   the population count). *)
Theorem C38_spinless_word_chain_refuted : forall L, L = 32 \/ L = 64 -> forall x s sg,
  op_shift (basis_type (Hcp true) L None) (Hcp true) L x (s, sg) = None /\ op_flip (basis_type (Hcp true) L None) (Hcp true) L (s, sg) = None.
Proof.
  intros L [-> | ->] x s sg; destruct full_type as [E1 E2].
  - rewrite E1. split; [apply hcp_full_shift|apply hcp_full_flip]; reflexivity.
  - rewrite E2. split; [apply hcp_full_shift|apply hcp_full_flip]; reflexivity.
Qed.
Print Assumptions C38_spinless_word_chain_refuted.

(* Spinful fermions without particle conservation: the type is chosen for L bits although a state has 2L, so that on 17 to
   32 sites the state with one particle of the first species on the first site is lost (its word is wrapped to zero). *)
Theorem C38_spinful_type_refuted : forall L, 17 <= L <= 32 -> basis_type Spf L None = U32 /\ ~ states_fit (basis_type Spf L None) Spf L /\
  wrap (basis_type Spf L None) (2 ^ N.of_nat (2 * L - 1)) = 0%N.
Proof.
  intros L HL. assert (E : basis_type Spf L None = U32).
  { unfold basis_type, word_for. destruct (N.ltb_spec (2 ^ N.of_nat L - 1) (2 ^ 32)) as [_|H]; [reflexivity|]. assert (P : (2 ^ N.of_nat L <= 2 ^ 32)%N) by (apply N.pow_le_mono_r; lia). pose proof (N.pow_nonzero 2 (N.of_nat L) ltac:(lia)). lia. }
  rewrite E. split; [reflexivity|]. split; [intros [_ H]; cbn in H; lia|]. cbn [wrap]. replace (N.of_nat (2 * L - 1)) with (N.of_nat (2 * L - 33) + 32)%N by lia. rewrite N.pow_add_r. apply N.mod_mul. apply N.pow_nonzero. lia.
Qed.
Print Assumptions C38_spinful_type_refuted.
(* Spinful fermions on 32 sites with one particle of the second species only: uint32, and translation shifts by the width. *)
Theorem C38_spinful_one_particle_refuted : basis_type Spf 32 (Some (0%N, 1%N)) = U32 /\ forall x s sg, op_shift U32 Spf 32 x (s, sg) = None.
Proof. split; [vm_compute; reflexivity|]. intros. reflexivity. Qed.
Print Assumptions C38_spinful_one_particle_refuted.

(* The documentation of zAblock and zBblock (spin.py:89-91, boson.py:70-72) calls A the even and B the odd lattice sites.
   On chains of even length the operations do the opposite; on odd chains they agree with it. *)
Theorem C38_sublattice_names_refuted : forall w k L, states_fit w k L -> has_sublattices k ->
  acts (fermionic k) (levels k) L (chain_inv L (fun j => j mod 2 =? if Nat.even L then 1 else 0)) (op_invA w k L) /\
  acts (fermionic k) (levels k) L (chain_inv L (fun j => j mod 2 =? if Nat.even L then 0 else 1)) (op_invB w k L).
Proof.
  intros w k L H HS. destruct (sub_sites w k L H HS) as [E _].
  assert (X : forall r, r < 2 -> chain_inv L (from_right L r) = chain_inv L (fun j => j mod 2 =? if Nat.even L then 1 - r else r)).
  { intros r Hr. unfold chain_inv. apply map_ext_in. intros j Hj. apply in_seq in Hj. unfold from_right. replace ((L - 1 - j) mod 2 =? r) with (j mod 2 =? if Nat.even L then 1 - r else r); [reflexivity|].
    pose proof (Nat.mod_upper_bound j 2 ltac:(lia)) as U1. pose proof (Nat.mod_upper_bound (L - 1 - j) 2 ltac:(lia)) as U2. pose proof (Nat.div_mod j 2 ltac:(lia)) as D1. pose proof (Nat.div_mod (L - 1 - j) 2 ltac:(lia)) as D2.
    destruct (Nat.even L) eqn:EL.
    - apply Nat.even_spec in EL. destruct EL as [h EL]. destruct (Nat.eqb_spec (j mod 2) (1 - r)), (Nat.eqb_spec ((L - 1 - j) mod 2) r); try reflexivity; lia.
    - rewrite <- Nat.negb_odd in EL. apply negb_false_iff, Nat.odd_spec in EL. destruct EL as [h EL]. destruct (Nat.eqb_spec (j mod 2) r), (Nat.eqb_spec ((L - 1 - j) mod 2) r); try reflexivity; lia. }
  split.
  - pose proof (op_invA_acts w k L H HS) as A. rewrite E, (X 0) in A by lia. exact A.
  - pose proof (op_invB_acts w k L H HS) as A. rewrite E, (X 1) in A by lia. replace (if Nat.even L then 0 else 1) with (if Nat.even L then 1 - 1 else 1) by (destruct (Nat.even L); reflexivity). exact A.
Qed.
Print Assumptions C38_sublattice_names_refuted.
Example C38_sublattice_four_sites : op_invA U32 (Hcp false) 4 (0%N, 1%Z) = Some (5%N, 1%Z). Proof. reflexivity. Qed.

(* the hypotheses are met, with word-filling spin chains, fermion signs, higher spins and spinful fermions *)
Example C38_hyps : states_fit U32 (Hcp false) 32 /\ shift_fits U32 (Hcp false) 32 5 /\ states_fit U32 (Hcp true) 31 /\ states_fit U64 (Boson 3) 21 /\ states_fit U32 Spf 16 /\ shift_fits U32 Spf 16 0.
Proof.
  unfold shift_fits, states_fit, at_most, less_than. cbn [word_bits]. repeat match goal with |- _ /\ _ => split end; try exact I; try lia.
  all: apply N.leb_le; vm_compute; reflexivity.
Qed.
Example C38_signs : op_shift U32 (Hcp true) 4 (-1) (9%N, 1%Z) = Some (12%N, (-1)%Z) /\ op_flip U32 (Hcp true) 4 (3%N, 1%Z) = Some (12%N, (-1)%Z) /\
  op_shift U32 Spf 2 1 (7%N, 1%Z) = Some (11%N, (-1)%Z) /\ op_inv U32 Spf 2 (6%N, 1%Z) = Some (9%N, (-1)%Z).
Proof. repeat split. Qed.
