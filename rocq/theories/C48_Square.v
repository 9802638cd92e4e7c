(* C48: the transformations of the square lattice helper are valid symmetry maps with the right periods and the group relations of the lattice; the blocks it
   offers ask for eigenvalues that agree with those relations. *)
From Verif Require Import AuxN SpecDigits SpecMaps SpecLattice M_maps M_square P_maps P_period P_square P_square2 P_square3.
Local Open Scope nat_scope.

(* each array is a signed permutation of the sites and moves the particle at (x, y) where the lattice transformation says *)
Theorem C48_maps : forall Lx Ly, 1 <= Lx -> 1 <= Ly ->
  let valid m g inv := signed_perm (Lx * Ly) m /\ acts_as Lx Ly m g inv in
  valid (sq_Tx Lx Ly) (fun x y => (right_of Lx x, y)) no_inv /\ valid (sq_Ty Lx Ly) (fun x y => (x, right_of Ly y)) no_inv /\
  valid (sq_Px Lx Ly) (fun x y => (Lx - 1 - x, y)) no_inv /\ valid (sq_Py Lx Ly) (fun x y => (x, Ly - 1 - y)) no_inv /\
  valid (sq_Z Lx Ly) (fun x y => (x, y)) all_inv /\ valid (sq_ZA Lx Ly) (fun x y => (x, y)) sub_A /\ valid (sq_ZB Lx Ly) (fun x y => (x, y)) sub_B /\
  (forall m, sq_Pd Lx Ly = Some m -> valid m (fun x y => (y, x)) no_inv) /\ (forall m, sq_Pe Lx Ly = Some m -> valid m (fun x y => (Ly - 1 - y, Lx - 1 - x)) no_inv) /\
  (Lx = Ly <-> sq_Pd Lx Ly <> None) /\ (Lx = Ly <-> sq_Pe Lx Ly <> None).
Proof.
  intros Lx Ly H1 H2 valid. assert (G : forall m l, good Lx Ly m l -> valid m (fst l) (snd l)) by (intros m l (A & _ & P); split; assumption).
  split; [exact (G _ _ (gTx Lx Ly H1 H2))|]. split; [exact (G _ _ (gTy Lx Ly H1 H2))|]. split; [exact (G _ _ (gPx Lx Ly H1 H2))|]. split; [exact (G _ _ (gPy Lx Ly H1 H2))|].
  split; [exact (G _ _ (gZ Lx Ly H1 H2))|]. split; [exact (G _ _ (gZA Lx Ly H1 H2))|]. split; [exact (G _ _ (gZB Lx Ly H1 H2))|].
  split; [intros m E; exact (G _ _ (gPd Lx Ly H1 H2 m E))|]. split; [intros m E; exact (G _ _ (gPe Lx Ly H1 H2 m E))|].
  unfold sq_Pd, sq_Pe. destruct (Nat.eqb_spec Lx Ly); split; split; intros; congruence.
Qed.
Print Assumptions C48_maps.
(* the period that the basis computes for each map *)
Theorem C48_periods : forall Lx Ly, 1 <= Lx -> 1 <= Ly ->
  let period m p := exists fuel0, forall fuel, fuel0 <= fuel -> process_map fuel m = PM_period p in
  period (sq_Tx Lx Ly) Lx /\ period (sq_Ty Lx Ly) Ly /\ period (sq_Px Lx Ly) (if 2 <=? Lx then 2 else 1) /\ period (sq_Py Lx Ly) (if 2 <=? Ly then 2 else 1) /\
  (forall m, sq_Pd Lx Ly = Some m \/ sq_Pe Lx Ly = Some m -> period m (if 2 <=? Lx then 2 else 1)) /\
  period (sq_Z Lx Ly) 2 /\ period (sq_ZA Lx Ly) 2 /\ (2 <= Lx * Ly -> period (sq_ZB Lx Ly) 2).
Proof.
  intros Lx Ly H1 H2 period. split; [exact (per_Tx Lx Ly H1 H2)|]. split; [exact (per_Ty Lx Ly H1 H2)|]. split; [exact (per_Px Lx Ly H1 H2)|]. split; [exact (per_Py Lx Ly H1 H2)|].
  split; [intros m [E|E]; [exact (per_Pd Lx Ly H1 H2 m E)|exact (per_Pe Lx Ly H1 H2 m E)]|]. split; [exact (per_Z Lx Ly H1 H2)|]. split; [exact (per_ZA Lx Ly H1 H2)|]. exact (per_ZB Lx Ly H1 H2).
Qed.
Print Assumptions C48_periods.
(* translations commute with each other and with the inversion *)
Theorem C48_translations : forall Lx Ly B s, 1 <= Lx -> 1 <= Ly -> (2 <= B)%N -> (s < B ^ N.of_nat (Lx * Ly))%N ->
  boson_map_bits B (Lx * Ly) (sq_Tx Lx Ly) (boson_map_bits B (Lx * Ly) (sq_Ty Lx Ly) s) = boson_map_bits B (Lx * Ly) (sq_Ty Lx Ly) (boson_map_bits B (Lx * Ly) (sq_Tx Lx Ly) s) /\
  boson_map_bits B (Lx * Ly) (sq_Tx Lx Ly) (boson_map_bits B (Lx * Ly) (sq_Z Lx Ly) s) = boson_map_bits B (Lx * Ly) (sq_Z Lx Ly) (boson_map_bits B (Lx * Ly) (sq_Tx Lx Ly) s) /\
  boson_map_bits B (Lx * Ly) (sq_Ty Lx Ly) (boson_map_bits B (Lx * Ly) (sq_Z Lx Ly) s) = boson_map_bits B (Lx * Ly) (sq_Z Lx Ly) (boson_map_bits B (Lx * Ly) (sq_Ty Lx Ly) s).
Proof.
  intros Lx Ly B s H1 H2 HB Hs. split; [apply (TxTy Lx Ly H1 H2 B s); assumption|]. split; [apply (TxZ Lx Ly H1 H2 B s); assumption|]. apply (TyZ Lx Ly H1 H2 B s); assumption.
Qed.
Print Assumptions C48_translations.
(* a reflection inverts the translation in its direction, commutes with the others and is its own inverse *)
Theorem C48_reflections : forall Lx Ly B s, 1 <= Lx -> 1 <= Ly -> (2 <= B)%N -> (s < B ^ N.of_nat (Lx * Ly))%N ->
  boson_map_bits B (Lx * Ly) (sq_Tx Lx Ly) (boson_map_bits B (Lx * Ly) (sq_Px Lx Ly) (boson_map_bits B (Lx * Ly) (sq_Tx Lx Ly) s)) = boson_map_bits B (Lx * Ly) (sq_Px Lx Ly) s /\
  boson_map_bits B (Lx * Ly) (sq_Ty Lx Ly) (boson_map_bits B (Lx * Ly) (sq_Py Lx Ly) (boson_map_bits B (Lx * Ly) (sq_Ty Lx Ly) s)) = boson_map_bits B (Lx * Ly) (sq_Py Lx Ly) s /\
  boson_map_bits B (Lx * Ly) (sq_Px Lx Ly) (boson_map_bits B (Lx * Ly) (sq_Ty Lx Ly) s) = boson_map_bits B (Lx * Ly) (sq_Ty Lx Ly) (boson_map_bits B (Lx * Ly) (sq_Px Lx Ly) s) /\
  boson_map_bits B (Lx * Ly) (sq_Py Lx Ly) (boson_map_bits B (Lx * Ly) (sq_Tx Lx Ly) s) = boson_map_bits B (Lx * Ly) (sq_Tx Lx Ly) (boson_map_bits B (Lx * Ly) (sq_Py Lx Ly) s) /\
  boson_map_bits B (Lx * Ly) (sq_Px Lx Ly) (boson_map_bits B (Lx * Ly) (sq_Py Lx Ly) s) = boson_map_bits B (Lx * Ly) (sq_Py Lx Ly) (boson_map_bits B (Lx * Ly) (sq_Px Lx Ly) s) /\
  boson_map_bits B (Lx * Ly) (sq_Px Lx Ly) (boson_map_bits B (Lx * Ly) (sq_Px Lx Ly) s) = s /\
  boson_map_bits B (Lx * Ly) (sq_Py Lx Ly) (boson_map_bits B (Lx * Ly) (sq_Py Lx Ly) s) = s /\
  boson_map_bits B (Lx * Ly) (sq_Px Lx Ly) (boson_map_bits B (Lx * Ly) (sq_Z Lx Ly) s) = boson_map_bits B (Lx * Ly) (sq_Z Lx Ly) (boson_map_bits B (Lx * Ly) (sq_Px Lx Ly) s) /\
  boson_map_bits B (Lx * Ly) (sq_Py Lx Ly) (boson_map_bits B (Lx * Ly) (sq_Z Lx Ly) s) = boson_map_bits B (Lx * Ly) (sq_Z Lx Ly) (boson_map_bits B (Lx * Ly) (sq_Py Lx Ly) s).
Proof.
  intros Lx Ly B s H1 H2 HB Hs. split; [apply (TxPxTx Lx Ly H1 H2 B s); assumption|]. split; [apply (TyPyTy Lx Ly H1 H2 B s); assumption|]. split; [apply (PxTy Lx Ly H1 H2 B s); assumption|]. split; [apply (PyTx Lx Ly H1 H2 B s); assumption|]. split; [apply (PxPy Lx Ly H1 H2 B s); assumption|]. split; [apply (PxPx Lx Ly H1 H2 B s); assumption|]. split; [apply (PyPy Lx Ly H1 H2 B s); assumption|]. split; [apply (PxZ Lx Ly H1 H2 B s); assumption|]. apply (PyZ Lx Ly H1 H2 B s); assumption.
Qed.
Print Assumptions C48_reflections.
(* the diagonal reflections exchange the directions; P_e is P_x P_y P_d *)
Theorem C48_diagonals : forall Lx Ly B s, 1 <= Lx -> 1 <= Ly -> (2 <= B)%N -> (s < B ^ N.of_nat (Lx * Ly))%N ->
  (forall md, sq_Pd Lx Ly = Some md -> boson_map_bits B (Lx * Ly) (md) (boson_map_bits B (Lx * Ly) (md) s) = s) /\
  (forall md, sq_Pd Lx Ly = Some md -> boson_map_bits B (Lx * Ly) (md) (boson_map_bits B (Lx * Ly) (sq_Tx Lx Ly) s) = boson_map_bits B (Lx * Ly) (sq_Ty Lx Ly) (boson_map_bits B (Lx * Ly) (md) s)) /\
  (forall md, sq_Pd Lx Ly = Some md -> boson_map_bits B (Lx * Ly) (md) (boson_map_bits B (Lx * Ly) (sq_Px Lx Ly) s) = boson_map_bits B (Lx * Ly) (sq_Py Lx Ly) (boson_map_bits B (Lx * Ly) (md) s)) /\
  (forall md, sq_Pd Lx Ly = Some md -> boson_map_bits B (Lx * Ly) (md) (boson_map_bits B (Lx * Ly) (sq_Z Lx Ly) s) = boson_map_bits B (Lx * Ly) (sq_Z Lx Ly) (boson_map_bits B (Lx * Ly) (md) s)) /\
  (forall me, sq_Pe Lx Ly = Some me -> boson_map_bits B (Lx * Ly) (me) (boson_map_bits B (Lx * Ly) (me) s) = s) /\
  (forall md me, sq_Pd Lx Ly = Some md -> sq_Pe Lx Ly = Some me -> boson_map_bits B (Lx * Ly) (sq_Px Lx Ly) (boson_map_bits B (Lx * Ly) (sq_Py Lx Ly) (boson_map_bits B (Lx * Ly) (md) s)) = boson_map_bits B (Lx * Ly) (me) s) /\
  (forall me, sq_Pe Lx Ly = Some me -> boson_map_bits B (Lx * Ly) (sq_Tx Lx Ly) (boson_map_bits B (Lx * Ly) (me) (boson_map_bits B (Lx * Ly) (sq_Ty Lx Ly) s)) = boson_map_bits B (Lx * Ly) (me) s) /\
  (forall me, sq_Pe Lx Ly = Some me -> boson_map_bits B (Lx * Ly) (me) (boson_map_bits B (Lx * Ly) (sq_Z Lx Ly) s) = boson_map_bits B (Lx * Ly) (sq_Z Lx Ly) (boson_map_bits B (Lx * Ly) (me) s)).
Proof.
  intros Lx Ly B s H1 H2 HB Hs. split; [intros md h0; apply (PdPd Lx Ly H1 H2 md B s); assumption|]. split; [intros md h0; apply (PdTx Lx Ly H1 H2 md B s); assumption|]. split; [intros md h0; apply (PdPx Lx Ly H1 H2 md B s); assumption|]. split; [intros md h0; apply (PdZ Lx Ly H1 H2 md B s); assumption|]. split; [intros me h0; apply (PePe Lx Ly H1 H2 me B s); assumption|]. split; [intros md me h0 h1; apply (PxPyPd Lx Ly H1 H2 md me B s); assumption|]. split; [intros me h0; apply (PeTx Lx Ly H1 H2 me B s); assumption|]. intros me h0; apply (PeZ Lx Ly H1 H2 me B s); assumption.
Qed.
Print Assumptions C48_diagonals.
(* the inversions of the sublattices are involutions and their product, in either order, is the inversion of all sites *)
Theorem C48_sublattices : forall Lx Ly B s, 1 <= Lx -> 1 <= Ly -> (2 <= B)%N -> (s < B ^ N.of_nat (Lx * Ly))%N ->
  boson_map_bits B (Lx * Ly) (sq_Z Lx Ly) (boson_map_bits B (Lx * Ly) (sq_Z Lx Ly) s) = s /\
  boson_map_bits B (Lx * Ly) (sq_ZA Lx Ly) (boson_map_bits B (Lx * Ly) (sq_ZA Lx Ly) s) = s /\
  boson_map_bits B (Lx * Ly) (sq_ZB Lx Ly) (boson_map_bits B (Lx * Ly) (sq_ZB Lx Ly) s) = s /\
  boson_map_bits B (Lx * Ly) (sq_ZA Lx Ly) (boson_map_bits B (Lx * Ly) (sq_ZB Lx Ly) s) = boson_map_bits B (Lx * Ly) (sq_Z Lx Ly) s /\
  boson_map_bits B (Lx * Ly) (sq_ZB Lx Ly) (boson_map_bits B (Lx * Ly) (sq_ZA Lx Ly) s) = boson_map_bits B (Lx * Ly) (sq_Z Lx Ly) s /\
  (forall md, sq_Pd Lx Ly = Some md -> boson_map_bits B (Lx * Ly) (md) (boson_map_bits B (Lx * Ly) (sq_ZA Lx Ly) s) = boson_map_bits B (Lx * Ly) (sq_ZA Lx Ly) (boson_map_bits B (Lx * Ly) (md) s)).
Proof.
  intros Lx Ly B s H1 H2 HB Hs. split; [apply (ZZ Lx Ly H1 H2 B s); assumption|]. split; [apply (ZAZA Lx Ly H1 H2 B s); assumption|]. split; [apply (ZBZB Lx Ly H1 H2 B s); assumption|]. split; [apply (ZAZB Lx Ly H1 H2 B s); assumption|]. split; [apply (ZBZA Lx Ly H1 H2 B s); assumption|]. intros md h0; apply (PdZA Lx Ly H1 H2 md B s); assumption.
Qed.
Print Assumptions C48_sublattices.
(* translations exchange the sublattices when the length is even; so do the reflections, which keep them when it is odd *)
Theorem C48_sublattice_exchange : forall Lx Ly B s, 1 <= Lx -> 1 <= Ly -> (2 <= B)%N -> (s < B ^ N.of_nat (Lx * Ly))%N ->
  (Nat.even Lx = true -> boson_map_bits B (Lx * Ly) (sq_Tx Lx Ly) (boson_map_bits B (Lx * Ly) (sq_ZA Lx Ly) s) = boson_map_bits B (Lx * Ly) (sq_ZB Lx Ly) (boson_map_bits B (Lx * Ly) (sq_Tx Lx Ly) s)) /\
  (Nat.even Ly = true -> boson_map_bits B (Lx * Ly) (sq_Ty Lx Ly) (boson_map_bits B (Lx * Ly) (sq_ZA Lx Ly) s) = boson_map_bits B (Lx * Ly) (sq_ZB Lx Ly) (boson_map_bits B (Lx * Ly) (sq_Ty Lx Ly) s)) /\
  (Nat.even Lx = true -> boson_map_bits B (Lx * Ly) (sq_Px Lx Ly) (boson_map_bits B (Lx * Ly) (sq_ZA Lx Ly) s) = boson_map_bits B (Lx * Ly) (sq_ZB Lx Ly) (boson_map_bits B (Lx * Ly) (sq_Px Lx Ly) s)) /\
  (Nat.even Ly = true -> boson_map_bits B (Lx * Ly) (sq_Py Lx Ly) (boson_map_bits B (Lx * Ly) (sq_ZA Lx Ly) s) = boson_map_bits B (Lx * Ly) (sq_ZB Lx Ly) (boson_map_bits B (Lx * Ly) (sq_Py Lx Ly) s)) /\
  (Nat.even Lx = false -> boson_map_bits B (Lx * Ly) (sq_Px Lx Ly) (boson_map_bits B (Lx * Ly) (sq_ZA Lx Ly) s) = boson_map_bits B (Lx * Ly) (sq_ZA Lx Ly) (boson_map_bits B (Lx * Ly) (sq_Px Lx Ly) s)) /\
  (Nat.even Ly = false -> boson_map_bits B (Lx * Ly) (sq_Py Lx Ly) (boson_map_bits B (Lx * Ly) (sq_ZA Lx Ly) s) = boson_map_bits B (Lx * Ly) (sq_ZA Lx Ly) (boson_map_bits B (Lx * Ly) (sq_Py Lx Ly) s)).
Proof.
  intros Lx Ly B s H1 H2 HB Hs. split; [intros h0; apply (TxZA Lx Ly H1 H2 B s); assumption|]. split; [intros h0; apply (TyZA Lx Ly H1 H2 B s); assumption|]. split; [intros h0; apply (PxZA Lx Ly H1 H2 B s); assumption|]. split; [intros h0; apply (PyZA Lx Ly H1 H2 B s); assumption|]. split; [intros h0; apply (PxZA_odd Lx Ly H1 H2 B s); assumption|]. intros h0; apply (PyZA_odd Lx Ly H1 H2 B s); assumption.
Qed.
Print Assumptions C48_sublattice_exchange.

(* every block that allowed_blocks_iter offers: a reflection is only asked for when the momentum along it is its own opposite; P_d only with equal, P_e only with
   opposite momenta, and with equal parities; no block is offered twice *)
Theorem C48_blocks : forall Lx Ly, 1 <= Lx -> 1 <= Ly ->
  NoDup (allowed_blocks Lx Ly) /\
  forall b, In b (allowed_blocks Lx Ly) ->
    (px b <> None -> self_opposite Lx (kx b)) /\ (py b <> None -> self_opposite Ly (ky b)) /\
    (Lx = Ly -> forall m d, pd b = Some (m, d) -> px b = py b /\
       ((m = sq_Pd Lx Ly /\ same_momentum Lx (kx b) (ky b)) \/ (m = sq_Pe Lx Ly /\ same_momentum Lx (kx b) (- ky b)))).
Proof.
  intros Lx Ly H1 H2. split; [apply allowed_nodup; assumption|]. intros b I. destruct (allowed_consistent Lx Ly H1 H2 b I) as (_ & _ & C1 & C2 & C3). split; [exact C1|]. split; [exact C2|].
  intros E m d Ed. destruct (C3 m d Ed) as [(A & B & C)|(A & _ & B & C)]; split; auto.
Qed.
Print Assumptions C48_blocks.
(* the momenta that are offered: one of them is its own opposite, or they are equal or opposite on an L x L lattice; the range of momenta contains every momentum once *)
Theorem C48_momenta : forall Lx Ly k1 k2, 1 <= Lx -> 1 <= Ly ->
  (exists! k, In k (k_range Lx) /\ same_momentum Lx k1 k) /\
  (In k1 (k_range Lx) -> In k2 (k_range Ly) ->
   ((exists b, In b (allowed_blocks Lx Ly) /\ kx b = k1 /\ ky b = k2) <-> self_opposite Lx k1 \/ self_opposite Ly k2 \/ (Lx = Ly /\ (k1 = k2 \/ k1 = (- k2)%Z)))).
Proof. intros Lx Ly k1 k2 H1 H2. split; [apply (krange_residue Lx Ly); assumption|]. apply covered; assumption. Qed.
Print Assumptions C48_momenta.
(* the blocks do not cover all states: a generic momentum is missing *)
Theorem C48_all_momenta_refuted : exists Lx Ly k1 k2, 1 <= Lx /\ 1 <= Ly /\ In k1 (k_range Lx) /\ In k2 (k_range Ly) /\ forall b, In b (allowed_blocks Lx Ly) -> ~ (kx b = k1 /\ ky b = k2).
Proof.
  exists 5, 5, 1%Z, 2%Z. split; [lia|]. split; [lia|]. split; [vm_compute; tauto|]. split; [vm_compute; tauto|]. intros b I [E1 E2]. apply (in_allowed 5 5 ltac:(lia) ltac:(lia)) in I. rewrite E1, E2 in I. destruct I as (_ & _ & I). exact I.
Qed.
Print Assumptions C48_all_momenta_refuted.
(* on a lattice that is not square, with both lengths even, some blocks contain the python None instead of a diagonal reflection *)
Theorem C48_diagonal_block_refuted : exists Lx Ly b d, 1 <= Lx /\ 1 <= Ly /\ In b (allowed_blocks Lx Ly) /\ pd b = Some (None, d).
Proof. exists 2, 4, {| kx := 1; ky := 2; px := Some 0; py := Some 0; pd := Some (None, 0) |}, 0. split; [lia|]. split; [lia|]. split; [vm_compute; tauto|reflexivity]. Qed.
Print Assumptions C48_diagonal_block_refuted.
(* translations exchange the sublattices only when the length is even *)
Theorem C48_odd_length_refuted : exists Lx Ly s, 1 <= Lx /\ 1 <= Ly /\ (s < 2 ^ N.of_nat (Lx * Ly))%N /\
  boson_map_bits 2 (Lx * Ly) (sq_Tx Lx Ly) (boson_map_bits 2 (Lx * Ly) (sq_ZA Lx Ly) s) <> boson_map_bits 2 (Lx * Ly) (sq_ZB Lx Ly) (boson_map_bits 2 (Lx * Ly) (sq_Tx Lx Ly) s).
Proof. exists 3, 1, 0%N. split; [lia|]. split; [lia|]. split; [reflexivity|]. vm_compute. discriminate. Qed.
Print Assumptions C48_odd_length_refuted.
(* with inversion: a loop over the generator sees every block with both values of zblock *)
Theorem C48_inversion_loop : forall Lx Ly b z, In (b, z) (inversion_loop Lx Ly) <-> In b (allowed_blocks Lx Ly) /\ (z = Some 0 \/ z = Some 1).
Proof.
  intros Lx Ly b z. unfold inversion_loop. rewrite in_flat_map. split.
  - intros (c & H & [E|[E|[]]]); injection E as <- <-; auto.
  - intros [H [-> | ->]]; exists b; (split; [exact H|]); cbn; auto.
Qed.
Print Assumptions C48_inversion_loop.
(* but a list made of the generator contains every block twice without zblock *)
Theorem C48_inversion_list_refuted : forall Lx Ly b z, In (b, z) (inversion_list Lx Ly) -> z = None.
Proof. intros Lx Ly b z H. apply in_flat_map in H. destruct H as (c & _ & [E|[E|[]]]); injection E as _ <-; reflexivity. Qed.
Print Assumptions C48_inversion_list_refuted.

(* a 4 x 2 lattice: the translation, a state it moves, a diagonal reflection of the 2 x 2 lattice and some blocks *)
Example C48_example_maps : sq_Tx 4 2 = [1; 2; 3; 0; 5; 6; 7; 4]%Z /\ boson_map_bits 2 8 (sq_Tx 4 2) 128 = 64%N /\ sq_Pd 2 2 = Some [0; 2; 1; 3]%Z /\ process_map 10 (sq_Tx 4 2) = PM_period 4.
Proof. repeat split. Qed.
Example C48_example_blocks : length (allowed_blocks 3 3) = 22 /\ length (inversion_list 2 4) = 2 * length (allowed_blocks 2 4) /\ length (allowed_blocks 2 4) = 22 /\ self_opposite 4 2.
Proof. repeat split. exists 1%Z. reflexivity. Qed.
