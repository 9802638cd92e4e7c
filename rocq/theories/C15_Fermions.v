(* C15: fermion operator strings obey the canonical anticommutation relations. *)
From Verif Require Import AuxN SpecC SpecBits SpecMaps SpecOps M_bitcount M_ops P_fermion.
Local Open Scope nat_scope.

(* The matrix that the basis realises for one letter on one site is op_matrix (fermion_op bytes n [(o, i)]), abbreviated cop.
   n: number of sites (twice the lattice sites for spinful fermions), fitting the integer type of the given number of bytes. *)
Theorem C15_anticommute_different_sites : forall bytes n o o' i j,
  (N.of_nat n <= 8 * bytes)%N -> n <= 256 -> (o = "+" \/ o = "-")%char -> (o' = "+" \/ o' = "-")%char -> i < n -> j < n -> i <> j ->
  let M := N.to_nat (2 ^ N.of_nat n) in
  let c o i := op_matrix (fermion_op bytes n [(o, i)]) in
  meq M (madd (mmul M (c o i) (c o' j)) (mmul M (c o' j) (c o i))) (fun _ _ => C0).
Proof. intros bytes n o o' i j Hw Hn. exact (car_different bytes n Hw Hn o o' i j). Qed.
Print Assumptions C15_anticommute_different_sites.

Theorem C15_anticommute_same_site : forall bytes n i, (N.of_nat n <= 8 * bytes)%N -> n <= 256 -> i < n ->
  let M := N.to_nat (2 ^ N.of_nat n) in
  let c o i := op_matrix (fermion_op bytes n [(o, i)]) in
  meq M (madd (mmul M (c "-"%char i) (c "+"%char i)) (mmul M (c "+"%char i) (c "-"%char i))) mident /\
  meq M (mmul M (c "-"%char i) (c "-"%char i)) (fun _ _ => C0) /\ meq M (mmul M (c "+"%char i) (c "+"%char i)) (fun _ _ => C0).
Proof.
  intros bytes n i Hw Hn Hi. cbv zeta. split; [exact (car_same bytes n Hw Hn i Hi)|].
  split; [exact (car_same_cc bytes n Hw Hn i _ (or_intror eq_refl) Hi)|exact (car_same_cc bytes n Hw Hn i _ (or_introl eq_refl) Hi)].
Qed.
Print Assumptions C15_anticommute_same_site.

(* + is the adjoint of -, n = c^+ c is the occupation, z = n - 1/2, I the identity *)
Theorem C15_letters : forall bytes n i, (N.of_nat n <= 8 * bytes)%N -> n <= 256 -> i < n ->
  let M := N.to_nat (2 ^ N.of_nat n) in
  let c o i := op_matrix (fermion_op bytes n [(o, i)]) in
  meq M (c "+"%char i) (madj (c "-"%char i)) /\
  meq M (mmul M (c "+"%char i) (c "-"%char i)) (c "n"%char i) /\
  meq M (c "n"%char i) (fun r s => if (r =? s)%N then (if (site_val 2 n s i =? 1)%N then C1 else C0) else C0) /\
  meq M (c "z"%char i) (madd (c "n"%char i) (mscale (RtoC (- (1 / 2))) mident)) /\
  meq M (c "I"%char i) mident.
Proof.
  intros bytes n i Hw Hn Hi. cbv zeta. split; [exact (adjoint_op bytes n Hw Hn i Hi)|]. split; [exact (number_op bytes n Hw Hn i Hi)|].
  split; [exact (number_diag bytes n Hw Hn i Hi)|]. split; [exact (z_op bytes n Hw Hn i Hi)|exact (identity_op bytes n Hw Hn i Hi)].
Qed.
Print Assumptions C15_letters.

(* strings are products *)
Theorem C15_string_is_product : forall bytes n l, (N.of_nat n <= 8 * bytes)%N -> n <= 256 ->
  Forall (fun oi => In (fst oi) ["I"; "n"; "z"; "+"; "-"]%char /\ snd oi < n) l ->
  acts_as (N.to_nat (2 ^ N.of_nat n)) (fermion_op bytes n l)
    (string_matrix (N.to_nat (2 ^ N.of_nat n)) (fun o i => op_matrix (fermion_op bytes n [(o, i)])) l).
Proof. intros bytes n l Hw Hn. exact (fermion_string_acts bytes n Hw Hn l). Qed.
Print Assumptions C15_string_is_product.

(* spinful basis on L sites: "up|down" acts with the up letters on site i and the down letters on site L + i of 2L *)
Theorem C15_spinful_string : forall bytes L up down, (N.of_nat (2 * L) <= 8 * bytes)%N -> 2 * L <= 256 ->
  Forall (fun oi => In (fst oi) ["I"; "n"; "z"; "+"; "-"]%char /\ snd oi < L) (up ++ down) ->
  exists l, simple_to_adv L (map fst up ++ "|"%char :: map fst down) (map snd up ++ map snd down) = Some l /\
    acts_as (N.to_nat (2 ^ N.of_nat (2 * L))) (fermion_op bytes (2 * L) l)
      (string_matrix (N.to_nat (2 ^ N.of_nat (2 * L))) (fun o i => op_matrix (fermion_op bytes (2 * L) [(o, i)]))
         (up ++ map (fun oi => (fst oi, snd oi + L)) down)).
Proof.
  intros bytes L up down Hw Hn HA. apply Forall_app in HA. destruct HA as [HU HD].
  eexists. split.
  - apply simple_to_adv_spec. eapply Forall_impl; [|exact HU]. intros [o i] [Ho _] E. cbn [fst] in *. subst o. cbn in Ho.
    repeat (destruct Ho as [Ho|Ho]; [discriminate|]). exact Ho.
  - apply (fermion_string_acts bytes (2 * L) Hw Hn). apply Forall_app. split.
    + eapply Forall_impl; [|exact HU]. intros [o i] [Ho Hi]. cbn [fst snd] in *. split; [exact Ho|lia].
    + rewrite Forall_map. eapply Forall_impl; [|exact HD]. intros [o i] [Ho Hi]. cbn [fst snd] in *. split; [exact Ho|lia].
Qed.
Print Assumptions C15_spinful_string.

(* with more than 256 sites the relations fail (1024-bit states, bit counts above 255 are wrong, see C01):
   c_299 c_43^+ and c_43^+ c_299 give the same sign on the state with the last 256 of 300 sites occupied *)
Theorem C15_many_sites_refuted : exists n i j s r, i < n /\ j < n /\ i <> j /\ (N.of_nat n <= 8 * 128)%N /\ (s < 2 ^ N.of_nat n)%N /\
  fermion_op 128 n [("-", i); ("+", j)]%char s C1 = Some (r, RtoC (-1)) /\
  fermion_op 128 n [("+", j); ("-", i)]%char s C1 = Some (r, RtoC (-1)).
Proof.
  exists 300, 299, 43, (2 ^ 256 - 1)%N, (2 ^ 257 - 2)%N. do 3 (split; [lia|]). split; [vm_compute; discriminate|]. split; [vm_compute; reflexivity|].
  assert (Z1 : Czero (C1 * C1)%C = false).
  { destruct (Czero (C1 * C1)%C) eqn:E; [|reflexivity]. apply P_ops.Czero_true in E. apply (f_equal fst) in E. cbn in E. lra. }
  assert (Z2 : Czero (C1 * RtoC (-1))%C = false).
  { destruct (Czero (C1 * RtoC (-1))%C) eqn:E; [|reflexivity]. apply P_ops.Czero_true in E. apply (f_equal fst) in E. cbn in E. lra. }
  assert (Z3 : Czero (C1 * RtoC (-1) * C1)%C = false) by (replace (C1 * RtoC (-1) * C1)%C with (C1 * RtoC (-1))%C by ring; exact Z2).
  assert (Z4 : Czero (C1 * C1 * RtoC (-1))%C = false) by (replace (C1 * C1 * RtoC (-1))%C with (C1 * RtoC (-1))%C by ring; exact Z2).
  assert (L1 : fermion_local 128 300 "+"%char 43 (2 ^ 256 - 1) = Some ((2 ^ 257 - 1)%N, RtoC (-1))).
  { unfold fermion_local. replace (bit_count 128 (2 ^ 256 - 1) (N.of_nat (300 - 43 - 1))) with (Some 1%N) by (vm_compute; reflexivity).
    cbn [N.odd]. replace (N.testbit (2 ^ 256 - 1) (N.of_nat (300 - 43 - 1))) with false by (vm_compute; reflexivity). f_equal. }
  assert (L2 : fermion_local 128 300 "-"%char 299 (2 ^ 257 - 1) = Some ((2 ^ 257 - 2)%N, C1)).
  { unfold fermion_local. replace (bit_count 128 (2 ^ 257 - 1) (N.of_nat (300 - 299 - 1))) with (Some 0%N) by (vm_compute; reflexivity).
    cbn [N.odd]. replace (N.testbit (2 ^ 257 - 1) (N.of_nat (300 - 299 - 1))) with true by (vm_compute; reflexivity). f_equal. }
  assert (L3 : fermion_local 128 300 "-"%char 299 (2 ^ 256 - 1) = Some ((2 ^ 256 - 2)%N, C1)).
  { unfold fermion_local. replace (bit_count 128 (2 ^ 256 - 1) (N.of_nat (300 - 299 - 1))) with (Some 0%N) by (vm_compute; reflexivity).
    cbn [N.odd]. replace (N.testbit (2 ^ 256 - 1) (N.of_nat (300 - 299 - 1))) with true by (vm_compute; reflexivity). f_equal. }
  assert (L4 : fermion_local 128 300 "+"%char 43 (2 ^ 256 - 2) = Some ((2 ^ 257 - 2)%N, RtoC (-1))).
  { unfold fermion_local. replace (bit_count 128 (2 ^ 256 - 2) (N.of_nat (300 - 43 - 1))) with (Some 255%N) by (vm_compute; reflexivity).
    cbn [N.odd]. replace (N.testbit (2 ^ 256 - 2) (N.of_nat (300 - 43 - 1))) with false by (vm_compute; reflexivity). f_equal. }
  unfold fermion_op. cbn [rev app op_loop]. rewrite L1. cbv zeta. rewrite Z2, L2. cbv zeta. rewrite Z3. rewrite L3. cbv zeta. rewrite Z1, L4. cbv zeta. rewrite Z4.
  split; f_equal; f_equal; ring.
Qed.
Print Assumptions C15_many_sites_refuted.

Example C15_example : (N.of_nat 4 <= 8 * 4)%N /\ simple_to_adv 2 ["+"; "|"; "-"]%char [0; 1] = Some [("+", 0); ("-", 3)]%char.
Proof. split; [lia|reflexivity]. Qed.
