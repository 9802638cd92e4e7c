(* C42: states survive the conversion to a printed string and back, python integers survive the conversion to fixed-width integers exactly when they fit, and the
   integer type chosen for a basis holds all its states. *)
From Verif Require Import AuxN SpecDigits SpecMaps M_conv P_conv P_conv2.
Local Open Scope N_scope.

(* the printed string without brackets has one character per site, and the character at position j is the occupation of site j *)
Theorem C42_printed : forall sps n s, 2 <= sps <= 10 -> (n <= 64)%nat ->
  length (int_to_state sps n s false) = n /\ forall j, (j < n)%nat -> nth_error (int_to_state sps n s false) j = Some (Dg (site_val sps n s j)).
Proof.
  intros sps n s Hs Hn. rewrite print_short by lia. unfold bits_of. rewrite map_map. split; [rewrite map_length, seq_length; reflexivity|]. intros j Hj.
  rewrite nth_error_map, (nth_error_nth' _ 0%nat) by (rewrite seq_length; exact Hj). cbn [option_map]. rewrite seq_nth by exact Hj. unfold site_val, digit. do 6 f_equal. lia.
Qed.
Print Assumptions C42_printed.
(* reading the string gives the state back when it is in the basis, and an error when it is not: general and 1d bases, up to 10 states per site and 64 sites *)
Theorem C42_round_trip : forall w fuel sps n basis s, 2 <= sps <= 10 -> (1 <= n <= 64)%nat -> s < sps ^ N.of_nat n -> s < 2 ^ w -> (N.to_nat (N.size s) <= fuel)%nat ->
  (In s basis -> state_to_int w fuel sps basis (int_to_state sps n s false) = Bk s /\ state_to_int_1d sps basis (int_to_state sps n s false) = Bk s) /\
  (~ In s basis -> state_to_int w fuel sps basis (int_to_state sps n s false) = Bk_value_error /\ state_to_int_1d sps basis (int_to_state sps n s false) = Bk_value_error).
Proof.
  intros w fuel sps n basis s H1 H2 H3 H4 H5. rewrite (round_trip w fuel sps n basis s) by assumption. rewrite (round_trip_1d sps n basis s) by assumption. destruct (in_dec N.eq_dec s basis); split; intros; try contradiction; auto.
Qed.
Print Assumptions C42_round_trip.
(* with the default bracket notation the string cannot be read back, for any basis *)
Theorem C42_brackets_refuted : forall w fuel sps n basis s, state_to_int w fuel sps basis (int_to_state sps n s true) = Bk_value_error /\ state_to_int_1d sps basis (int_to_state sps n s true) = Bk_value_error.
Proof.
  intros w fuel sps n basis s. pose proof (bracket_bad sps n s) as I. assert (E : forall b, py_int b (int_to_state sps n s true) = None) by (intros b; apply (py_int_bad b Bar); [discriminate|reflexivity|exact I]). unfold state_to_int, state_to_int_1d. rewrite !E. auto.
Qed.
Print Assumptions C42_brackets_refuted.
(* with more than 64 sites the middle of the string is left out and it cannot be read back *)
Theorem C42_many_sites_refuted : forall w fuel sps n basis s b, (64 < n)%nat -> state_to_int w fuel sps basis (int_to_state sps n s b) = Bk_value_error /\ state_to_int_1d sps basis (int_to_state sps n s b) = Bk_value_error.
Proof.
  intros w fuel sps n basis s b H. pose proof (long_dots sps n s b H) as I. assert (E : forall c, py_int c (int_to_state sps n s b) = None) by (intros c; apply (py_int_bad c Dot); [discriminate|reflexivity|exact I]). unfold state_to_int, state_to_int_1d. rewrite !E. auto.
Qed.
Print Assumptions C42_many_sites_refuted.
(* with more than 10 states per site an occupation takes several characters and the string is read as another state *)
Theorem C42_many_levels_refuted :
  (exists sps n s s' basis, (n <= 64)%nat /\ s < sps ^ N.of_nat n /\ s' < sps ^ N.of_nat n /\ In s basis /\ In s' basis /\ s <> s' /\ state_to_int 32 32 sps basis (int_to_state sps n s false) = Bk s') /\
  (exists sps n s s', (n <= 64)%nat /\ s < sps ^ N.of_nat n /\ s' < sps ^ N.of_nat n /\ s <> s' /\ int_to_state sps n s false = int_to_state sps n s' false).
Proof.
  split; [exists 11, 3%nat, 10, 11, [10; 11]|exists 12, 2%nat, 22, 132]; repeat split; try (vm_compute; reflexivity); try (left; reflexivity); try (right; left; reflexivity); try lia; discriminate.
Qed.
Print Assumptions C42_many_levels_refuted.

(* python integers: exactly when they fit, and the value comes back *)
Theorem C42_python_integers : forall fuel v w, (0 <= v)%Z -> (N.to_nat (N.size (Z.to_N v)) <= fuel)%nat -> In w [32; 64; 256; 1024; 4096; 16384] ->
  (Z.to_N v < 2 ^ w -> python_int_to_basis_int fuel v (Some (U w)) = Cok (U w) (Z.to_N v) /\ basis_to_python fuel (Z.to_N v) = Some (Z.to_N v)) /\
  (2 ^ w <= Z.to_N v -> python_int_to_basis_int fuel v (Some (U w)) = C_value_error).
Proof.
  intros fuel v w Hv Hf Hw. rewrite int_to_basis_width by (try assumption; apply known_in, Hw). destruct (N.ltb_spec (Z.to_N v) (2 ^ w)); split; intros; try lia; [|reflexivity]. split; [reflexivity|apply basis_to_python_ok; exact Hf].
Qed.
Print Assumptions C42_python_integers.
(* without a type: the smallest type that holds the number, a python object when there is none; negative numbers are refused *)
Theorem C42_default_type : forall fuel v, (N.to_nat (N.size (Z.to_N v)) <= fuel)%nat ->
  ((v < 0)%Z -> forall dt, python_int_to_basis_int fuel v dt = C_value_error) /\
  ((0 <= v)%Z -> exists d, python_int_to_basis_int fuel v None = Cok d (Z.to_N v) /\
     match d with U w => In w [32; 64; 256; 1024; 4096; 16384] /\ Z.to_N v < 2 ^ w /\ (forall w', In w' [32; 64; 256; 1024; 4096; 16384] -> Z.to_N v < 2 ^ w' -> w <= w')
     | Obj => forall w', In w' [32; 64; 256; 1024; 4096; 16384] -> 2 ^ w' <= Z.to_N v end).
Proof.
  intros fuel v Hf. split; [|intros Hv; exact (int_to_basis_default fuel v Hv Hf)]. intros Hv dt. unfold python_int_to_basis_int. rewrite (proj2 (Z.ltb_lt _ _) Hv). reflexivity.
Qed.
Print Assumptions C42_default_type.
(* looking up an integer that fits: the first position where it stands, an error when it is not there *)
Theorem C42_index : forall w fuel basis v, v < 2 ^ w -> (N.to_nat (N.size v) <= fuel)%nat ->
  match get_basis_index w fuel basis v with F_at i => nth_error basis i = Some v /\ (forall j, (j < i)%nat -> nth_error basis j <> Some v) | F_value_error => ~ In v basis | F_fuel => False end.
Proof.
  intros w fuel basis v L Hf. unfold get_basis_index. rewrite python_to_basis_ok by exact Hf. rewrite N.mod_small by exact L. pose proof (search_spec v basis 0) as S. destruct (search_array basis v 0) as [i|]; [|exact S]. rewrite Nat.sub_0_r in S. apply S.
Qed.
Print Assumptions C42_index.
(* an integer that does not fit is cut off: it is found although it is not in the basis *)
Theorem C42_index_too_large_refuted : forall w basis s, s < 2 ^ w -> In s basis -> exists fuel i, get_basis_index w fuel basis (2 ^ w + s) = F_at i /\ nth_error basis i = Some s.
Proof.
  intros w basis s L I. exists (N.to_nat (N.size (2 ^ w + s))). unfold get_basis_index. rewrite python_to_basis_ok by lia.
  replace ((2 ^ w + s) mod 2 ^ w) with s by (rewrite <- (N.mul_1_l (2 ^ w)) at 1; rewrite N.add_comm, N.mod_add, N.mod_small by (try apply N.pow_nonzero; lia); reflexivity).
  pose proof (search_spec s basis 0) as S. destruct (search_array basis s 0) as [i|]; [|contradiction]. exists i. rewrite Nat.sub_0_r in S. split; [reflexivity|apply S].
Qed.
Print Assumptions C42_index_too_large_refuted.

(* the type that get_basis_type returns holds every state of the basis: all states, those with k particles, or those whose particle number is in the list *)
Theorem C42_basis_type : forall fuel n np sps w, 2 <= sps -> (1 <= n)%nat -> get_basis_type fuel (N.of_nat n) np sps = Bt w ->
  forall s, s < sps ^ N.of_nat n -> match np with NP_none => True | NP_int k => digit_sum sps s n = k | NP_list l => In (digit_sum sps s n) l end -> s < 2 ^ w.
Proof. intros fuel n np sps w Hs Hn E s L D. apply (type_fits fuel n np sps w s Hs Hn E). split; assumption. Qed.
Print Assumptions C42_basis_type.
(* and it is the smallest one, if no sector fills every site *)
Theorem C42_basis_type_smallest : forall fuel n np sps w w', 2 < sps -> (1 <= n)%nat -> get_basis_type fuel (N.of_nat n) np sps = Bt w ->
  match np with NP_none => True | NP_int k => k < N.of_nat n * (sps - 1) | NP_list l => forall k, In k l -> k < N.of_nat n * (sps - 1) end ->
  In w' [32; 64; 256; 1024; 4096; 16384] -> w' < w ->
  exists s, s < sps ^ N.of_nat n /\ match np with NP_none => True | NP_int k => digit_sum sps s n = k | NP_list l => In (digit_sum sps s n) l end /\ 2 ^ w' <= s.
Proof. intros fuel n np sps w w' Hs Hn E Hk I L. destruct (type_smallest fuel n np sps w w' Hs Hn E Hk I L) as (s & [S1 S2] & S3). exists s. auto. Qed.
Print Assumptions C42_basis_type_smallest.
(* when every site is full the largest state is computed as a float: a wider type than needed, or an overflow error *)
Theorem C42_full_lattice_refuted :
  (exists n sps k, get_basis_type 100 (N.of_nat n) (NP_int k) sps = Bt 256 /\ forall s, s < sps ^ N.of_nat n -> s < 2 ^ 64) /\
  (exists n sps k, k = N.of_nat n * (sps - 1) /\ sps ^ N.of_nat n < 2 ^ 4096 /\ forall fuel, get_basis_type fuel (N.of_nat n) (NP_int k) sps = B_overflow).
Proof.
  split.
  - exists 32%nat, 4, 96. split; [vm_compute; reflexivity|]. intros s H. exact H.
  - exists (N.to_nat 700), 3, 1400. rewrite N2Nat.id. split; [reflexivity|]. split; [reflexivity|]. intros fuel. unfold get_basis_type. cbn [N.ltb]. replace (700 * (3 - 1) <? 1400) with false by reflexivity. replace (2 <? 3) with true by reflexivity.
    replace (s_max 3 700 (Some 1400)) with (@None N) by (vm_compute; reflexivity). reflexivity.
Qed.
Print Assumptions C42_full_lattice_refuted.

(* five sites with three states each *)
Example C42_example : int_to_state 3 5 (2 * 81 + 1 * 9 + 2) false = map Dg [2; 0; 1; 0; 2] /\ state_to_int 32 20 3 [4; 173; 9] (map Dg [2; 0; 1; 0; 2]) = Bk 173 /\
  python_int_to_basis_int 80 (2 ^ 70) None = Cok (U 256) (2 ^ 70) /\ python_int_to_basis_int 80 (2 ^ 70) (Some (U 64)) = C_value_error /\
  get_basis_type 100 41 (NP_int 3) 3 = Bt 256 /\ get_basis_type 100 20 (NP_list [1; 3]) 3 = Bt 32.
Proof. repeat split; vm_compute; reflexivity. Qed.
