(* C12: index lookup. *)
From Verif Require Import AuxN SpecC SpecSymm SpecIndex M_symm M_index P_index.
Local Open Scope nat_scope.

(* plain search *)
Theorem C12_search : forall A s, decreasing A -> is_position A s (rep_position A s).
Proof. exact rep_position_ok. Qed.
Print Assumptions C12_search.

(* the answer is unique, so all ways of looking up agree *)
Theorem C12_position_unique : forall A s r r', decreasing A -> is_position A s r -> is_position A s r' -> r = r'.
Proof. exact is_position_unique. Qed.
Print Assumptions C12_position_unique.

(* search in the block of the prefix: spin-1/2, hard-core bosons, fermions; any prefix length whose table can be allocated.
   Nothing is assumed about s: states outside the basis are reported as such. *)
Theorem C12_blocks_spin : forall n N_p A junk bb be s,
  0 < N_p <= n -> N_p <= 62 -> decreasing A -> Forall (fun x => (x < 2 ^ N.of_nat n)%N) A ->
  make_blocks (hcb_prefix n N_p) N_p A junk = Some (bb, be) ->
  is_position A s (rep_position_blocks bb be A (hcb_prefix n N_p s) s).
Proof.
  intros n N_p A junk bb be s Hp Hw HD HA H. unfold hcb_prefix in *. rewrite N.shiftr_div_pow2.
  apply (blocks_position (fun x => integer_cast (N.shiftr x (N.of_nat (n - N_p)))) N_p A junk bb be s HD) in H; [rewrite N.shiftr_div_pow2 in H; exact H| |lia].
  intros i j Hij Hj. rewrite !N.shiftr_div_pow2.
  apply (div_noninc (2 ^ N.of_nat (n - N_p)) A); [apply pow2_pos|assumption| |assumption|assumption].
  rewrite Forall_forall in *. intros x Hx. pose proof (prefix_bound 2 n N_p x ltac:(lia) ltac:(lia) (HA x Hx)) as P.
  eapply N.lt_le_trans; [exact P|]. apply N.pow_le_mono_r; lia.
Qed.
Print Assumptions C12_blocks_spin.

(* bosons and higher spins *)
Theorem C12_blocks_boson : forall B n N_p A junk bb be s,
  (2 <= B)%N -> 0 < N_p <= n -> (B ^ N.of_nat N_p <= 2 ^ 63)%N -> decreasing A -> Forall (fun x => (x < B ^ N.of_nat n)%N) A ->
  make_blocks (boson_prefix B n N_p) N_p A junk = Some (bb, be) ->
  is_position A s (rep_position_blocks bb be A (boson_prefix B n N_p s) s).
Proof. exact boson_blocks_position. Qed.
Print Assumptions C12_blocks_boson.

(* making the blocks succeeds, and every lookup reads inside the tables of sps^N_p entries *)
Theorem C12_blocks_made : forall B n N_p A junk,
  (2 <= B)%N -> N_p <= n -> (B ^ N.of_nat N_p <= 2 ^ 63)%N -> A <> [] -> Forall (fun x => (x < B ^ N.of_nat n)%N) A ->
  (exists t, make_blocks (boson_prefix B n N_p) N_p A junk = Some t) /\
  forall s, (s < B ^ N.of_nat n)%N -> (0 <= boson_prefix B n N_p s < Z.of_N (B ^ N.of_nat N_p))%Z.
Proof.
  intros B n N_p A junk HB Hp Hw HN HA. split; [exact (boson_blocks_exist B n N_p A junk HB Hp Hw HN HA)|].
  intros s Hs. exact (boson_prefix_range B n N_p s HB Hp Hw Hs).
Qed.
Print Assumptions C12_blocks_made.

(* the full space of M states: the closed formula is the position *)
Theorem C12_full_space : forall M A s, decreasing A -> (forall x, In x A <-> (x < N.of_nat M)%N) -> (s < N.of_nat M)%N ->
  length A = M /\ is_position A s (index_full (Z.of_nat (length A)) s).
Proof. exact full_position. Qed.
Print Assumptions C12_full_space.

(* with symmetries the index is that of the orbit maximum, whichever search is used *)
Theorem C12_symmetry_lookup : forall D nt pers ms find A r sign,
  good_maps D nt pers ms -> D r -> 0 < nt <= 32 -> (forall s, is_position A s (find s)) ->
  exists rr j g sg, index_symm find pers ms nt r sign = Some (j, g, sg) /\ is_position A rr j /\
    reach nt ms r rr /\ (forall t, reach nt ms r t -> (t <= rr)%N) /\
    ((rr = r /\ g = repeat 0 nt /\ sg = sign) \/ ((r < rr)%N /\ group_elem pers g /\ gact ms g r = (rr, sg))).
Proof. exact index_symm_ok. Qed.
Print Assumptions C12_symmetry_lookup.

(* basis.index(s): any list, sorted or not; None = ValueError *)
Theorem C12_python_index : forall A v,
  (exists i, nth_error A i = Some v /\ (forall j, j < i -> nth_error A j <> Some v) /\ get_basis_index A v = Some (Z.of_nat i)) \/
  (~ In v A /\ get_basis_index A v = None).
Proof. exact get_basis_index_ok. Qed.
Print Assumptions C12_python_index.

(* the hypotheses are met: half filling of four sites with prefixes of two bits *)
Example C12_example : exists bb be, make_blocks (hcb_prefix 4 2) 2 [12; 10; 9; 6; 5; 3]%N 0 = Some (bb, be) /\
  map (fun s => rep_position_blocks bb be [12; 10; 9; 6; 5; 3]%N (hcb_prefix 4 2 s) s) [12; 9; 8; 3; 0]%N = [0; 2; -1; 5; -1]%Z /\
  decreasing [12; 10; 9; 6; 5; 3]%N.
Proof.
  eexists _, _. split; [vm_compute; reflexivity|]. split; [vm_compute; reflexivity|].
  repeat constructor; lia.
Qed.
