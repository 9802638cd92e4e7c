(* C22: the check of Hermiticity. *)
From Verif Require Import AuxN SpecC SpecOps M_ops M_opstr P_fermion P_mat P_opstr P_opinst P_hc P_lists P_lists2 P_listinst P_listcex.
Local Open Scope nat_scope.
Local Open Scope char_scope.

(* Accepted lists are Hermitian.  Missing: lists in which a term is written twice (refuted below) *)
Theorem C22_spin_partial : forall pauli n l,
  Forall (fun t => Forall (fun oi => In (fst oi) ["I"; "n"; "z"; "x"; "y"; "+"; "-"] /\ snd oi < n) (fst t)) l ->
  NoDup (map sort_opstr l) -> check_hermitian sort_opstr hc_opstr l = true ->
  meq (N.to_nat (2 ^ N.of_nat n)) (madj (terms_matrix (spin_op pauli n) l)) (terms_matrix (spin_op pauli n) l).
Proof. intros pauli n. exact (plain_herm _ _ _ _ (spin_good pauli n)). Qed.
Print Assumptions C22_spin_partial.
Theorem C22_boson_partial : forall B n l, (2 <= B)%N ->
  Forall (fun t => Forall (fun oi => In (fst oi) ["I"; "n"; "z"; "+"; "-"] /\ snd oi < n) (fst t)) l ->
  NoDup (map sort_opstr l) -> check_hermitian sort_opstr hc_opstr l = true ->
  meq (N.to_nat (B ^ N.of_nat n)) (madj (terms_matrix (boson_op B n) l)) (terms_matrix (boson_op B n) l).
Proof. intros B n l HB. exact (plain_herm _ _ _ _ (boson_good B n HB) l). Qed.
Print Assumptions C22_boson_partial.
Theorem C22_higher_spin_partial : forall B n l, (2 <= B)%N ->
  Forall (fun t => Forall (fun oi => In (fst oi) ["I"; "z"; "+"; "-"] /\ snd oi < n) (fst t)) l ->
  NoDup (map sort_opstr l) -> check_hermitian sort_opstr hc_opstr l = true ->
  meq (N.to_nat (B ^ N.of_nat n)) (madj (terms_matrix (higher_spin_op B n) l)) (terms_matrix (higher_spin_op B n) l).
Proof. intros B n l HB. exact (plain_herm _ _ _ _ (higher_spin_good B n HB) l). Qed.
Print Assumptions C22_higher_spin_partial.
(* fermions: n orbitals (both spins for spinful bases) in a word of the given number of bytes *)
Theorem C22_fermion_partial : forall bytes n l, (N.of_nat n <= 8 * bytes)%N -> n <= 256 ->
  Forall (fun t => Forall (fun oi => In (fst oi) ["I"; "n"; "z"; "+"; "-"] /\ snd oi < n) (fst t)) l ->
  NoDup (map fermion_sort l) -> check_hermitian fermion_sort fermion_hc l = true ->
  meq (N.to_nat (2 ^ N.of_nat n)) (madj (terms_matrix (fermion_op bytes n) l)) (terms_matrix (fermion_op bytes n) l).
Proof. intros bytes n l H1 H2. exact (graded_herm _ _ _ _ (fermion_good bytes n H1 H2) l). Qed.
Print Assumptions C22_fermion_partial.

(* dynamic lists: accepted lists are Hermitian at the time t0 at which the check evaluates the functions.  Missing: other times *)
Theorem C22_dynamic_partial : forall pauli n t0 (l : list (list (ascii * nat) * C * (R -> C))),
  let at_t0 := map (fun d => (fst (fst d), (snd (fst d) * (snd d) t0)%C)) l in
  Forall (fun d => Forall (fun oi => In (fst oi) ["I"; "n"; "z"; "x"; "y"; "+"; "-"] /\ snd oi < n) (fst (fst d))) l ->
  NoDup (map sort_opstr at_t0) -> check_hermitian_dynamic sort_opstr hc_opstr t0 l = true ->
  meq (N.to_nat (2 ^ N.of_nat n)) (madj (terms_matrix (spin_op pauli n) at_t0)) (terms_matrix (spin_op pauli n) at_t0).
Proof.
  intros pauli n t0 l at_t0 H ND HC. rewrite (herm_dyn _ _ plain_scale plain_idem) in HC. apply (plain_herm _ _ _ _ (spin_good pauli n)); [|exact ND|exact HC].
  unfold at_t0. apply Forall_map. exact H.
Qed.
Print Assumptions C22_dynamic_partial.
Theorem C22_fermion_dynamic_partial : forall bytes n t0 (l : list (list (ascii * nat) * C * (R -> C))), (N.of_nat n <= 8 * bytes)%N -> n <= 256 ->
  let at_t0 := map (fun d => (fst (fst d), (snd (fst d) * (snd d) t0)%C)) l in
  Forall (fun d => Forall (fun oi => In (fst oi) ["I"; "n"; "z"; "+"; "-"] /\ snd oi < n) (fst (fst d))) l ->
  NoDup (map fermion_sort at_t0) -> check_hermitian_dynamic fermion_sort fermion_hc t0 l = true ->
  meq (N.to_nat (2 ^ N.of_nat n)) (madj (terms_matrix (fermion_op bytes n) at_t0)) (terms_matrix (fermion_op bytes n) at_t0).
Proof.
  intros bytes n t0 l H1 H2 at_t0 H ND HC. rewrite (herm_dyn _ _ graded_scale graded_idem) in HC. apply (graded_herm _ _ _ _ (fermion_good bytes n H1 H2)); [|exact ND|exact HC].
  unfold at_t0. apply Forall_map. exact H.
Qed.
Print Assumptions C22_fermion_dynamic_partial.

(* lists containing the conjugate of each term, in any order of its letters on different sites, are accepted *)
Theorem C22_written_with_conjugates : forall l, (forall t, In t l -> exists u, In u l /\ sort_opstr u = hc_opstr t) ->
  check_hermitian sort_opstr hc_opstr l = true.
Proof. intros l. apply herm_complete'; [exact hc_hc_sorted|exact hc_sort]. Qed.
Print Assumptions C22_written_with_conjugates.
Theorem C22_fermion_written_with_conjugates : forall l, (forall t, In t l -> exists u, In u l /\ fermion_sort u = fermion_hc t) ->
  check_hermitian fermion_sort fermion_hc l = true.
Proof. intros l. apply herm_complete'; [exact fermion_hc_hc_sorted|exact fermion_hc_sort]. Qed.
Print Assumptions C22_fermion_written_with_conjugates.

(* 2 S+_0 S-_1 + S-_0 S+_1, with the first term written twice, is accepted *)
Theorem C22_repeated_terms_refuted : exists l, check_hermitian sort_opstr hc_opstr l = true /\
  ~ meq 4 (madj (terms_matrix (spin_op 0 2) l)) (terms_matrix (spin_op 0 2) l).
Proof. exists twice. exact herm_twice. Qed.
Print Assumptions C22_repeated_terms_refuted.
(* whatever time is used for the check *)
Theorem C22_other_times_refuted : forall t0, exists (l : list (list (ascii * nat) * C * (R -> C))),
  check_hermitian_dynamic sort_opstr hc_opstr t0 l = true /\
  exists t, let H := terms_matrix (spin_op 0 1) (map (fun d => (fst (fst d), (snd (fst d) * (snd d) t)%C)) l) in ~ meq 2 (madj H) H.
Proof. exact herm_one_time. Qed.
Print Assumptions C22_other_times_refuted.

(* i S+_0 S-_1 - i S+_1 S-_0 + S^z_0: accepted, and meets the hypotheses *)
Example C22_example : let l := [([("+", 0); ("-", 1)], Ci); ([("+", 1); ("-", 0)], Copp Ci); ([("z", 0)], C1)] in
  check_hermitian sort_opstr hc_opstr l = true /\ NoDup (map sort_opstr l) /\ check_hermitian fermion_sort fermion_hc l = true /\ NoDup (map fermion_sort l).
Proof.
  intros l. split; [|split; [|split]].
  - apply C22_written_with_conjugates. intros t Ht. cbn [l In] in Ht. destruct Ht as [<-|[<-|[<-|[]]]].
    + exists ([("+", 1); ("-", 0)], Copp Ci). split; [right; left; reflexivity|teq].
    + exists ([("+", 0); ("-", 1)], Ci). split; [left; reflexivity|teq].
    + exists ([("z", 0)], C1). split; [right; right; left; reflexivity|teq].
  - cbn. repeat constructor; cbn; intuition discriminate.
  - apply C22_fermion_written_with_conjugates. intros t Ht. cbn [l In] in Ht. destruct Ht as [<-|[<-|[<-|[]]]].
    + exists ([("+", 1); ("-", 0)], Copp Ci). split; [right; left; reflexivity|teq].
    + exists ([("+", 0); ("-", 1)], Ci). split; [left; reflexivity|teq].
    + exists ([("z", 0)], C1). split; [right; right; left; reflexivity|teq].
  - cbn. repeat constructor; cbn; intuition discriminate.
Qed.
