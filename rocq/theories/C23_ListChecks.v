(* C23: the checks of particle conservation and of symmetries. *)
From Verif Require Import AuxN SpecC SpecDigits SpecMaps SpecOps SpecInv SpecFermi M_fmap M_ops M_opstr P_maps P_fermion P_mat P_opstr P_opinst P_hc P_lists P_lists2 P_pcon P_symmlist P_listinst P_merge P_listcex P_fmap4.
Local Open Scope nat_scope.
Local Open Scope char_scope.

(* Accepted lists keep the particle number up to terms D that were dropped because their coupling is not above the threshold eps.
   Missing: strings with more letters on one site than a site has states (refuted below) *)
Theorem C23_pcon_spin_partial : forall pauli n eps l, (pauli = 0 \/ pauli = 1 \/ pauli = -1)%Z ->
  Forall (fun t => Forall (fun oi => In (fst oi) ["I"; "n"; "z"; "x"; "y"; "+"; "-"] /\ snd oi < n) (fst t)) l ->
  (forall t i, In t l -> count_occ Nat.eq_dec (map snd (fst t)) i <= 2) ->
  check_pcon sort_opstr (spin_expand pauli) 1 eps l = true ->
  exists D A, Forall (fun t => (sqrt (fst (snd t) * fst (snd t) + snd (snd t) * snd (snd t)) <= eps)%R) D /\
    meq (N.to_nat (2 ^ N.of_nat n)) (terms_matrix (spin_op pauli n) l) (madd A (terms_matrix (spin_op pauli n) D)) /\
    conserves 2 n A.
Proof. exact spin_pcon. Qed.
Print Assumptions C23_pcon_spin_partial.
(* with threshold 0 *)
Theorem C23_pcon_spin_exact_partial : forall pauli n l, (pauli = 0 \/ pauli = 1 \/ pauli = -1)%Z ->
  Forall (fun t => Forall (fun oi => In (fst oi) ["I"; "n"; "z"; "x"; "y"; "+"; "-"] /\ snd oi < n) (fst t)) l ->
  (forall t i, In t l -> count_occ Nat.eq_dec (map snd (fst t)) i <= 2) ->
  check_pcon sort_opstr (spin_expand pauli) 1 0 l = true -> conserves 2 n (terms_matrix (spin_op pauli n) l).
Proof.
  intros pauli n l Hp H1 H2 H3. destruct (spin_pcon pauli n 0 l Hp H1 H2 H3) as (D & A & HD & E & HA). exact (conserves_exact _ _ _ _ _ _ HD E HA).
Qed.
Print Assumptions C23_pcon_spin_exact_partial.
(* B states per site *)
Theorem C23_pcon_boson_partial : forall B n eps l m, (2 <= B)%N -> N.of_nat (S m) = B ->
  Forall (fun t => Forall (fun oi => In (fst oi) ["I"; "n"; "z"; "+"; "-"] /\ snd oi < n) (fst t)) l ->
  (forall t i, In t l -> count_occ Nat.eq_dec (map snd (fst t)) i <= S m) ->
  check_pcon sort_opstr no_expand m eps l = true ->
  exists D A, Forall (fun t => (sqrt (fst (snd t) * fst (snd t) + snd (snd t) * snd (snd t)) <= eps)%R) D /\
    meq (N.to_nat (B ^ N.of_nat n)) (terms_matrix (boson_op B n) l) (madd A (terms_matrix (boson_op B n) D)) /\
    conserves B n A.
Proof. exact boson_pcon. Qed.
Print Assumptions C23_pcon_boson_partial.
Theorem C23_pcon_fermion_partial : forall bytes n eps l, (N.of_nat n <= 8 * bytes)%N -> n <= 256 ->
  Forall (fun t => Forall (fun oi => In (fst oi) ["I"; "n"; "z"; "+"; "-"] /\ snd oi < n) (fst t)) l ->
  (forall t i, In t l -> count_occ Nat.eq_dec (map snd (fst t)) i <= 2) ->
  check_pcon fermion_sort no_expand 1 eps l = true ->
  exists D A, Forall (fun t => (sqrt (fst (snd t) * fst (snd t) + snd (snd t) * snd (snd t)) <= eps)%R) D /\
    meq (N.to_nat (2 ^ N.of_nat n)) (terms_matrix (fermion_op bytes n) l) (madd A (terms_matrix (fermion_op bytes n) D)) /\
    conserves 2 n A.
Proof. exact fermion_pcon. Qed.
Print Assumptions C23_pcon_fermion_partial.

(* S+_1 S-_1 S+_1 = S+_1 is accepted *)
Theorem C23_pcon_refuted : exists l,
  Forall (fun t => Forall (fun oi => In (fst oi) ["+"; "-"] /\ snd oi < 2) (fst t)) l /\
  check_pcon sort_opstr (spin_expand 0) 1 0 l = true /\ ~ conserves 2 2 (terms_matrix (spin_op 0 2) l).
Proof. exists pmp. split; [exact pmp_known|exact pcon_pmp]. Qed.
Print Assumptions C23_pcon_refuted.
Theorem C23_pcon_fermion_refuted : exists l,
  Forall (fun t => Forall (fun oi => In (fst oi) ["+"; "-"] /\ snd oi < 2) (fst t)) l /\
  check_pcon fermion_sort no_expand 1 0 l = true /\ ~ conserves 2 2 (terms_matrix (fermion_op 4 2) l).
Proof. exists pmp. split; [exact pmp_known|exact fermion_pmp]. Qed.
Print Assumptions C23_pcon_fermion_refuted.
(* f1(t) S+ - f2(t) S+ is accepted: the terms are added before the functions are looked at *)
Theorem C23_pcon_dynamic_refuted : exists (l : list (list (ascii * nat) * C * nat)) (v : nat -> C),
  check_pcon_dynamic sort_opstr (spin_expand 0) 1 0 l = true /\
  ~ conserves 2 1 (terms_matrix (spin_op 0 1) (map (fun d => (fst (fst d), (snd (fst d) * v (snd d))%C)) l)).
Proof. exact pcon_dynamic. Qed.
Print Assumptions C23_pcon_dynamic_refuted.

(* Symmetries.  m: the map, with site i going to target (nth i m), the value being inverted where flips (nth i m).
   Missing: repeated terms, and strings in which exchanging + and - once per inverted site of the string is not
   exchanging them on the inverted sites (both refuted below) *)
Theorem C23_symm_spin_partial : forall pauli n m l, signed_perm n m ->
  Forall (fun t => Forall (fun oi => In (fst oi) ["I"; "n"; "z"; "x"; "y"; "+"; "-"] /\ snd oi < n) (fst t)) l ->
  (forall t o i, In t l -> In (o, i) (fst t) -> (o = "+" \/ o = "-") ->
     flips (nth i m 0%Z) = Nat.odd (length (filter (fun x => flips (nth (snd x) m 0%Z)) (fst t)))) ->
  NoDup (map sort_opstr l) ->
  check_symm_map sort_opstr (fun i => nth i m 0%Z) l = true -> commutes_with_map 2 n m (terms_matrix (spin_op pauli n) l).
Proof. intros pauli n m l H1 H2 H3. apply spin_symm; [exact H1|exact H2|exact (fine_intro _ _ H3)]. Qed.
Print Assumptions C23_symm_spin_partial.
Theorem C23_symm_higher_spin_partial : forall B n m l, (2 <= B)%N -> signed_perm n m ->
  Forall (fun t => Forall (fun oi => In (fst oi) ["I"; "z"; "+"; "-"] /\ snd oi < n) (fst t)) l ->
  (forall t o i, In t l -> In (o, i) (fst t) -> (o = "+" \/ o = "-") ->
     flips (nth i m 0%Z) = Nat.odd (length (filter (fun x => flips (nth (snd x) m 0%Z)) (fst t)))) ->
  NoDup (map sort_opstr l) ->
  check_symm_map sort_opstr (fun i => nth i m 0%Z) l = true -> commutes_with_map B n m (terms_matrix (higher_spin_op B n) l).
Proof. intros B n m l HB H1 H2 H3. apply higher_spin_symm; [exact HB|exact H1|exact H2|exact (fine_intro _ _ H3)]. Qed.
Print Assumptions C23_symm_higher_spin_partial.
(* bosons: maps without inversions *)
Theorem C23_symm_boson_partial : forall B n m l, (2 <= B)%N -> signed_perm n m -> (forall i, i < n -> flips (nth i m 0%Z) = false) ->
  Forall (fun t => Forall (fun oi => In (fst oi) ["I"; "n"; "z"; "+"; "-"] /\ snd oi < n) (fst t)) l ->
  NoDup (map sort_opstr l) ->
  check_symm_map sort_opstr (fun i => nth i m 0%Z) l = true -> commutes_with_map B n m (terms_matrix (boson_op B n) l).
Proof. exact boson_symm. Qed.
Print Assumptions C23_symm_boson_partial.
(* fermions: maps without inversions (with inversions refuted in C20_inversion_symmetry_refuted) *)
Theorem C23_symm_fermion_partial : forall bytes n m l, (N.of_nat n <= 8 * bytes)%N -> n <= 256 -> signed_perm n m -> no_inversion m ->
  Forall (fun t => Forall (fun oi => In (fst oi) ["I"; "n"; "z"; "+"; "-"] /\ snd oi < n) (fst t)) l ->
  NoDup (map fermion_sort l) ->
  check_symm_map fermion_sort (fun i => nth i m 0%Z) l = true ->
  let M := N.to_nat (2 ^ N.of_nat n) in let U := map_matrix (fermion_map_bits n m) in let H := terms_matrix (fermion_op bytes n) l in
  meq M (mmul M U H) (mmul M H U).
Proof. intros bytes n m l Hw Hn Hm NI. exact (fsymm_sound bytes n m Hw Hn Hm NI l). Qed.
Print Assumptions C23_symm_fermion_partial.

(* i S+_0 S+_1 - i S-_0 S-_1, which is Hermitian, changes sign under the inversion of both sites but is accepted *)
Theorem C23_symm_refuted : exists l, let m := [-1; -2]%Z in
  check_symm_map sort_opstr (fun i => nth i m 0%Z) l = true /\ meq 4 (madj (terms_matrix (spin_op 0 2) l)) (terms_matrix (spin_op 0 2) l) /\
  ~ commutes_with_map 2 2 m (terms_matrix (spin_op 0 2) l).
Proof. eexists. exact symm_pair. Qed.
Print Assumptions C23_symm_refuted.
(* 2 S^z_0 + S^z_1, with the first term written twice, under the exchange of the sites *)
Theorem C23_symm_repeated_terms_refuted : exists l, let m := [1; 0]%Z in
  check_symm_map sort_opstr (fun i => nth i m 0%Z) l = true /\ ~ commutes_with_map 2 2 m (terms_matrix (spin_op 0 2) l).
Proof. eexists. exact symm_twice. Qed.
Print Assumptions C23_symm_repeated_terms_refuted.
(* hopping of bosons with three states per site, under n -> 2 - n *)
Theorem C23_symm_boson_refuted : exists l, let m := [-1; -2]%Z in
  check_symm_map sort_opstr (fun i => nth i m 0%Z) l = true /\ ~ commutes_with_map 3 2 m (terms_matrix (boson_op 3 2) l).
Proof. eexists. exact symm_boson. Qed.
Print Assumptions C23_symm_boson_refuted.

(* S+_0 S-_1 + S-_0 S+_1 + S^z_0 + S^z_1 under the exchange of the sites, and particle conservation *)
Example C23_example : let l := [([("+", 0); ("-", 1)], C1); ([("-", 0); ("+", 1)], C1); ([("z", 0)], C1); ([("z", 1)], C1)] in
  check_symm_map sort_opstr (fun i => nth i [1; 0]%Z 0%Z) l = true /\ NoDup (map sort_opstr l) /\ check_pcon sort_opstr (spin_expand 0) 1 0 l = true.
Proof.
  intros l. split; [|split].
  - apply check_symm_intro. intros t Ht. cbn [l map In] in Ht |- *.
    destruct Ht as [<-|[<-|[<-|[<-|[]]]]]; (split; [reflexivity|]); [right; left|left|right; right; right; left|right; right; left]; teq.
  - cbn. repeat constructor; cbn; intuition discriminate.
  - unfold check_pcon, expanded_form, consolidate. cbn. rewrite !Cabs_gt_pos by (intros E; apply (f_equal fst) in E; cbn in E; lra). reflexivity.
Qed.
(* inversion of one of two sites in S^x_0 S^z_1 ... + and - on the inverted site only *)
Example C23_example_inversion : let l := [([("+", 0); ("z", 1)], C1); ([("-", 0); ("z", 1)], C1)] in let m := [-1; 1]%Z in
  check_symm_map sort_opstr (fun i => nth i m 0%Z) l = true /\ NoDup (map sort_opstr l) /\
  (forall t o i, In t l -> In (o, i) (fst t) -> (o = "+" \/ o = "-") ->
     flips (nth i m 0%Z) = Nat.odd (length (filter (fun x => flips (nth (snd x) m 0%Z)) (fst t)))).
Proof.
  intros l m. split; [|split].
  - apply check_symm_intro. intros t Ht. cbn [l map In] in Ht |- *. destruct Ht as [<-|[<-|[]]]; (split; [reflexivity|]); [right; left|left]; teq.
  - cbn. repeat constructor; cbn; intuition discriminate.
  - intros t o i Ht Ho. cbn [l In] in Ht. destruct Ht as [<-|[<-|[]]]; cbn [fst In] in Ho; destruct Ho as [E|[E|[]]]; injection E as <- <-; intros [X|X]; (discriminate || reflexivity).
Qed.
