(* C17: the matrix built in a symmetry reduced basis is the operator between the normalised symmetric states of the block. *)
From Verif Require Import AuxN SpecC SpecDigits SpecMaps SpecSymm SpecOps SpecInv SpecBasis SpecIndex SpecFermi SpecProj M_benes M_maps M_symm M_fmap M_index M_ops M_opstr M_symop
  P_maps P_fermion P_fmap3 P_fmap4 P_symminst P_index P_ops P_opinst P_symop P_symopinst P_symmlist P_make2 P_listcex C12_IndexLookup C23_ListChecks.
Local Open Scope nat_scope.

(* S: any set of states (particle sector), listed by sts, that the maps do not leave; L: the basis array with its norms
   (C10: what the constructor returns); N_p: length of the block prefixes, 0 when the lookup is the plain search.
   Whenever the operator commutes with the maps, entry (j, i) is <state j| H |state i>, all matrix types; complex types never fail. *)
Theorem C17_spin : forall pauli ld n mlist pers qs (S : N -> Prop) sts L N_p junk bb be allowed ts,
  (n <= 2 ^ ld)%nat -> accepted n mlist pers -> length pers <= 32 ->
  let ms := hcb_smap ld n mlist in
  (forall d e s, d < length pers -> e < length pers -> (s < 2 ^ N.of_nat n)%N ->
     hcb_map_bits n (nth d mlist []) (hcb_map_bits n (nth e mlist []) s) = hcb_map_bits n (nth e mlist []) (hcb_map_bits n (nth d mlist []) s)) ->
  (forall s, S s -> (s < 2 ^ N.of_nat n)%N) -> enumerates sts S -> closed_under S (length pers) ms ->
  lists_decreasing (in_block S (length pers) pers qs ms) L ->
  (0 < N_p -> N_p <= n /\ N_p <= 62 /\ make_blocks (hcb_prefix n N_p) N_p (map fst L) junk = Some (bb, be)) ->
  (forall o, In o allowed -> spin_known o) ->
  Forall (fun t => Forall (fun oi => In (fst oi) allowed /\ snd oi < n) (fst t)) ts ->
  let M := N.to_nat (2 ^ N.of_nat n) in
  let H := lattice_operator M (fun o => site_matrix 2 n (pauli_site pauli o)) ts in
  (forall d, d < length pers -> commutes_with_map 2 n (nth d mlist []) H) ->
  let OpF real := Op real (get_index M (map fst L) pers ms (length pers) N_p (hcb_prefix n N_p) bb be) L qs pers (length pers) n allowed (pauli_scale pauli) (hcb_op n) in
  (exists Mx, make_matrix (OpF false) ts = Some Mx) /\
  forall real Mx, make_matrix (OpF real) ts = Some Mx -> forall i j, i < length L -> j < length L ->
    Mx j i = as_type real (reduced sts pers qs ms H (fst (nth j L (0%N, 0%Z))) (fst (nth i L (0%N, 0%Z)))).
Proof.
  intros pauli ld n mlist pers qs S sts L N_p junk bb be allowed ts Hn HA Hnt ms Hc SD HE SC HL Hb Hal Hts M H HC OpF.
  apply (lattice_reduced 2 n pers qs ms S sts L (hcb_good_maps ld n mlist pers Hn HA Hc) Hnt SD HE SC HL N_p (hcb_prefix n N_p) bb be) with (mat0 := fun o => site_matrix 2 n (spin_half_site o)).
  - intros Hp s. destruct (Hb Hp) as (B1 & B2 & B3). apply (C12_blocks_spin n N_p (map fst L) junk bb be s); try assumption; try lia.
    + exact (A_dec (length pers) pers ms qs S L HL).
    + rewrite Forall_map, Forall_forall. intros [x k] Hx. apply SD. apply HL in Hx. apply Hx.
  - intros l Hl. apply hcb_op_acts. eapply Forall_impl; [|exact Hl]. intros oi [X Y]. split; [apply Hal, X|exact Y].
  - intros l r s. apply pauli_string.
  - exact Hts.
  - apply (commutes_site 2 n mlist pers ms S); [apply hcb_site_maps; assumption|exact SD|exact HC].
Qed.
Print Assumptions C17_spin.

(* bosons (letters whose code is the textbook operator, see C14) and spin-S, B states per site *)
Theorem C17_boson : forall B n mlist pers qs (S : N -> Prop) sts L N_p junk bb be ts,
  (2 <= B)%N -> accepted n mlist pers -> length pers <= 32 ->
  let ms := boson_smap B n mlist in
  (forall d e s, d < length pers -> e < length pers -> (s < B ^ N.of_nat n)%N ->
     boson_map_bits B n (nth d mlist []) (boson_map_bits B n (nth e mlist []) s) = boson_map_bits B n (nth e mlist []) (boson_map_bits B n (nth d mlist []) s)) ->
  (forall s, S s -> (s < B ^ N.of_nat n)%N) -> enumerates sts S -> closed_under S (length pers) ms ->
  lists_decreasing (in_block S (length pers) pers qs ms) L ->
  (0 < N_p -> N_p <= n /\ (B ^ N.of_nat N_p <= 2 ^ 63)%N /\ make_blocks (boson_prefix B n N_p) N_p (map fst L) junk = Some (bb, be)) ->
  let M := N.to_nat (B ^ N.of_nat n) in
  let conclusion allowed op site :=
    Forall (fun t => Forall (fun oi => In (fst oi) allowed /\ snd oi < n) (fst t)) ts ->
    let H := lattice_operator M (fun o => site_matrix B n (site o)) ts in
    (forall d, d < length pers -> commutes_with_map B n (nth d mlist []) H) ->
    let OpF real := Op real (get_index M (map fst L) pers ms (length pers) N_p (boson_prefix B n N_p) bb be) L qs pers (length pers) n allowed (fun _ => 1%R) op in
    (exists Mx, make_matrix (OpF false) ts = Some Mx) /\
    forall real Mx, make_matrix (OpF real) ts = Some Mx -> forall i j, i < length L -> j < length L ->
      Mx j i = as_type real (reduced sts pers qs ms H (fst (nth j L (0%N, 0%Z))) (fst (nth i L (0%N, 0%Z)))) in
  conclusion ["I"; "n"; "+"; "-"]%char (boson_op B n) (boson_site B) /\
  conclusion ["I"; "z"; "+"; "-"]%char (higher_spin_op B n) (spinS_site B).
Proof.
  intros B n mlist pers qs S sts L N_p junk bb be ts HB HA Hnt ms Hc SD HE SC HL Hb M conclusion.
  assert (Hb' : 0 < N_p -> forall s, is_position (map fst L) s (rep_position_blocks bb be (map fst L) (boson_prefix B n N_p s) s)).
  { intros Hp s. destruct (Hb Hp) as (B1 & B2 & B3). apply (C12_blocks_boson B n N_p (map fst L) junk bb be s); try assumption; try lia.
    + exact (A_dec (length pers) pers ms qs S L HL).
    + rewrite Forall_map, Forall_forall. intros [x k] Hx. apply SD. apply HL in Hx. apply Hx. }
  unfold conclusion; split; intros Hts HC.
  - apply (lattice_reduced B n pers qs ms S sts L (boson_good_maps B n mlist pers HB HA Hc) Hnt SD HE SC HL N_p (boson_prefix B n N_p) bb be Hb') with (mat0 := fun o => site_matrix B n (boson_site B o));
      [|intros l r s; change (RtoC 1) with C1; ring|exact Hts|apply (commutes_site B n mlist pers ms S); [apply boson_site_maps; assumption|exact SD|exact HC]].
    intros l Hl. apply boson_op_acts; assumption.
  - apply (lattice_reduced B n pers qs ms S sts L (boson_good_maps B n mlist pers HB HA Hc) Hnt SD HE SC HL N_p (boson_prefix B n N_p) bb be Hb') with (mat0 := fun o => site_matrix B n (spinS_site B o));
      [|intros l r s; change (RtoC 1) with C1; ring|exact Hts|apply (commutes_site B n mlist pers ms S); [apply boson_site_maps; assumption|exact SD|exact HC]].
    intros l Hl. apply higher_spin_op_acts; assumption.
Qed.
Print Assumptions C17_boson.

(* fermions, n orbitals (2L for the spinful basis, C15_spinful_string), maps without inversions (C20); c: the matrices of the single letters (C15) *)
Theorem C17_fermion : forall bytes n mlist pers qs (S : N -> Prop) sts L N_p junk bb be ts,
  (N.of_nat n <= 8 * bytes)%N -> n <= 256 -> accepted n mlist pers -> length pers <= 32 -> (forall d, d < length pers -> no_inversion (nth d mlist [])) ->
  let ms := fermion_smap n mlist in
  (forall d e s, d < length pers -> e < length pers -> (s < 2 ^ N.of_nat n)%N ->
     hcb_map_bits n (nth d mlist []) (hcb_map_bits n (nth e mlist []) s) = hcb_map_bits n (nth e mlist []) (hcb_map_bits n (nth d mlist []) s)) ->
  (forall s, S s -> (s < 2 ^ N.of_nat n)%N) -> enumerates sts S -> closed_under S (length pers) ms ->
  lists_decreasing (in_block S (length pers) pers qs ms) L ->
  (0 < N_p -> N_p <= n /\ N_p <= 62 /\ make_blocks (hcb_prefix n N_p) N_p (map fst L) junk = Some (bb, be)) ->
  Forall (fun t => Forall (fun oi => In (fst oi) ["I"; "n"; "z"; "+"; "-"]%char /\ snd oi < n) (fst t)) ts ->
  let M := N.to_nat (2 ^ N.of_nat n) in
  let c o i := op_matrix (fermion_op bytes n [(o, i)]) in
  let H := lattice_operator M c ts in
  (forall d, d < length pers -> meq M (mmul M (map_matrix (ms d)) H) (mmul M H (map_matrix (ms d)))) ->
  let OpF real := Op real (get_index M (map fst L) pers ms (length pers) N_p (hcb_prefix n N_p) bb be) L qs pers (length pers) n ["I"; "n"; "z"; "+"; "-"]%char (fun _ => 1%R) (fermion_op bytes n) in
  (exists Mx, make_matrix (OpF false) ts = Some Mx) /\
  forall real Mx, make_matrix (OpF real) ts = Some Mx -> forall i j, i < length L -> j < length L ->
    Mx j i = as_type real (reduced sts pers qs ms H (fst (nth j L (0%N, 0%Z))) (fst (nth i L (0%N, 0%Z)))).
Proof.
  intros bytes n mlist pers qs S sts L N_p junk bb be ts Hw Hn HA Hnt NI ms Hc SD HE SC HL Hb Hts M c H HC OpF.
  apply (lattice_reduced 2 n pers qs ms S sts L (fermion_good_maps n mlist pers HA NI Hc) Hnt SD HE SC HL N_p (hcb_prefix n N_p) bb be) with (mat0 := c).
  - intros Hp s. destruct (Hb Hp) as (B1 & B2 & B3). apply (C12_blocks_spin n N_p (map fst L) junk bb be s); try assumption; try lia.
    + exact (A_dec (length pers) pers ms qs S L HL).
    + rewrite Forall_map, Forall_forall. intros [x k] Hx. apply SD. apply HL in Hx. apply Hx.
  - intros l Hl. exact (fermion_string_acts bytes n Hw Hn l Hl).
  - intros l r s. apply C_eq; cbn; ring.
  - exact Hts.
  - intros d r s Hd Hr Hs. apply (UM_commutes n (nth d mlist []) (accepted_perm n mlist pers d HA Hd)); [exact (HC d Hd)|apply SD, Hr|apply SD, Hs].
Qed.
Print Assumptions C17_fermion.

(* what check_symm accepts (C23) is an operator as required above *)
Theorem C17_accepted_lists_commute : forall pauli n m l, signed_perm n m ->
  Forall (fun t => Forall (fun oi => spin_known (fst oi) /\ snd oi < n) (fst t)) l ->
  (forall t o i, In t l -> In (o, i) (fst t) -> (o = "+" \/ o = "-")%char ->
     flips (nth i m 0%Z) = Nat.odd (length (filter (fun x => flips (nth (snd x) m 0%Z)) (fst t)))) ->
  NoDup (map sort_opstr l) -> check_symm_map sort_opstr (fun i => nth i m 0%Z) l = true ->
  commutes_with_map 2 n m (lattice_operator (N.to_nat (2 ^ N.of_nat n)) (fun o => site_matrix 2 n (pauli_site pauli o)) l).
Proof.
  intros pauli n m l Hm HF H1 H2 H3. pose proof (C23_symm_spin_partial pauli n m l Hm HF H1 H2 H3) as HC.
  assert (E : meq (N.to_nat (2 ^ N.of_nat n)) (terms_matrix (spin_op pauli n) l) (lattice_operator (N.to_nat (2 ^ N.of_nat n)) (fun o => site_matrix 2 n (pauli_site pauli o)) l)).
  { apply (terms_lattice _ _ _ (fun oi => spin_known (fst oi) /\ snd oi < n)); [|exact HF]. intros k Hk. exact (go_matrix _ _ _ _ _ (spin_good pauli n) k Hk). }
  apply (carried_meq 2 n m ltac:(lia) Hm _ _ _ _ E E). exact HC.
Qed.
Print Assumptions C17_accepted_lists_commute.

(* hypotheses met: exchange of two sites, odd block of the full space, S+_0 S-_1 + S-_0 S+_1 + S^z_0 + S^z_1 *)
Example C17_example : let ts := [([("+", 0); ("-", 1)], C1); ([("-", 0); ("+", 1)], C1); ([("z", 0)], C1); ([("z", 1)], C1)]%char in
  let ms := hcb_smap 5 2 two_map in let S := fun s => (s < N.of_nat 4)%N in let L := [(2%N, 1%Z)] in
  let H := lattice_operator 4 (fun o => site_matrix 2 2 (pauli_site 0 o)) ts in
  exists Mx, make_matrix (Op false (get_index 4 (map fst L) [2] ms 1 0 (hcb_prefix 2 0) (fun _ => 0%Z) (fun _ => 0%Z)) L [1%Z] [2] 1 2
    ["I"; "+"; "-"; "x"; "y"; "z"]%char (pauli_scale 0) (hcb_op 2)) ts = Some Mx /\ Mx 0 0 = reduced [0; 1; 2; 3]%N [2] [1%Z] ms H 2%N 2%N.
Proof.
  intros ts ms S L H.
  assert (K : Forall (fun t => Forall (fun oi => In (fst oi) ["I"; "+"; "-"; "x"; "y"; "z"]%char /\ snd oi < 2) (fst t)) ts).
  { repeat (constructor; [repeat (constructor; [cbn; split; [tauto|lia]|]); constructor|]). constructor. }
  assert (A2 : accepted 2 two_map [2]).
  { split; [reflexivity|]. intros [|d] Hd; [|cbn in Hd; lia]. split; [reflexivity|]. exists 10. vm_compute. reflexivity. }
  destruct (C17_spin 0 5 2 two_map [2] [1%Z] S [0; 1; 2; 3]%N L 0 0 (fun _ => 0%Z) (fun _ => 0%Z) ["I"; "+"; "-"; "x"; "y"; "z"]%char ts) as [[Mx HM] HR].
  - cbn; lia.
  - exact A2.
  - cbn; lia.
  - intros d e s Hd He Hs. destruct d, e; cbn in Hd, He; lia || reflexivity.
  - intros s Hs. exact Hs.
  - split; [repeat constructor; cbn; intuition discriminate|]. intros s. unfold S. cbn [In]. split; [intros [<-|[<-|[<-|[<-|[]]]]]; lia|lia].
  - intros d s Hd Hs. apply (gm_dom _ _ _ _ two_good); assumption.
  - exact two_lists.
  - lia.
  - intros o Ho. unfold spin_known. cbn in *. tauto.
  - exact K.
  - intros [|d] Hd; [|cbn in Hd; lia]. apply C17_accepted_lists_commute.
    + apply (accepted_perm 2 two_map [2] 0 A2). cbn; lia.
    + eapply Forall_impl; [|exact K]. intros t. apply Forall_impl. intros oi [X Y]. split; [unfold spin_known; cbn in *; tauto|exact Y].
    + intros t o i Ht Ho _. cbn [ts In] in Ht. destruct Ht as [<-|[<-|[<-|[<-|[]]]]]; cbn [fst In] in Ho;
        repeat (destruct Ho as [E|Ho]; [injection E as <- <-; reflexivity|]); destruct Ho.
    + cbn. repeat constructor; cbn; intuition discriminate.
    + apply check_symm_intro. intros t Ht. cbn [ts map In] in Ht |- *.
      destruct Ht as [<-|[<-|[<-|[<-|[]]]]]; (split; [reflexivity|]); [right; left|left|right; right; right; left|right; right; left]; teq.
  - exists Mx. split; [exact HM|]. exact (HR false Mx HM 0 0 ltac:(cbn; lia) ltac:(cbn; lia)).
Qed.
