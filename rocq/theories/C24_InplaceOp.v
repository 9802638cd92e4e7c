(* C24: inplace_Op adds the product of the (transposed, conjugated) operator matrix with the input to the output, for every schedule
   of the threads. *)
From Verif Require Import AuxN SpecC SpecDigits SpecMaps SpecSymm SpecOps SpecInv SpecBasis SpecIndex SpecFermi SpecProj M_benes M_maps M_symm M_fmap M_index M_ops M_opstr M_symop M_inplace
  P_maps P_fermion P_fmap3 P_fmap4 P_symminst P_index P_ops P_opinst P_proj P_symop P_symopinst P_inplace P_make2 P_listcex C12_IndexLookup C17_ReducedMatrix.
Local Open Scope nat_scope.

(* Setting as in C17.  v0: content of v_out before the call (zeros when v_out is not given); the inductive relation inplace_Op
   contains all runs: any distribution of the rows over threads, any interleaving of their atomic additions.
   Every run that returns gives the same v_out, and with a complex type every run returns. *)
Theorem C24_spin : forall pauli ld n mlist pers qs (S : N -> Prop) sts L N_p junk bb be ts,
  (n <= 2 ^ ld)%nat -> accepted n mlist pers -> length pers <= 32 ->
  let ms := hcb_smap ld n mlist in
  (forall d e s, d < length pers -> e < length pers -> (s < 2 ^ N.of_nat n)%N ->
     hcb_map_bits n (nth d mlist []) (hcb_map_bits n (nth e mlist []) s) = hcb_map_bits n (nth e mlist []) (hcb_map_bits n (nth d mlist []) s)) ->
  (forall s, S s -> (s < 2 ^ N.of_nat n)%N) -> enumerates sts S -> closed_under S (length pers) ms ->
  lists_decreasing (in_block S (length pers) pers qs ms) L ->
  (0 < N_p -> N_p <= n /\ N_p <= 62 /\ make_blocks (hcb_prefix n N_p) N_p (map fst L) junk = Some (bb, be)) ->
  Forall (fun t => Forall (fun oi => In (fst oi) ["I"; "+"; "-"; "x"; "y"; "z"; "n"]%char /\ snd oi < n) (fst t)) ts ->
  let M := N.to_nat (2 ^ N.of_nat n) in
  let H := lattice_operator M (fun o => site_matrix 2 n (pauli_site pauli o)) ts in
  (forall d, d < length pers -> commutes_with_map 2 n (nth d mlist []) H) ->
  forall (real transposed conjugated : bool) nvecs (v_in v0 : nat -> nat -> C), (real = true -> forall r k, snd (v_in r k) = 0%R) ->
  let run := inplace_Op real transposed conjugated (get_index M (map fst L) pers ms (length pers) N_p (hcb_prefix n N_p) bb be) L qs pers (length pers)
    (pauli_scale pauli) (hcb_op n) C1 nvecs v_in ts v0 in
  (real = false -> (exists v, run (Some v)) /\ ~ run None) /\
  forall v, run (Some v) -> forall r k, r < length L -> k < nvecs ->
    let st i := fst (nth i L (0%N, 0%Z)) in
    let Hr a b := reduced sts pers qs ms H (st a) (st b) in
    let X c := if transposed then Hr c r else Hr r c in
    v r k = (v0 r k + Csum (seq 0 (length L)) (fun c => as_type real (if conjugated then Cconj (X c) else X c) * v_in c k))%C.
Proof.
  intros pauli ld n mlist pers qs S sts L N_p junk bb be ts Hn HA Hnt ms Hc SD HE SC HL Hb Hts M H HC real tr cj nvecs v_in v0 Hv.
  apply (inplace_lattice 2 n pers qs ms S sts L (hcb_good_maps ld n mlist pers Hn HA Hc) Hnt SD HE SC HL N_p (hcb_prefix n N_p) bb be)
    with (allowed := ["I"; "+"; "-"; "x"; "y"; "z"; "n"]%char) (mat := fun o => site_matrix 2 n (pauli_site pauli o)) (mat0 := fun o => site_matrix 2 n (spin_half_site o)).
  - intros Hp s. destruct (Hb Hp) as (B1 & B2 & B3). apply (C12_blocks_spin n N_p (map fst L) junk bb be s); try assumption; try lia.
    + exact (A_dec (length pers) pers ms qs S L HL).
    + rewrite Forall_map, Forall_forall. intros [x k] Hx. apply SD. apply HL in Hx. apply Hx.
  - intros l Hl. apply hcb_op_acts. eapply Forall_impl; [|exact Hl]. intros oi [X Y]. split; [unfold spin_known; cbn in X |- *; tauto|exact Y].
  - intros l r s. apply pauli_string.
  - exact Hts.
  - apply (commutes_site 2 n mlist pers ms S); [apply hcb_site_maps; assumption|exact SD|exact HC].
  - exact Hv.
Qed.
Print Assumptions C24_spin.

Theorem C24_boson : forall B n mlist pers qs (S : N -> Prop) sts L N_p junk bb be ts,
  (2 <= B)%N -> accepted n mlist pers -> length pers <= 32 ->
  let ms := boson_smap B n mlist in
  (forall d e s, d < length pers -> e < length pers -> (s < B ^ N.of_nat n)%N ->
     boson_map_bits B n (nth d mlist []) (boson_map_bits B n (nth e mlist []) s) = boson_map_bits B n (nth e mlist []) (boson_map_bits B n (nth d mlist []) s)) ->
  (forall s, S s -> (s < B ^ N.of_nat n)%N) -> enumerates sts S -> closed_under S (length pers) ms ->
  lists_decreasing (in_block S (length pers) pers qs ms) L ->
  (0 < N_p -> N_p <= n /\ (B ^ N.of_nat N_p <= 2 ^ 63)%N /\ make_blocks (boson_prefix B n N_p) N_p (map fst L) junk = Some (bb, be)) ->
  let M := N.to_nat (B ^ N.of_nat n) in
  let conclusion allowed op site :=
    Forall (fun t => Forall (fun oi => In (fst oi) allowed /\ snd oi < n) (fst t)) ts ->
    let H := lattice_operator M (fun o => site_matrix B n (site o)) ts in
    (forall d, d < length pers -> commutes_with_map B n (nth d mlist []) H) ->
    forall (real transposed conjugated : bool) nvecs (v_in v0 : nat -> nat -> C), (real = true -> forall r k, snd (v_in r k) = 0%R) ->
    let run := inplace_Op real transposed conjugated (get_index M (map fst L) pers ms (length pers) N_p (boson_prefix B n N_p) bb be) L qs pers (length pers)
      (fun _ => 1%R) op C1 nvecs v_in ts v0 in
    (real = false -> (exists v, run (Some v)) /\ ~ run None) /\
    forall v, run (Some v) -> forall r k, r < length L -> k < nvecs ->
      let st i := fst (nth i L (0%N, 0%Z)) in
      let Hr a b := reduced sts pers qs ms H (st a) (st b) in
      let X c := if transposed then Hr c r else Hr r c in
      v r k = (v0 r k + Csum (seq 0 (length L)) (fun c => as_type real (if conjugated then Cconj (X c) else X c) * v_in c k))%C in
  conclusion ["I"; "n"; "+"; "-"]%char (boson_op B n) (boson_site B) /\
  conclusion ["I"; "z"; "+"; "-"]%char (higher_spin_op B n) (spinS_site B).
Proof.
  intros B n mlist pers qs S sts L N_p junk bb be ts HB HA Hnt ms Hc SD HE SC HL Hb M conclusion.
  assert (Hb' : 0 < N_p -> forall s, is_position (map fst L) s (rep_position_blocks bb be (map fst L) (boson_prefix B n N_p s) s)).
  { intros Hp s. destruct (Hb Hp) as (B1 & B2 & B3). apply (C12_blocks_boson B n N_p (map fst L) junk bb be s); try assumption; try lia.
    + exact (A_dec (length pers) pers ms qs S L HL).
    + rewrite Forall_map, Forall_forall. intros [x k] Hx. apply SD. apply HL in Hx. apply Hx. }
  unfold conclusion; split; intros Hts HC real tr cj nvecs v_in v0 Hv.
  - apply (inplace_lattice B n pers qs ms S sts L (boson_good_maps B n mlist pers HB HA Hc) Hnt SD HE SC HL N_p (boson_prefix B n N_p) bb be Hb')
      with (allowed := ["I"; "n"; "+"; "-"]%char) (mat := fun o => site_matrix B n (boson_site B o)) (mat0 := fun o => site_matrix B n (boson_site B o));
      [|intros l r s; change (RtoC 1) with C1; ring|exact Hts|apply (commutes_site B n mlist pers ms S); [apply boson_site_maps; assumption|exact SD|exact HC]|exact Hv].
    intros l Hl. apply boson_op_acts; assumption.
  - apply (inplace_lattice B n pers qs ms S sts L (boson_good_maps B n mlist pers HB HA Hc) Hnt SD HE SC HL N_p (boson_prefix B n N_p) bb be Hb')
      with (allowed := ["I"; "z"; "+"; "-"]%char) (mat := fun o => site_matrix B n (spinS_site B o)) (mat0 := fun o => site_matrix B n (spinS_site B o));
      [|intros l r s; change (RtoC 1) with C1; ring|exact Hts|apply (commutes_site B n mlist pers ms S); [apply boson_site_maps; assumption|exact SD|exact HC]|exact Hv].
    intros l Hl. apply higher_spin_op_acts; assumption.
Qed.
Print Assumptions C24_boson.

(* fermions, as in C17_fermion *)
Theorem C24_fermion : forall bytes n mlist pers qs (S : N -> Prop) sts L N_p junk bb be ts,
  (N.of_nat n <= 8 * bytes)%N -> n <= 256 -> accepted n mlist pers -> length pers <= 32 -> (forall d, d < length pers -> no_inversion (nth d mlist [])) ->
  let ms := fermion_smap n mlist in
  (forall d e s, d < length pers -> e < length pers -> (s < 2 ^ N.of_nat n)%N ->
     hcb_map_bits n (nth d mlist []) (hcb_map_bits n (nth e mlist []) s) = hcb_map_bits n (nth e mlist []) (hcb_map_bits n (nth d mlist []) s)) ->
  (forall s, S s -> (s < 2 ^ N.of_nat n)%N) -> enumerates sts S -> closed_under S (length pers) ms ->
  lists_decreasing (in_block S (length pers) pers qs ms) L ->
  (0 < N_p -> N_p <= n /\ N_p <= 62 /\ make_blocks (hcb_prefix n N_p) N_p (map fst L) junk = Some (bb, be)) ->
  Forall (fun t => Forall (fun oi => In (fst oi) ["I"; "n"; "z"; "+"; "-"]%char /\ snd oi < n) (fst t)) ts ->
  let M := N.to_nat (2 ^ N.of_nat n) in
  let c o i := op_matrix (fermion_op bytes n [(o, i)]) in
  let H := lattice_operator M c ts in
  (forall d, d < length pers -> meq M (mmul M (map_matrix (ms d)) H) (mmul M H (map_matrix (ms d)))) ->
  forall (real transposed conjugated : bool) nvecs (v_in v0 : nat -> nat -> C), (real = true -> forall r k, snd (v_in r k) = 0%R) ->
  let run := inplace_Op real transposed conjugated (get_index M (map fst L) pers ms (length pers) N_p (hcb_prefix n N_p) bb be) L qs pers (length pers)
    (fun _ => 1%R) (fermion_op bytes n) C1 nvecs v_in ts v0 in
  (real = false -> (exists v, run (Some v)) /\ ~ run None) /\
  forall v, run (Some v) -> forall r k, r < length L -> k < nvecs ->
    let st i := fst (nth i L (0%N, 0%Z)) in
    let Hr a b := reduced sts pers qs ms H (st a) (st b) in
    let X c := if transposed then Hr c r else Hr r c in
    v r k = (v0 r k + Csum (seq 0 (length L)) (fun c => as_type real (if conjugated then Cconj (X c) else X c) * v_in c k))%C.
Proof.
  intros bytes n mlist pers qs S sts L N_p junk bb be ts Hw Hn HA Hnt NI ms Hc SD HE SC HL Hb Hts M c H HC real tr cj nvecs v_in v0 Hv.
  apply (inplace_lattice 2 n pers qs ms S sts L (fermion_good_maps n mlist pers HA NI Hc) Hnt SD HE SC HL N_p (hcb_prefix n N_p) bb be)
    with (allowed := ["I"; "n"; "z"; "+"; "-"]%char) (mat := c) (mat0 := c).
  - intros Hp s. destruct (Hb Hp) as (B1 & B2 & B3). apply (C12_blocks_spin n N_p (map fst L) junk bb be s); try assumption; try lia.
    + exact (A_dec (length pers) pers ms qs S L HL).
    + rewrite Forall_map, Forall_forall. intros [x k] Hx. apply SD. apply HL in Hx. apply Hx.
  - intros l Hl. exact (fermion_string_acts bytes n Hw Hn l Hl).
  - intros l r s. apply C_eq; cbn; ring.
  - exact Hts.
  - intros d r s Hd Hr Hs. apply (UM_commutes n (nth d mlist []) (accepted_perm n mlist pers d HA Hd)); [exact (HC d Hd)|apply SD, Hr|apply SD, Hs].
  - exact Hv.
Qed.
Print Assumptions C24_fermion.

(* hypotheses met: the exchange example of C17, S+_0 S-_1 + S-_0 S+_1 in the odd block, transposed and conjugated, two columns *)
Example C24_example : let ts := [([("+", 0); ("-", 1)], C1); ([("-", 0); ("+", 1)], C1)]%char in
  let ms := hcb_smap 5 2 two_map in let L := [(2%N, 1%Z)] in
  let H := lattice_operator 4 (fun o => site_matrix 2 2 (pauli_site 0 o)) ts in
  exists v, inplace_Op false true true (get_index 4 (map fst L) [2] ms 1 0 (hcb_prefix 2 0) (fun _ => 0%Z) (fun _ => 0%Z)) L [1%Z] [2] 1 (pauli_scale 0) (hcb_op 2) C1 2
    (fun r k => (1, INR k)%R) ts (fun _ _ => C1) (Some v) /\
  v 0 1 = (C1 + Cconj (reduced [0; 1; 2; 3]%N [2] [1%Z] ms H 2%N 2%N) * (1, 1)%R)%C.
Proof.
  intros ts ms L H.
  assert (K : Forall (fun t => Forall (fun oi => In (fst oi) ["I"; "+"; "-"; "x"; "y"; "z"; "n"]%char /\ snd oi < 2) (fst t)) ts).
  { repeat (constructor; [repeat (constructor; [cbn; split; [tauto|lia]|]); constructor|]). constructor. }
  assert (A2 : accepted 2 two_map [2]).
  { split; [reflexivity|]. intros [|d] Hd; [|cbn in Hd; lia]. split; [reflexivity|]. exists 10. vm_compute. reflexivity. }
  destruct (C24_spin 0 5 2 two_map [2] [1%Z] (fun s => (s < N.of_nat 4)%N) [0; 1; 2; 3]%N L 0 0 (fun _ => 0%Z) (fun _ => 0%Z) ts) with (real := false) (transposed := true) (conjugated := true) (nvecs := 2)
    (v_in := fun r k : nat => (1, INR k)%R) (v0 := fun _ _ : nat => C1) as [HR HV].
  - cbn; lia.
  - exact A2.
  - cbn; lia.
  - intros d e s Hd He Hs. destruct d, e; cbn in Hd, He; lia || reflexivity.
  - intros s Hs. exact Hs.
  - split; [repeat constructor; cbn; intuition discriminate|]. intros s. cbn [In]. split; [intros [<-|[<-|[<-|[<-|[]]]]]; lia|lia].
  - intros d s Hd Hs. apply (gm_dom _ _ _ _ two_good); assumption.
  - exact two_lists.
  - lia.
  - exact K.
  - intros [|d] Hd; [|cbn in Hd; lia]. apply C17_accepted_lists_commute.
    + apply (accepted_perm 2 two_map [2] 0 A2). cbn; lia.
    + eapply Forall_impl; [|exact K]. intros t. apply Forall_impl. intros oi [X Y]. split; [unfold spin_known; cbn in X |- *; tauto|exact Y].
    + intros t o i Ht Ho _. cbn [ts In] in Ht. destruct Ht as [<-|[<-|[]]]; cbn [fst In] in Ho;
        repeat (destruct Ho as [E|Ho]; [injection E as <- <-; reflexivity|]); destruct Ho.
    + cbn. repeat constructor; cbn; intuition discriminate.
    + apply check_symm_intro. intros t Ht. cbn [ts map In] in Ht |- *.
      destruct Ht as [<-|[<-|[]]]; (split; [reflexivity|]); [right; left|left]; teq.
  - discriminate.
  - destruct (HR eq_refl) as [[v Hv] _]. exists v. split; [exact Hv|]. pose proof (HV v Hv 0 1 ltac:(cbn; lia) ltac:(lia)) as E. cbv zeta in E. change (seq 0 (length L)) with [0] in E. rewrite Csum_cons, Csum_nil in E.
    rewrite E. unfold as_type. change (INR 1) with 1%R. change (fst (nth 0 L (0%N, 0%Z))) with 2%N. subst H ms. set (z := reduced _ _ _ _ _ _ _). clearbody z. ring.
Qed.
