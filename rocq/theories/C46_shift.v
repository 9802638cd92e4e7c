(* C46: Op_shift_sector applies an operator that leads from one symmetry block to another, and Op_bra_ket lists the matrix elements of
   a string on given states, for every schedule of the threads. *)
From Verif Require Import AuxN SpecC SpecDigits SpecMaps SpecSymm SpecOps SpecInv SpecBasis SpecIndex SpecFermi SpecProj SpecShift M_benes M_maps M_symm M_fmap M_index M_ops M_opstr M_symop M_inplace M_shift
  P_maps P_fermion P_fmap3 P_fmap4 P_symm P_norm P_symminst P_index P_ops P_opinst P_proj P_symop P_symopinst P_inplace P_make2 P_projex P_listcex P_shift P_braket P_shiftex.
Local Open Scope nat_scope.

(* ---- Op_shift_sector ---- *)
(* Input block: states S_in, sector qi, representatives Li.  Output block: S_out, qo, Lo.  ts: the list of strings with their couplings, whose sum
   carries the input sector to the output sector.  no_return_phase excludes the case of C46_shift_refuted.
   Every run gives the output array plus (matrix elements between the blocks) times the input; with a complex type every run returns. *)
Theorem C46_shift_spin_partial : forall pauli ld n mlist pers qi qo (S_in S_out : N -> Prop) sts_in sts_out Li Lo ts,
  (n <= 2 ^ ld)%nat -> accepted n mlist pers -> length pers <= 32 ->
  let ms := hcb_smap ld n mlist in
  (forall d e s, d < length pers -> e < length pers -> (s < 2 ^ N.of_nat n)%N ->
     hcb_map_bits n (nth d mlist []) (hcb_map_bits n (nth e mlist []) s) = hcb_map_bits n (nth e mlist []) (hcb_map_bits n (nth d mlist []) s)) ->
  (forall s, S_in s -> (s < 2 ^ N.of_nat n)%N) -> (forall s, S_out s -> (s < 2 ^ N.of_nat n)%N) -> enumerates sts_in S_in -> enumerates sts_out S_out ->
  closed_under S_in (length pers) ms -> closed_under S_out (length pers) ms ->
  lists_decreasing (in_block S_in (length pers) pers qi ms) Li -> lists_decreasing (in_block S_out (length pers) pers qo ms) Lo ->
  ts <> [] -> Forall (fun t => Forall (fun oi => In (fst oi) ["I"; "+"; "-"; "x"; "y"; "z"; "n"]%char /\ snd oi < n) (fst t)) ts ->
  let M := N.to_nat (2 ^ N.of_nat n) in
  let mat o := site_matrix 2 n (pauli_site pauli o) in
  shifts_sector S_in S_out (length pers) pers qi qo ms (lattice_operator M mat ts) ->
  no_return_phase S_in S_out (length pers) qo ms (map fst Li) (term_matrices M mat ts) ->
  forall (real : bool) nvecs (v_in : nat -> nat -> C) v_out, (real = true -> forall r k, snd (v_in r k) = 0%R) ->
  let run := Op_shift_sector real pers qo ms (length pers) Lo Li (pauli_scale pauli) (hcb_op n) nvecs v_in ts v_out in
  (real = false -> (exists v, run (Some v)) /\ ~ run None) /\
  forall v, run (Some v) -> forall j k, j < length Lo -> k < nvecs ->
    v j k = ((match v_out with Some w => w j k | None => C0 end) + Csum (seq 0 (length Li)) (fun i =>
      as_type real (transition sts_out sts_in pers qo qi ms (lattice_operator M mat ts) (fst (nth j Lo (0%N, 0%Z))) (fst (nth i Li (0%N, 0%Z)))) * v_in i k))%C.
Proof.
  intros pauli ld n mlist pers qi qo S_in S_out sti sto Li Lo ts Hn HA Hnt ms Hc SDi SDo Ei Eo SCi SCo HLi HLo Hne Hts M mat HS HP real nvecs v_in v_out Hv.
  apply (shift_lattice 2 n pers qi qo ms S_in S_out sti sto Li Lo (hcb_good_maps ld n mlist pers Hn HA Hc) Hnt SDi SDo Ei Eo SCi SCo HLi HLo ["I"; "+"; "-"; "x"; "y"; "z"; "n"]%char
    (pauli_scale pauli) (hcb_op n) mat (fun o => site_matrix 2 n (spin_half_site o))); try assumption.
  - intros l Hl. apply hcb_op_acts. eapply Forall_impl; [|exact Hl]. intros oi [X Y]. split; [unfold spin_known; cbn in X |- *; tauto|exact Y].
  - intros l r s. apply pauli_string.
Qed.
Print Assumptions C46_shift_spin_partial.

(* bosons, and spins larger than 1/2 *)
Theorem C46_shift_boson_partial : forall B n mlist pers qi qo (S_in S_out : N -> Prop) sts_in sts_out Li Lo ts,
  (2 <= B)%N -> accepted n mlist pers -> length pers <= 32 ->
  let ms := boson_smap B n mlist in
  (forall d e s, d < length pers -> e < length pers -> (s < B ^ N.of_nat n)%N ->
     boson_map_bits B n (nth d mlist []) (boson_map_bits B n (nth e mlist []) s) = boson_map_bits B n (nth e mlist []) (boson_map_bits B n (nth d mlist []) s)) ->
  (forall s, S_in s -> (s < B ^ N.of_nat n)%N) -> (forall s, S_out s -> (s < B ^ N.of_nat n)%N) -> enumerates sts_in S_in -> enumerates sts_out S_out ->
  closed_under S_in (length pers) ms -> closed_under S_out (length pers) ms ->
  lists_decreasing (in_block S_in (length pers) pers qi ms) Li -> lists_decreasing (in_block S_out (length pers) pers qo ms) Lo -> ts <> [] ->
  let M := N.to_nat (B ^ N.of_nat n) in
  let conclusion allowed op site :=
    Forall (fun t => Forall (fun oi => In (fst oi) allowed /\ snd oi < n) (fst t)) ts ->
    let mat o := site_matrix B n (site o) in
    shifts_sector S_in S_out (length pers) pers qi qo ms (lattice_operator M mat ts) ->
    no_return_phase S_in S_out (length pers) qo ms (map fst Li) (term_matrices M mat ts) ->
    forall (real : bool) nvecs (v_in : nat -> nat -> C) v_out, (real = true -> forall r k, snd (v_in r k) = 0%R) ->
    let run := Op_shift_sector real pers qo ms (length pers) Lo Li (fun _ => 1%R) op nvecs v_in ts v_out in
    (real = false -> (exists v, run (Some v)) /\ ~ run None) /\
    forall v, run (Some v) -> forall j k, j < length Lo -> k < nvecs ->
      v j k = ((match v_out with Some w => w j k | None => C0 end) + Csum (seq 0 (length Li)) (fun i =>
        as_type real (transition sts_out sts_in pers qo qi ms (lattice_operator M mat ts) (fst (nth j Lo (0%N, 0%Z))) (fst (nth i Li (0%N, 0%Z)))) * v_in i k))%C in
  conclusion ["I"; "n"; "+"; "-"]%char (boson_op B n) (boson_site B) /\
  conclusion ["I"; "z"; "+"; "-"]%char (higher_spin_op B n) (spinS_site B).
Proof.
  intros B n mlist pers qi qo S_in S_out sti sto Li Lo ts HB HA Hnt ms Hc SDi SDo Ei Eo SCi SCo HLi HLo Hne M conclusion.
  unfold conclusion; split; intros Hts HS HP real nvecs v_in v_out Hv.
  - apply (shift_lattice B n pers qi qo ms S_in S_out sti sto Li Lo (boson_good_maps B n mlist pers HB HA Hc) Hnt SDi SDo Ei Eo SCi SCo HLi HLo ["I"; "n"; "+"; "-"]%char
      (fun _ => 1%R) (boson_op B n) (fun o => site_matrix B n (boson_site B o)) (fun o => site_matrix B n (boson_site B o))); try assumption; [intros l Hl; apply boson_op_acts; assumption|intros l r s; change (RtoC 1) with C1; ring].
  - apply (shift_lattice B n pers qi qo ms S_in S_out sti sto Li Lo (boson_good_maps B n mlist pers HB HA Hc) Hnt SDi SDo Ei Eo SCi SCo HLi HLo ["I"; "z"; "+"; "-"]%char
      (fun _ => 1%R) (higher_spin_op B n) (fun o => site_matrix B n (spinS_site B o)) (fun o => site_matrix B n (spinS_site B o))); try assumption; [intros l Hl; apply higher_spin_op_acts; assumption|intros l r s; change (RtoC 1) with C1; ring].
Qed.
Print Assumptions C46_shift_boson_partial.

Theorem C46_shift_fermion_partial : forall bytes n mlist pers qi qo (S_in S_out : N -> Prop) sts_in sts_out Li Lo ts,
  (N.of_nat n <= 8 * bytes)%N -> n <= 256 -> accepted n mlist pers -> length pers <= 32 -> (forall d, d < length pers -> no_inversion (nth d mlist [])) ->
  let ms := fermion_smap n mlist in
  (forall d e s, d < length pers -> e < length pers -> (s < 2 ^ N.of_nat n)%N ->
     hcb_map_bits n (nth d mlist []) (hcb_map_bits n (nth e mlist []) s) = hcb_map_bits n (nth e mlist []) (hcb_map_bits n (nth d mlist []) s)) ->
  (forall s, S_in s -> (s < 2 ^ N.of_nat n)%N) -> (forall s, S_out s -> (s < 2 ^ N.of_nat n)%N) -> enumerates sts_in S_in -> enumerates sts_out S_out ->
  closed_under S_in (length pers) ms -> closed_under S_out (length pers) ms ->
  lists_decreasing (in_block S_in (length pers) pers qi ms) Li -> lists_decreasing (in_block S_out (length pers) pers qo ms) Lo ->
  ts <> [] -> Forall (fun t => Forall (fun oi => In (fst oi) ["I"; "n"; "z"; "+"; "-"]%char /\ snd oi < n) (fst t)) ts ->
  let M := N.to_nat (2 ^ N.of_nat n) in
  let mat o i := op_matrix (fermion_op bytes n [(o, i)]) in
  shifts_sector S_in S_out (length pers) pers qi qo ms (lattice_operator M mat ts) ->
  no_return_phase S_in S_out (length pers) qo ms (map fst Li) (term_matrices M mat ts) ->
  forall (real : bool) nvecs (v_in : nat -> nat -> C) v_out, (real = true -> forall r k, snd (v_in r k) = 0%R) ->
  let run := Op_shift_sector real pers qo ms (length pers) Lo Li (fun _ => 1%R) (fermion_op bytes n) nvecs v_in ts v_out in
  (real = false -> (exists v, run (Some v)) /\ ~ run None) /\
  forall v, run (Some v) -> forall j k, j < length Lo -> k < nvecs ->
    v j k = ((match v_out with Some w => w j k | None => C0 end) + Csum (seq 0 (length Li)) (fun i =>
      as_type real (transition sts_out sts_in pers qo qi ms (lattice_operator M mat ts) (fst (nth j Lo (0%N, 0%Z))) (fst (nth i Li (0%N, 0%Z)))) * v_in i k))%C.
Proof.
  intros bytes n mlist pers qi qo S_in S_out sti sto Li Lo ts Hw Hn HA Hnt NI ms Hc SDi SDo Ei Eo SCi SCo HLi HLo Hne Hts M mat HS HP real nvecs v_in v_out Hv.
  apply (shift_lattice 2 n pers qi qo ms S_in S_out sti sto Li Lo (fermion_good_maps n mlist pers HA NI Hc) Hnt SDi SDo Ei Eo SCi SCo HLi HLo ["I"; "n"; "z"; "+"; "-"]%char
    (fun _ => 1%R) (fermion_op bytes n) mat mat); try assumption.
  - intros l Hl. exact (fermion_string_acts bytes n Hw Hn l Hl).
  - intros l r s. apply C_eq; cbn; ring.
Qed.
Print Assumptions C46_shift_fermion_partial.

(* hypotheses met: n_0 - n_1 leads from k = 0 to k = pi on two sites with one particle; the matrix element is 1 *)
Example C46_shift_example : exists v,
  Op_shift_sector false [2] [1%Z] pair_maps 1 [(2%N, 1%Z)] [(2%N, 1%Z)] (pauli_scale 0) (hcb_op 2) 2 (fun _ k => (INR k, 3)%R) imbalance None (Some v) /\ v 0 1 = (1, 3)%R.
Proof.
  destruct (C46_shift_spin_partial 0 5 2 two_map [2] [0%Z] [1%Z] duo_S duo_S [2; 1]%N [2; 1]%N [(2%N, 1%Z)] [(2%N, 1%Z)] imbalance) with (real := false) (nvecs := 2) (v_in := fun r k : nat => (INR k, 3)%R) (v_out := @None dvec) as [HR HV].
  - cbn; lia.
  - exact pair_accepted.
  - cbn; lia.
  - intros d e s Hd He Hs. destruct d, e; cbn in Hd, He; lia || reflexivity.
  - exact duo_dom.
  - exact duo_dom.
  - exact duo_enum.
  - exact duo_enum.
  - exact pair_closed.
  - exact pair_closed.
  - exact (pair_block 0).
  - exact (pair_block 1).
  - discriminate.
  - repeat (constructor; [repeat (constructor; [cbn; split; [tauto|lia]|]); constructor|]). constructor.
  - exact imbalance_shifts.
  - exact imbalance_diagonal.
  - discriminate.
  - destruct (HR eq_refl) as [[v Hv] _]. exists v. split; [exact Hv|]. rewrite (HV v Hv 0 1 ltac:(cbn; lia) ltac:(lia)). change (seq 0 (length [(2%N, 1%Z)])) with [0]. rewrite Csum_cons, Csum_nil. cbn [nth fst as_type].
    match goal with |- context [transition ?a ?b ?c ?d ?e ?f ?g ?h ?i] => change (transition a b c d e f g h i) with (transition a b c d e pair_maps (lattice_operator 4 P2 imbalance) h i) end.
    rewrite imbalance_transition. apply C_eq; cbn; ring.
Qed.

(* The factor exp(-i k) of the output sector is left out whenever the representative of the image is the state itself, although the image may be another
   state of its orbit: S+_0 S-_1 - S+_1 S-_0 leads from k = 0 to k = pi, its matrix element is +1, and the call returns -1. *)
Theorem C46_shift_refuted :
  shifts_sector duo_S duo_S 1 [2] [0%Z] [1%Z] pair_maps (lattice_operator 4 (fun o => site_matrix 2 2 (pauli_site 0 o)) current) /\
  transition [2; 1]%N [2; 1]%N [2] [1%Z] [0%Z] pair_maps (lattice_operator 4 (fun o => site_matrix 2 2 (pauli_site 0 o)) current) 2%N 2%N = C1 /\
  exists v, Op_shift_sector false [2] [1%Z] pair_maps 1 [(2%N, 1%Z)] [(2%N, 1%Z)] (pauli_scale 0) (hcb_op 2) 1 (fun _ _ => C1) current None (Some v) /\ v 0 0 = RtoC (-1).
Proof.
  split; [exact current_shifts|]. split; [exact current_transition|]. destruct (current_run None) as (v & Hv & E). exists v. split; [exact Hv|]. rewrite E. ring.
Qed.
Print Assumptions C46_shift_refuted.

(* "v_out: array to write the result to": the array is not set to zero first; and an empty list of operators raises *)
Theorem C46_shift_output_refuted : (forall w : nat -> nat -> C, exists v v',
  Op_shift_sector false [2] [1%Z] pair_maps 1 [(2%N, 1%Z)] [(2%N, 1%Z)] (pauli_scale 0) (hcb_op 2) 1 (fun _ _ => C1) current None (Some v) /\
  Op_shift_sector false [2] [1%Z] pair_maps 1 [(2%N, 1%Z)] [(2%N, 1%Z)] (pauli_scale 0) (hcb_op 2) 1 (fun _ _ => C1) current (Some w) (Some v') /\ v' 0 0 = (w 0 0 + v 0 0)%C) /\
  forall real pers qo ms nt Lo Li scale op nvecs v_in v_out res, Op_shift_sector real pers qo ms nt Lo Li scale op nvecs v_in [] v_out res -> res = None.
Proof.
  split; [|intros real pers qo ms nt Lo Li scale op nvecs v_in v_out res H; exact H].
  intros w. destruct (current_run None) as (v & Hv & E). destruct (current_run (Some w)) as (v' & Hv' & E'). exists v, v'. split; [exact Hv|]. split; [exact Hv'|]. rewrite E, E'. ring.
Qed.
Print Assumptions C46_shift_output_refuted.
(* spinful fermions: every call raises *)
Theorem C46_spinful_shift_refuted : forall v_in ts v_out, spinful_Op_shift_sector v_in ts v_out = None.
Proof. reflexivity. Qed.
Print Assumptions C46_spinful_shift_refuted.

(* ---- Op_bra_ket ---- *)
(* One block (states S, sector qs, representatives L), a list of strings ts whose sum commutes with the maps, and any distinct kets of the block.
   pcon: the test of the particle number when the basis has one.  Op_bra_ket is called once for each string.  No call raises; with reduce_output
   all returned elements are non-zero and lie in the block, without it there is one for every ket; and the elements returned for a pair
   of states add up to the element of the symmetry-reduced matrix.  no_stale_phase excludes the cases of the refutations below. *)
Definition bra_ket_correct (S : N -> Prop) sts pers qs (ms : smap) (L : list (N * Z)) (conserves : bool) M (mat : ascii -> nat -> cmat) n allowed ts
    (run : bool -> bool -> list N -> list (ascii * nat) * C -> option (list (cell * N * N)) -> Prop) : Prop :=
  Forall (fun t => Forall (fun oi => In (fst oi) allowed /\ snd oi < n) (fst t)) ts ->
  commutes_with_maps S (length pers) ms (lattice_operator M mat ts) ->
  forall (real reduce : bool) kets, NoDup kets -> incl kets (map fst L) -> no_stale_phase conserves M (length pers) qs ms kets (term_matrices M mat ts) ->
  (forall x, In x ts -> (exists out, run real reduce kets x (Some out)) /\ ~ run real reduce kets x None /\ forall out, run real reduce kets x (Some out) ->
     (reduce = true -> forall e, In e out -> (exists z, fst (fst e) = CVal z /\ z <> C0) /\ In (snd (fst e)) (map fst L) /\ In (snd e) kets) /\
     (reduce = false -> map snd out = kets)) /\
  forall outs, Forall2 (fun x out => run real reduce kets x (Some out)) ts outs -> forall b s, In s kets -> In b (map fst L) ->
    Csum outs (fun out => Csum out (fun e => if ((snd (fst e) =? b)%N && (snd e =? s)%N)%bool then match fst (fst e) with CVal z => z | _ => C0 end else C0))
    = as_type real (reduced sts pers qs ms (lattice_operator M mat ts) b s).
Definition tests_states (B : N) (n : nat) (pcon : option (N -> bool)) (S : N -> Prop) : Prop :=
  match pcon with Some p => forall x, (x < B ^ N.of_nat n)%N -> (p x = true <-> S x) | None => forall x, (x < B ^ N.of_nat n)%N -> S x end.

Lemma scale_nonzero pauli l : pauli_scale pauli l <> 0%R.
Proof. unfold pauli_scale. destruct (pauli =? 1)%Z; [apply pow_nonzero; lra|]. destruct (pauli =? -1)%Z; [apply pow_nonzero; lra|lra]. Qed.
Theorem C46_bra_ket_spin_partial : forall pauli ld n mlist pers qs (S : N -> Prop) sts L pcon ts,
  (n <= 2 ^ ld)%nat -> accepted n mlist pers -> length pers <= 32 ->
  let ms := hcb_smap ld n mlist in
  (forall d e s, d < length pers -> e < length pers -> (s < 2 ^ N.of_nat n)%N ->
     hcb_map_bits n (nth d mlist []) (hcb_map_bits n (nth e mlist []) s) = hcb_map_bits n (nth e mlist []) (hcb_map_bits n (nth d mlist []) s)) ->
  (forall s, S s -> (s < 2 ^ N.of_nat n)%N) -> enumerates sts S -> closed_under S (length pers) ms ->
  lists_decreasing (in_block S (length pers) pers qs ms) L -> tests_states 2 n pcon S ->
  let allowed := ["I"; "+"; "-"; "x"; "y"; "z"; "n"]%char in
  bra_ket_correct S sts pers qs ms L (match pcon with Some _ => true | None => false end) (N.to_nat (2 ^ N.of_nat n)) (fun o => site_matrix 2 n (pauli_site pauli o)) n allowed ts
    (fun real reduce kets x => Op_bra_ket real pcon pers qs ms (length pers) n allowed (pauli_scale pauli) (hcb_op n) (fst x) (snd x) kets reduce).
Proof.
  intros pauli ld n mlist pers qs S sts L pcon ts Hn HA Hnt ms Hc SD HE SC HL HS allowed Hts HC real reduce kets ND Hk HJ.
  apply (bra_ket_lattice 2 n pers qs ms S sts L (hcb_good_maps ld n mlist pers Hn HA Hc) Hnt SD HE SC HL pcon HS allowed (pauli_scale pauli) (hcb_op n)
    (fun o => site_matrix 2 n (pauli_site pauli o)) (fun o => site_matrix 2 n (spin_half_site o))); try assumption.
  - intros l Hl. apply hcb_op_acts. eapply Forall_impl; [|exact Hl]. intros oi [X Y]. split; [unfold spin_known; cbn in X |- *; tauto|exact Y].
  - intros l r s. apply pauli_string.
  - apply scale_nonzero.
Qed.
Print Assumptions C46_bra_ket_spin_partial.

Theorem C46_bra_ket_boson_partial : forall B n mlist pers qs (S : N -> Prop) sts L pcon ts,
  (2 <= B)%N -> accepted n mlist pers -> length pers <= 32 ->
  let ms := boson_smap B n mlist in
  (forall d e s, d < length pers -> e < length pers -> (s < B ^ N.of_nat n)%N ->
     boson_map_bits B n (nth d mlist []) (boson_map_bits B n (nth e mlist []) s) = boson_map_bits B n (nth e mlist []) (boson_map_bits B n (nth d mlist []) s)) ->
  (forall s, S s -> (s < B ^ N.of_nat n)%N) -> enumerates sts S -> closed_under S (length pers) ms ->
  lists_decreasing (in_block S (length pers) pers qs ms) L -> tests_states B n pcon S ->
  let conclusion allowed op site := bra_ket_correct S sts pers qs ms L (match pcon with Some _ => true | None => false end) (N.to_nat (B ^ N.of_nat n)) (fun o => site_matrix B n (site o)) n allowed ts
    (fun real reduce kets x => Op_bra_ket real pcon pers qs ms (length pers) n allowed (fun _ => 1%R) op (fst x) (snd x) kets reduce) in
  conclusion ["I"; "n"; "+"; "-"]%char (boson_op B n) (boson_site B) /\
  conclusion ["I"; "z"; "+"; "-"]%char (higher_spin_op B n) (spinS_site B).
Proof.
  intros B n mlist pers qs S sts L pcon ts HB HA Hnt ms Hc SD HE SC HL HS conclusion.
  unfold conclusion; split; intros Hts HC real reduce kets ND Hk HJ.
  - apply (bra_ket_lattice B n pers qs ms S sts L (boson_good_maps B n mlist pers HB HA Hc) Hnt SD HE SC HL pcon HS ["I"; "n"; "+"; "-"]%char (fun _ => 1%R) (boson_op B n)
      (fun o => site_matrix B n (boson_site B o)) (fun o => site_matrix B n (boson_site B o))); try assumption;
      [intros l Hl; apply boson_op_acts; assumption|intros l r s; change (RtoC 1) with C1; ring|intros _; lra].
  - apply (bra_ket_lattice B n pers qs ms S sts L (boson_good_maps B n mlist pers HB HA Hc) Hnt SD HE SC HL pcon HS ["I"; "z"; "+"; "-"]%char (fun _ => 1%R) (higher_spin_op B n)
      (fun o => site_matrix B n (spinS_site B o)) (fun o => site_matrix B n (spinS_site B o))); try assumption;
      [intros l Hl; apply higher_spin_op_acts; assumption|intros l r s; change (RtoC 1) with C1; ring|intros _; lra].
Qed.
Print Assumptions C46_bra_ket_boson_partial.

Theorem C46_bra_ket_fermion_partial : forall bytes n mlist pers qs (S : N -> Prop) sts L pcon ts,
  (N.of_nat n <= 8 * bytes)%N -> n <= 256 -> accepted n mlist pers -> length pers <= 32 -> (forall d, d < length pers -> no_inversion (nth d mlist [])) ->
  let ms := fermion_smap n mlist in
  (forall d e s, d < length pers -> e < length pers -> (s < 2 ^ N.of_nat n)%N ->
     hcb_map_bits n (nth d mlist []) (hcb_map_bits n (nth e mlist []) s) = hcb_map_bits n (nth e mlist []) (hcb_map_bits n (nth d mlist []) s)) ->
  (forall s, S s -> (s < 2 ^ N.of_nat n)%N) -> enumerates sts S -> closed_under S (length pers) ms ->
  lists_decreasing (in_block S (length pers) pers qs ms) L -> tests_states 2 n pcon S ->
  let allowed := ["I"; "n"; "z"; "+"; "-"]%char in
  bra_ket_correct S sts pers qs ms L (match pcon with Some _ => true | None => false end) (N.to_nat (2 ^ N.of_nat n)) (fun o i => op_matrix (fermion_op bytes n [(o, i)])) n allowed ts
    (fun real reduce kets x => Op_bra_ket real pcon pers qs ms (length pers) n allowed (fun _ => 1%R) (fermion_op bytes n) (fst x) (snd x) kets reduce).
Proof.
  intros bytes n mlist pers qs S sts L pcon ts Hw Hn HA Hnt NI ms Hc SD HE SC HL HS allowed Hts HC real reduce kets ND Hk HJ.
  apply (bra_ket_lattice 2 n pers qs ms S sts L (fermion_good_maps n mlist pers HA NI Hc) Hnt SD HE SC HL pcon HS allowed (fun _ => 1%R) (fermion_op bytes n)
    (fun o i => op_matrix (fermion_op bytes n [(o, i)])) (fun o i => op_matrix (fermion_op bytes n [(o, i)]))); try assumption.
  - intros l Hl. exact (fermion_string_acts bytes n Hw Hn l Hl).
  - intros l r s. apply C_eq; cbn; ring.
  - intros _. lra.
Qed.
Print Assumptions C46_bra_ket_fermion_partial.

(* hypotheses met: the exchange S+_0 S-_1 + S+_1 S-_0 at k = 0, one particle; both calls return, and the elements add up to that of the block *)
Example C46_bra_ket_example : let ts := [(hop 0 1, C1); (hop 1 0, C1)] in
  let run reduce x := Op_bra_ket false (Some one_particle) [2] [0%Z] pair_maps 1 2 tri_kets (pauli_scale 0) (hcb_op 2) (fst x) (snd x) [2%N] reduce in
  forall reduce, exists out1 out2, run reduce (hop 0 1, C1) (Some out1) /\ run reduce (hop 1 0, C1) (Some out2) /\
  Csum [out1; out2] (fun out => Csum out (fun e => if ((snd (fst e) =? 2)%N && (snd e =? 2)%N)%bool then match fst (fst e) with CVal z => z | _ => C0 end else C0))
  = reduced [2; 1]%N [2] [0%Z] pair_maps (lattice_operator 4 P2 ts) 2%N 2%N /\ lattice_operator 4 P2 ts 1%N 2%N = C1.
Proof.
  intros ts run reduce.
  assert (MX : forall t, (t < 4)%N -> lattice_operator 4 P2 ts t 1%N = (if (t =? 2)%N then C1 else C0) /\ lattice_operator 4 P2 ts t 2%N = (if (t =? 1)%N then C1 else C0)).
  { intros t Ht. destruct (hop_matrix t Ht) as (E1 & E2 & E3 & E4). unfold lattice_operator, ts. rewrite !Csum_cons, !Csum_nil. cbn [fst snd]. rewrite E1, E2, E3, E4. split; ring. }
  assert (K : Forall (fun t => Forall (fun oi => In (fst oi) ["I"; "+"; "-"; "x"; "y"; "z"; "n"]%char /\ snd oi < 2) (fst t)) ts).
  { repeat (constructor; [repeat (constructor; [cbn; split; [tauto|lia]|]); constructor|]). constructor. }
  assert (HC : commutes_with_maps duo_S 1 pair_maps (lattice_operator 4 P2 ts)).
  { intros [|d] r s Hd Hr Hs; [|lia].
    assert (M1 : pair_maps 0 1%N = (2%N, 1%Z)) by (vm_compute; reflexivity). assert (M2 : pair_maps 0 2%N = (1%N, 1%Z)) by (vm_compute; reflexivity).
    destruct (MX 1%N ltac:(lia)) as [A1 A2]. destruct (MX 2%N ltac:(lia)) as [B1 B2]. cbn [N.eqb Pos.eqb] in A1, A2, B1, B2.
    destruct Hr as [->| ->], Hs as [->| ->]; rewrite ?M1, ?M2; cbn [fst snd]; rewrite ?A1, ?A2, ?B1, ?B2; apply C_eq; cbn; ring. }
  assert (T : tests_states 2 2 (Some one_particle) duo_S).
  { intros x Hx. unfold one_particle, duo_S. rewrite orb_true_iff, !N.eqb_eq. reflexivity. }
  destruct (C46_bra_ket_spin_partial 0 5 2 two_map [2] [0%Z] duo_S [2; 1]%N [(2%N, 1%Z)] (Some one_particle) ts ltac:(cbn; lia) pair_accepted ltac:(cbn; lia)
    ltac:(intros d e s Hd He Hs; destruct d, e; cbn in Hd, He; lia || reflexivity) duo_dom duo_enum pair_closed (pair_block 0) T K HC false reduce [2%N]
    ltac:(repeat constructor; cbn; tauto) ltac:(intros x Hx; exact Hx) ltac:(left; intros [|[|d]]; reflexivity)) as [H1 H2].
  destruct (H1 (hop 0 1, C1) ltac:(left; reflexivity)) as ((o1 & R1) & _ & _). destruct (H1 (hop 1 0, C1) ltac:(right; left; reflexivity)) as ((o2 & R2) & _ & _).
  exists o1, o2. split; [exact R1|]. split; [exact R2|]. split.
  - apply (H2 [o1; o2]); [constructor; [exact R1|]; constructor; [exact R2|constructor]|left; reflexivity|left; reflexivity].
  - destruct (MX 1%N ltac:(lia)) as [_ ->]. reflexivity.
Qed.

(* The phase of an image that is itself a representative is computed from an array the search did not write to.  Three sites, translation, k = 1, no
   particle number: S+_1 takes 100 to 110, a representative; whatever the array contains (j) decides the value returned. *)
Theorem C46_bra_ket_stale_refuted : exists z1 z2, z1 <> z2 /\ forall z, z = z1 \/ z = z2 ->
  Op_bra_ket false None [3] [1%Z] tri_maps 1 3 ["I"; "+"; "-"; "x"; "y"; "z"; "n"]%char (pauli_scale 0) (hcb_op 3) [("+"%char, 1)] C1 [4%N] true (Some [(CVal z, 6%N, 4%N)]).
Proof.
  exists C1, (cis (- (2 * PI * IZR 1 / INR 3 * INR 1))). split.
  - intros E. pose proof tri_complex as X. apply X. apply (f_equal snd) in E. cbn [cis C1 snd] in E. change (INR 1) with 1%R in E. rewrite Rmult_1_r, sin_neg in E. lra.
  - intros z [-> | ->]; [|exact (stale_run 1)]. pose proof (stale_run 0) as H. change (INR 0) with 0%R in H. rewrite Rmult_0_r, Ropp_0, cis_0 in H. exact H.
Qed.
Print Assumptions C46_bra_ket_stale_refuted.
(* With a particle number the same array multiplies the diagonal elements: the density on site 0 at k = pi is 1/1 or its negative. *)
Theorem C46_bra_ket_diagonal_refuted : forall z, z = C1 \/ z = RtoC (-1) ->
  Op_bra_ket false (Some one_particle) [2] [1%Z] pair_maps 1 2 ["I"; "+"; "-"; "x"; "y"; "z"; "n"]%char (pauli_scale 0) (hcb_op 2) [("n"%char, 0)] C1 [2%N] true (Some [(CVal z, 2%N, 2%N)]).
Proof.
  intros z [-> | ->]; [apply (diagonal_run 0)|apply (diagonal_run 1)].
  - change (INR 0) with 0%R. rewrite Rmult_0_r, Ropp_0, cis_0. reflexivity.
  - change (INR 1) with 1%R. rewrite Rmult_1_r. replace (2 * PI * IZR 1 / INR 2)%R with PI by (cbn; field). apply C_eq; cbn [cis RtoC fst snd]; [rewrite cos_neg, cos_PI; reflexivity|rewrite sin_neg, sin_PI; ring].
Qed.
Print Assumptions C46_bra_ket_diagonal_refuted.
(* With a real dtype an imaginary element is silently replaced by its real part: for S^y the call returns nothing at all. *)
Theorem C46_bra_ket_real_refuted : forall ms,
  Op_bra_ket true None [] [] ms 0 1 ["I"; "+"; "-"; "x"; "y"; "z"; "n"]%char (pauli_scale 0) (hcb_op 1) [("y"%char, 0)] C1 [1%N; 0%N] true (Some []) /\
  exists z w, hcb_op 1 [("y"%char, 0)] 1 C1 = Some (0%N, z) /\ z <> C0 /\ hcb_op 1 [("y"%char, 0)] 0 C1 = Some (1%N, w) /\ w <> C0.
Proof.
  intros ms.
  assert (E1 : hcb_op 1 [("y"%char, 0)] 1 C1 = Some (0%N, (C1 * (0, 1/2)%R)%C)).
  { unfold hcb_op. cbn [rev app op_loop hcb_local]. change (N.testbit 1 (N.of_nat (1 - 0 - 1))) with true. cbn iota. rewrite Czero_no by (right; cbn; lra). reflexivity. }
  assert (E0 : hcb_op 1 [("y"%char, 0)] 0 C1 = Some (1%N, (C1 * (0, -(1/2))%R)%C)).
  { unfold hcb_op. cbn [rev app op_loop hcb_local]. change (N.testbit 0 (N.of_nat (1 - 0 - 1))) with false. cbn iota. rewrite Czero_no by (right; cbn; lra). reflexivity. }
  assert (P : forall x : R, as_type true (C1 * (0, x)%R * g_phase [] [] 0 [] * (RtoC (IZR 1) * RtoC (sqrt (1 / 1))))%C = C0).
  { intros x. unfold g_phase. cbn [seq Rsum fold_right]. rewrite Ropp_0, cis_0. apply C_eq; cbn; ring. }
  split.
  - unfold Op_bra_ket. cbn [existsb snd fst Nat.leb orb Ascii.eqb Bool.eqb negb]. exists (Some [(CVal C0, 0%N); (CVal C0, 1%N)]). split.
    + exists [([], [1%N; 0%N])]. split; [reflexivity|]. split; [intros p [<-|[]]; reflexivity|]. cbn [map fst snd bra_ket_thread]. unfold bra_ket_step. rewrite E1, E0.
      cbn [N.eqb ref_state check_state Nat.eqb orb map]. destruct (Rle_dec 1 1); [|lra]. destruct (Req_EM_T 1 0); [lra|]. rewrite !P. reflexivity.
    + cbn [combine flat_map keep_entry fst snd andb app map]. rewrite (Czero_yes C0 eq_refl). reflexivity.
  - do 2 eexists. split; [exact E1|]. split; [intros E; apply (f_equal snd) in E; cbn in E; lra|]. split; [exact E0|]. intros E; apply (f_equal snd) in E; cbn in E; lra.
Qed.
Print Assumptions C46_bra_ket_real_refuted.
(* Spins larger than 1/2: reduce_output=False is not passed on.  Spin 1, S+ on the highest state: no element for the ket is returned. *)
Theorem C46_bra_ket_reduce_refuted : forall ms, exists out,
  spinS_Op_bra_ket false None [] [] ms 0 1 ["I"; "z"; "+"; "-"]%char (higher_spin_op 3 1) [("+"%char, 0)] C1 [2%N] false (Some out) /\ map snd out <> [2%N].
Proof.
  intros ms. exists []. split; [|discriminate]. unfold spinS_Op_bra_ket, Op_bra_ket. cbn [existsb snd fst Nat.leb orb Ascii.eqb Bool.eqb negb].
  assert (E : higher_spin_op 3 1 [("+"%char, 0)] 2 C1 = Some (2%N, C0)).
  { unfold higher_spin_op, diag_op. cbn [rev app diag_loop higher_spin_local]. change ((2 / 3 ^ N.of_nat (1 - 0 - 1)) mod 3)%N with 2%N. change ((2 + 1) * (3 - 2 - 1))%N with 0%N.
    change (Nr 0) with 0%R. unfold Rzero. destruct (Req_EM_T (1 * 0) 0) as [_|X]; [|exfalso; apply X; ring]. rewrite orb_true_r. do 2 f_equal. rewrite Rmult_0_r, sqrt_0. apply C_eq; cbn; ring. }
  exists (Some [(CVal C0, 2%N)]). split.
  - exists [([], [2%N])]. split; [reflexivity|]. split; [intros p [<-|[]]; reflexivity|]. cbn [map fst snd bra_ket_thread]. unfold bra_ket_step. rewrite E. cbn [N.eqb Pos.eqb as_type]. reflexivity.
  - cbn [combine flat_map keep_entry fst snd andb app map]. rewrite (Czero_yes C0 eq_refl). reflexivity.
Qed.
Print Assumptions C46_bra_ket_reduce_refuted.
