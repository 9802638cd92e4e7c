(* C19: project_from and project_to are multiplication with the projector and with its adjoint. *)
From Verif Require Import AuxN SpecC SpecSymm SpecBasis SpecIndex SpecProj M_symm M_proj P_symm P_proj P_symop P_projop P_projinst P_projex.
Local Open Scope nat_scope.

(* setting as in C18; order: any order in which the parallel loop treats the basis states *)
(* project_from: sparse or dense output, full space or sector *)
Theorem C19_project_from : forall M pers qs ms (S : N -> Prop) sts L bp real sparse order v,
  let nt := length pers in
  good_maps (fun s => (s < N.of_nat M)%N) nt pers ms ->
  (forall s, S s -> (s < N.of_nat M)%N) -> enumerates sts S -> closed_under S nt ms ->
  lists_decreasing (in_block S nt pers qs ms) L -> rows_are M S bp ->
  real = false \/ real_characters pers qs -> Permutation order (seq 0 (length L)) ->
  let Ns := match bp with None => M | Some b => length b end in
  exists out, project_from real sparse order M bp pers qs ms nt L v = Some out /\
    forall r, r < Ns -> out r = Csum (seq 0 (length L)) (fun k => symm_state pers qs ms (fst (nth k L (0%N, 0%Z))) (row_state M bp r) * v k)%C.
Proof. intros M pers qs ms S sts L bp real sparse order v nt HG SD HE SC HL HB HR HO Ns. exact (from_ok M pers qs ms S L bp HG SD SC HL HB sts HE real sparse order v HR HO). Qed.
Print Assumptions C19_project_from.

(* project_to is the adjoint for dense output in the full space; with real characters also for sparse output, and for
   dense output in the sector (pcon=True) with at most one map.  Missing: the other cases, refuted below. *)
Theorem C19_project_to_partial : forall M pers qs ms (S : N -> Prop) sts L bp real sparse order psi,
  let nt := length pers in
  good_maps (fun s => (s < N.of_nat M)%N) nt pers ms ->
  (forall s, S s -> (s < N.of_nat M)%N) -> enumerates sts S -> closed_under S nt ms ->
  lists_decreasing (in_block S nt pers qs ms) L -> rows_are M S bp ->
  real = false \/ real_characters pers qs -> Permutation order (seq 0 (length L)) ->
  (sparse = false /\ bp = None) \/ (sparse = true /\ real_characters pers qs) \/ (sparse = false /\ nt <= 1 /\ real_characters pers qs) ->
  let Ns := match bp with None => M | Some b => length b end in
  exists out, project_to real sparse order M bp pers qs ms nt L psi = Some out /\
    forall k, k < length L -> out k = Csum (seq 0 Ns) (fun r => Cconj (symm_state pers qs ms (fst (nth k L (0%N, 0%Z))) (row_state M bp r)) * psi r)%C.
Proof.
  intros M pers qs ms S sts L bp real sparse order psi nt HG SD HE SC HL HB HR HO HC Ns.
  assert (RC : real_characters pers qs -> forall s t, Cconj (symm_state pers qs ms s t) = symm_state pers qs ms s t).
  { intros H s t. rewrite <- (V_real _ nt pers ms qs HG s t H true). cbn [as_type]. apply C_eq; cbn; ring. }
  destruct HC as [[-> ->]|[[-> H]|[-> [Hn H]]]].
  - destruct (to_dense_rows M pers qs ms S L None HG SD SC HL HB sts HE true real order psi _ HR HO eq_refl) as (out & E & Ho).
    unfold project_to. change (project_to_rep real (row_index M None) pers qs ms nt) with (to_walk real (row_index M None) pers qs ms nt 1). unfold nt. rewrite E. eexists. split; [reflexivity|]. exact Ho.
  - destruct (to_sparse_ok M pers qs ms S L bp HG SD SC HL HB sts HE real order psi HR) as (out & E & Ho). exists out. split; [exact E|]. intros k Hk. rewrite (Ho k Hk). apply Csum_ext. intros r _. rewrite RC by exact H. reflexivity.
  - destruct bp as [b|].
    + destruct (to_dense_rows M pers qs ms S L (Some b) HG SD SC HL HB sts HE false real order psi (project_to_rep_basis real (row_index M (Some b)) pers qs ms nt (fun r => psi (Z.to_nat r))) HR HO) as (out & E & Ho).
      { unfold project_to_rep_basis. apply Nat.leb_le in Hn. rewrite Hn. reflexivity. }
      unfold project_to. rewrite E. eexists. split; [reflexivity|]. intros k Hk. cbv beta. rewrite (Ho k Hk). apply Csum_ext. intros r _. rewrite RC by exact H. reflexivity.
    + destruct (to_dense_rows M pers qs ms S L None HG SD SC HL HB sts HE true real order psi _ HR HO eq_refl) as (out & E & Ho).
      unfold project_to. change (project_to_rep real (row_index M None) pers qs ms nt) with (to_walk real (row_index M None) pers qs ms nt 1). unfold nt. rewrite E. eexists. split; [reflexivity|]. exact Ho.
Qed.
Print Assumptions C19_project_to_partial.

(* the two are inverse to each other between the reduced space and the block, in the same cases *)
Theorem C19_round_trip_partial : forall M pers qs ms (S : N -> Prop) sts L bp real sf st_ o1 o2,
  let nt := length pers in
  good_maps (fun s => (s < N.of_nat M)%N) nt pers ms ->
  (forall s, S s -> (s < N.of_nat M)%N) -> enumerates sts S -> closed_under S nt ms ->
  lists_decreasing (in_block S nt pers qs ms) L -> rows_are M S bp ->
  real = false \/ real_characters pers qs -> Permutation o1 (seq 0 (length L)) -> Permutation o2 (seq 0 (length L)) ->
  (st_ = false /\ bp = None) \/ (st_ = true /\ real_characters pers qs) \/ (st_ = false /\ nt <= 1 /\ real_characters pers qs) ->
  let Ns := match bp with None => M | Some b => length b end in
  let from := project_from real sf o1 M bp pers qs ms nt L in
  let to := project_to real st_ o2 M bp pers qs ms nt L in
  (forall v, exists w u, from v = Some w /\ to w = Some u /\ forall k, k < length L -> u k = v k) /\
  (forall psi, block_vector M S bp Ns nt pers qs ms psi -> exists u w, to psi = Some u /\ from u = Some w /\ forall r, r < Ns -> w r = psi r).
Proof.
  intros M pers qs ms S sts L bp real sf st_ o1 o2 nt HG SD HE SC HL HB HR H1 H2 HC Ns from to. split.
  - intros v. destruct (C19_project_from M pers qs ms S sts L bp real sf o1 v HG SD HE SC HL HB HR H1) as (w & Ew & Hw).
    destruct (C19_project_to_partial M pers qs ms S sts L bp real st_ o2 w HG SD HE SC HL HB HR H2 HC) as (u & Eu & Hu).
    exists w, u. split; [exact Ew|]. split; [exact Eu|]. intros k Hk. rewrite (Hu k Hk). fold Ns.
    transitivity (Csum (seq 0 (length L)) (fun j => (if k =? j then C1 else C0) * v j)%C).
    + transitivity (Csum (seq 0 (length L)) (fun j => Csum (seq 0 Ns) (fun r => Cconj (symm_state pers qs ms (fst (nth k L (0%N, 0%Z))) (row_state M bp r)) * symm_state pers qs ms (fst (nth j L (0%N, 0%Z))) (row_state M bp r)) * v j))%C.
      * transitivity (Csum (seq 0 (length L)) (fun j => Csum (seq 0 Ns) (fun r => Cconj (symm_state pers qs ms (fst (nth k L (0%N, 0%Z))) (row_state M bp r)) * symm_state pers qs ms (fst (nth j L (0%N, 0%Z))) (row_state M bp r) * v j)))%C.
        -- rewrite Csum_swap. apply Csum_ext. intros r Hr. apply in_seq in Hr. rewrite Hw by (fold Ns; lia). rewrite <- Csum_mul_l. apply Csum_ext. intros j _. ring.
        -- apply Csum_ext. intros j _. rewrite Csum_mul_r. reflexivity.
      * apply Csum_ext. intros j Hj. apply in_seq in Hj. f_equal. apply (isometry M pers qs ms S L bp HG SD SC HL HB sts HE k j Hk). lia.
    + rewrite (Csum_single (seq 0 (length L)) _ k (seq_NoDup _ _)).
      * rewrite Nat.eqb_refl. ring.
      * apply in_seq. lia.
      * intros j _ Hj. destruct (Nat.eqb_spec k j); [congruence|ring].
  - intros psi Hp. destruct (C19_project_to_partial M pers qs ms S sts L bp real st_ o2 psi HG SD HE SC HL HB HR H2 HC) as (u & Eu & Hu).
    destruct (C19_project_from M pers qs ms S sts L bp real sf o1 u HG SD HE SC HL HB HR H1) as (w & Ew & Hw).
    exists u, w. split; [exact Eu|]. split; [exact Ew|]. intros r Hr. rewrite (Hw r Hr). rewrite <- (resolution M pers qs ms S L bp HG SD SC HL HB sts HE psi r Hp Hr).
    apply Csum_ext. intros k Hk. apply in_seq in Hk. rewrite Hu by lia. reflexivity.
Qed.
Print Assumptions C19_round_trip_partial.

(* The default, sparse output: in every block with a complex character project_to sends all vectors of the block to zero, because
   it multiplies with the transpose of the projector (base_general.py:561). *)
Theorem C19_sparse_project_to_zero : forall M pers qs ms (S : N -> Prop) sts L bp sf o1 o2 v d,
  let nt := length pers in
  good_maps (fun s => (s < N.of_nat M)%N) nt pers ms ->
  (forall s, S s -> (s < N.of_nat M)%N) -> enumerates sts S -> closed_under S nt ms ->
  lists_decreasing (in_block S nt pers qs ms) L -> rows_are M S bp -> Permutation o1 (seq 0 (length L)) ->
  d < nt -> sin (2 * PI * IZR (nth d qs 0%Z) / INR (nth d pers 0%nat)) <> 0%R ->
  exists w u, project_from false sf o1 M bp pers qs ms nt L v = Some w /\ project_to false true o2 M bp pers qs ms nt L w = Some u /\
    forall k, k < length L -> u k = C0.
Proof.
  intros M pers qs ms S sts L bp sf o1 o2 v d nt HG SD HE SC HL HB H1 Hd Hs.
  destruct (C19_project_from M pers qs ms S sts L bp false sf o1 v HG SD HE SC HL HB (or_introl eq_refl) H1) as (w & Ew & Hw).
  destruct (to_sparse_ok M pers qs ms S L bp HG SD SC HL HB sts HE false o2 w (or_introl eq_refl)) as (u & Eu & Hu).
  exists w, u. split; [exact Ew|]. split; [exact Eu|]. intros k Hk. rewrite (Hu k Hk).
  transitivity (Csum (seq 0 (length L)) (fun j => Csum (seq 0 (row_count M bp)) (fun r => symm_state pers qs ms (fst (nth k L (0%N, 0%Z))) (row_state M bp r) * symm_state pers qs ms (fst (nth j L (0%N, 0%Z))) (row_state M bp r)) * v j))%C.
  - transitivity (Csum (seq 0 (length L)) (fun j => Csum (seq 0 (row_count M bp)) (fun r => symm_state pers qs ms (fst (nth k L (0%N, 0%Z))) (row_state M bp r) * symm_state pers qs ms (fst (nth j L (0%N, 0%Z))) (row_state M bp r) * v j)))%C.
    + rewrite Csum_swap. apply Csum_ext. intros r Hr. apply in_seq in Hr. rewrite Hw by (unfold row_count in Hr; lia). rewrite <- Csum_mul_l. apply Csum_ext. intros j _. ring.
    + apply Csum_ext. intros j _. rewrite Csum_mul_r. reflexivity.
  - apply Csum_zero. intros j Hj. apply in_seq in Hj. rewrite (transposed_zero M pers qs ms S L bp HG SD SC HL HB sts HE d k j Hd Hs Hk ltac:(lia)). ring.
Qed.
Print Assumptions C19_sparse_project_to_zero.

(* so the round trip fails: three sites, one particle, momentum 1, with the default arguments *)
Theorem C19_round_trip_default_refuted : exists v w u,
  project_from false true [0] 8 None [3] [1%Z] tri_maps 1 [(4%N, 1%Z)] v = Some w /\
  project_to false true [0] 8 None [3] [1%Z] tri_maps 1 [(4%N, 1%Z)] w = Some u /\ v 0 = C1 /\ u 0 = C0.
Proof.
  destruct (C19_sparse_project_to_zero 8 [3] [1%Z] tri_maps tri_S [4; 2; 1]%N [(4%N, 1%Z)] None true [0] [0] (fun _ => C1) 0
    tri_good tri_dom tri_enum tri_closed (tri_block 1) I (Permutation_refl _) ltac:(cbn; lia) tri_complex) as (w & u & E1 & E2 & H).
  exists (fun _ => C1), w, u. split; [exact E1|]. split; [exact E2|]. split; [reflexivity|]. apply H. cbn; lia.
Qed.
Print Assumptions C19_round_trip_default_refuted.

(* dense output with pcon=True and a complex character: the same *)
Theorem C19_pcon_dense_complex_refuted : exists v w u,
  project_from false false [0] 8 (Some [4; 2; 1]%N) [3] [1%Z] tri_maps 1 [(4%N, 1%Z)] v = Some w /\
  project_to false false [0] 8 (Some [4; 2; 1]%N) [3] [1%Z] tri_maps 1 [(4%N, 1%Z)] w = Some u /\ v 0 = C1 /\ u 0 = C0.
Proof.
  set (v := fun _ : nat => C1). set (bp := Some [4; 2; 1]%N).
  destruct (C19_project_from 8 [3] [1%Z] tri_maps tri_S [4; 2; 1]%N [(4%N, 1%Z)] bp false false [0] v tri_good tri_dom tri_enum tri_closed (tri_block 1) tri_rows (or_introl eq_refl) (Permutation_refl _)) as (w & Ew & Hw).
  destruct (to_dense_rows 8 [3] [1%Z] tri_maps tri_S [(4%N, 1%Z)] bp tri_good tri_dom tri_closed (tri_block 1) tri_rows [4; 2; 1]%N tri_enum false false [0] w
    (project_to_rep_basis false (row_index 8 bp) [3] [1%Z] tri_maps 1 (fun r => w (Z.to_nat r))) (or_introl eq_refl) (Permutation_refl _) eq_refl) as (out & Eo & Ho).
  exists v, w, (fun k => out (Z.of_nat k)). split; [exact Ew|]. split; [unfold project_to; cbn [bp]; fold bp; rewrite Eo; reflexivity|]. split; [reflexivity|]. cbv beta. rewrite (Ho 0) by (cbn; lia).
  rewrite <- (transposed_zero 8 [3] [1%Z] tri_maps tri_S [(4%N, 1%Z)] bp tri_good tri_dom tri_closed (tri_block 1) tri_rows [4; 2; 1]%N tri_enum 0 0 0 ltac:(cbn; lia) tri_complex ltac:(cbn; lia) ltac:(cbn; lia)).
  apply Csum_ext. intros r Hr. apply in_seq in Hr. assert (Hr3 : r < 3) by (destruct Hr as [_ Hr]; exact Hr). clear Hr. rewrite (Hw r Hr3). cbn [length seq]. rewrite Csum_cons, Csum_nil. unfold v. ring.
Qed.
Print Assumptions C19_pcon_dense_complex_refuted.

(* dense output with pcon=True and two or more maps: only the first component of the input is ever read *)
Theorem C19_pcon_dense_reads_first : forall M pers qs ms (S : N -> Prop) L b real order psi,
  let nt := length pers in
  good_maps (fun s => (s < N.of_nat M)%N) nt pers ms -> (forall s, S s -> (s < N.of_nat M)%N) ->
  lists_decreasing (in_block S nt pers qs ms) L ->
  real = false \/ real_characters pers qs -> Permutation order (seq 0 (length L)) -> 2 <= nt -> psi 0 = C0 ->
  exists u, project_to real false order M (Some b) pers qs ms nt L psi = Some u /\ forall k, u k = C0.
Proof.
  intros M pers qs ms S L b real order psi nt HG SD HL HR HO Hnt H0.
  apply (pcon_dense_first M pers qs ms S L (Some b) HG SD HL real order psi I Hnt HR); [|exact H0].
  exact (proj1 (order_facts L order HO)).
Qed.
Print Assumptions C19_pcon_dense_reads_first.

(* two sites, exchange and inversion, one particle, both even: (0, 1) has overlap 1/sqrt 2 with the state of the block *)
Theorem C19_pcon_dense_refuted : exists psi u,
  project_to true false [0] 4 (Some [2; 1]%N) [2; 2] [0; 0]%Z duo_maps 2 [(2%N, 2%Z)] psi = Some u /\ u 0 = C0 /\
  Csum (seq 0 2) (fun r => Cconj (symm_state [2; 2] [0; 0]%Z duo_maps 2 (row_state 4 (Some [2; 1]%N) r)) * psi r)%C = RtoC (2 * / sqrt (2 * 4)).
Proof.
  set (psi := fun r : nat => if r =? 1 then C1 else C0).
  destruct (C19_pcon_dense_reads_first 4 [2; 2] [0; 0]%Z duo_maps duo_S [(2%N, 2%Z)] [2; 1]%N true [0] psi duo_good duo_dom duo_block (or_intror duo_real) (Permutation_refl _) ltac:(cbn; lia) eq_refl) as (u & Eu & Hu).
  exists psi, u. split; [exact Eu|]. split; [apply Hu|]. cbn [seq]. rewrite !Csum_cons, Csum_nil. unfold psi. cbn [Nat.eqb row_state nth].
  replace (symm_state [2; 2] [0; 0]%Z duo_maps 2 1) with (RtoC (2 * / sqrt (2 * 4))); [rewrite Cconj_RtoC; ring|].
  unfold symm_state. replace (group [2; 2]) with [[0; 0]; [0; 1]; [1; 0]; [1; 1]] by reflexivity. rewrite !Csum_cons, Csum_nil, !duo_theta, cis_0.
  replace (gact duo_maps [0; 0] 2) with (2%N, 1%Z) by (vm_compute; reflexivity). replace (gact duo_maps [0; 1] 2) with (1%N, 1%Z) by (vm_compute; reflexivity).
  replace (gact duo_maps [1; 0] 2) with (1%N, 1%Z) by (vm_compute; reflexivity). replace (gact duo_maps [1; 1] 2) with (2%N, 1%Z) by (vm_compute; reflexivity).
  replace (stabilisers [2; 2] duo_maps 2) with 2 by (vm_compute; reflexivity). replace (group_order [2; 2]) with 4 by reflexivity. cbn [fst snd N.eqb Pos.eqb].
  replace (INR 2 * INR 4)%R with (2 * 4)%R by (cbn; ring). apply C_eq; cbn; ring.
Qed.
Print Assumptions C19_pcon_dense_refuted.

(* hypotheses met: the round trip with dense output for momentum 1 *)
Example C19_example : exists w u,
  project_from false true [0] 8 None [3] [1%Z] tri_maps 1 [(4%N, 1%Z)] (fun _ => C1) = Some w /\
  project_to false false [0] 8 None [3] [1%Z] tri_maps 1 [(4%N, 1%Z)] w = Some u /\ u 0 = C1.
Proof.
  destruct (C19_round_trip_partial 8 [3] [1%Z] tri_maps tri_S [4; 2; 1]%N [(4%N, 1%Z)] None false true false [0] [0] tri_good tri_dom tri_enum tri_closed (tri_block 1) I
    (or_introl eq_refl) (Permutation_refl _) (Permutation_refl _) (or_introl (conj eq_refl eq_refl))) as [H _].
  destruct (H (fun _ => C1)) as (w & u & H1 & H2 & H3). exists w, u. split; [exact H1|]. split; [exact H2|]. apply H3. cbn; lia.
Qed.
