(* C18: get_proj returns the isometry from the symmetry block into the full space or the particle number sector. *)
From Verif Require Import AuxN SpecC SpecMaps SpecSymm SpecBasis SpecIndex SpecFermi SpecProj M_benes M_maps M_symm M_fmap M_proj P_fmap3 P_symminst P_symopinst P_projinst P_projex.
Local Open Scope nat_scope.

(* M: number of states of the full space; S: particle sector, listed by sts; L: the basis with its norms (C10); bp: rows of the
   result, None = all states, Some = states of the sector (pcon=True).  Complex types always succeed, real types when the
   characters are real; the arrays of the basis are the same afterwards. *)
Theorem C18_projector : forall M pers qs ms (S : N -> Prop) sts L bp real,
  let nt := length pers in
  good_maps (fun s => (s < N.of_nat M)%N) nt pers ms ->
  (forall s, S s -> (s < N.of_nat M)%N) -> enumerates sts S -> closed_under S nt ms ->
  lists_decreasing (in_block S nt pers qs ms) L -> rows_are M S bp ->
  real = false \/ real_characters pers qs ->
  let Ns := match bp with None => M | Some b => length b end in
  exists P, get_proj real M bp pers qs ms nt L = ((map fst L, true), P) /\
    (* column k is the symmetrised state of the k-th basis state *)
    (forall k r, k < length L -> r < Ns -> P k (Z.of_nat r) = symm_state pers qs ms (fst (nth k L (0%N, 0%Z))) (row_state M bp r)) /\
    (* which lies in the block *)
    (forall k, k < length L -> block_vector M S bp Ns nt pers qs ms (fun r => P k (Z.of_nat r))) /\
    (* P^dagger P = 1 *)
    (forall j k, j < length L -> k < length L -> Csum (seq 0 Ns) (fun r => Cconj (P j (Z.of_nat r)) * P k (Z.of_nat r))%C = if j =? k then C1 else C0) /\
    (* P P^dagger = 1 on the block *)
    (forall psi r, block_vector M S bp Ns nt pers qs ms psi -> r < Ns ->
       Csum (seq 0 (length L)) (fun k => P k (Z.of_nat r) * Csum (seq 0 Ns) (fun r' => Cconj (P k (Z.of_nat r')) * psi r'))%C = psi r).
Proof.
  intros M pers qs ms S sts L bp real nt HG SD HE SC HL HB HR Ns.
  destruct (proj_ok M pers qs ms S L bp HG SD SC HL HB sts HE real HR) as [H1 H2]. cbv zeta in H1, H2.
  exists (snd (get_proj real M bp pers qs ms nt L)). rewrite <- H1. split; [apply surjective_pairing|]. split; [exact H2|]. split; [|split].
  - intros k Hk. destruct (column_block M pers qs ms S L bp HG SD SC HL sts HE k Hk) as (f & F1 & F2 & F3). exists f. split; [exact F1|]. split; [exact F2|]. intros r Hr. fold nt in H2 |- *. rewrite (H2 k r Hk Hr). apply F3, Hr.
  - intros j k Hj Hk. rewrite <- (isometry M pers qs ms S L bp HG SD SC HL HB sts HE j k Hj Hk). apply Csum_ext. intros r Hr. apply in_seq in Hr. unfold nt. rewrite !H2 by (assumption || (fold Ns; lia)). reflexivity.
  - intros psi r Hp Hr. rewrite <- (resolution M pers qs ms S L bp HG SD SC HL HB sts HE psi r Hp Hr). apply Csum_ext. intros k Hk. apply in_seq in Hk. unfold nt. rewrite H2 by (assumption || (fold Ns; lia)). f_equal.
    apply Csum_ext. intros r' Hr'. apply in_seq in Hr'. rewrite H2 by (assumption || (fold Ns; lia)). reflexivity.
Qed.
Print Assumptions C18_projector.

(* a real type for a block with complex characters: TypeError, and the basis is not modified *)
Theorem C18_real_type_refused : forall M pers qs ms L bp d,
  let nt := length pers in
  good_maps (fun s => (s < N.of_nat M)%N) nt pers ms -> L <> [] ->
  d < nt -> (11 / 10 ^ 16 < Rabs (sin (2 * PI * IZR (nth d qs 0%Z) / INR (nth d pers 0%nat))))%R ->
  fst (get_proj true M bp pers qs ms nt L) = (map fst L, false).
Proof. intros M pers qs ms L bp d nt HG Hne Hd Hs. exact (proj_refused M pers qs ms L bp HG d Hd Hs Hne). Qed.
Print Assumptions C18_real_type_refused.

(* the maps accepted for spins and bosons are as required, when they commute *)
Theorem C18_spin_boson_maps : forall mlist pers n,
  accepted n mlist pers ->
  (forall ld, (n <= 2 ^ ld)%nat ->
    (forall d e s, d < length pers -> e < length pers -> (s < 2 ^ N.of_nat n)%N ->
     hcb_map_bits n (nth d mlist []) (hcb_map_bits n (nth e mlist []) s) = hcb_map_bits n (nth e mlist []) (hcb_map_bits n (nth d mlist []) s)) ->
    good_maps (fun s => (s < N.of_nat (N.to_nat (2 ^ N.of_nat n)))%N) (length pers) pers (hcb_smap ld n mlist)) /\
  (forall B, (2 <= B)%N ->
    (forall d e s, d < length pers -> e < length pers -> (s < B ^ N.of_nat n)%N ->
     boson_map_bits B n (nth d mlist []) (boson_map_bits B n (nth e mlist []) s) = boson_map_bits B n (nth e mlist []) (boson_map_bits B n (nth d mlist []) s)) ->
    good_maps (fun s => (s < N.of_nat (N.to_nat (B ^ N.of_nat n)))%N) (length pers) pers (boson_smap B n mlist)).
Proof.
  intros mlist pers n HA. split.
  - intros ld Hn Hc. eapply good_maps_ext; [|exact (hcb_good_maps ld n mlist pers Hn HA Hc)]. intros s. cbv beta. rewrite N2Nat.id. reflexivity.
  - intros B HB Hc. eapply good_maps_ext; [|exact (boson_good_maps B n mlist pers HB HA Hc)]. intros s. cbv beta. rewrite N2Nat.id. reflexivity.
Qed.
Print Assumptions C18_spin_boson_maps.
Theorem C18_fermion_maps : forall n mlist pers, accepted n mlist pers -> (forall d, d < length pers -> no_inversion (nth d mlist [])) ->
  (forall d e s, d < length pers -> e < length pers -> (s < 2 ^ N.of_nat n)%N ->
     hcb_map_bits n (nth d mlist []) (hcb_map_bits n (nth e mlist []) s) = hcb_map_bits n (nth e mlist []) (hcb_map_bits n (nth d mlist []) s)) ->
  good_maps (fun s => (s < N.of_nat (N.to_nat (2 ^ N.of_nat n)))%N) (length pers) pers (fermion_smap n mlist).
Proof. intros n mlist pers HA NI Hc. eapply good_maps_ext; [|exact (fermion_good_maps n mlist pers HA NI Hc)]. intros s. cbv beta. rewrite N2Nat.id. reflexivity. Qed.
Print Assumptions C18_fermion_maps.

(* hypotheses met: three sites, one particle, momentum 1, full space and pcon=True; momentum 0 with a real type *)
Example C18_example : let P bp := snd (get_proj false 8 bp [3] [1%Z] tri_maps 1 [(4%N, 1%Z)]) in
  Csum (seq 0 8) (fun r => Cconj (P None 0 (Z.of_nat r)) * P None 0 (Z.of_nat r))%C = C1 /\
  Csum (seq 0 3) (fun r => Cconj (P (Some [4; 2; 1]%N) 0 (Z.of_nat r)) * P (Some [4; 2; 1]%N) 0 (Z.of_nat r))%C = C1 /\
  snd (fst (get_proj true 8 None [3] [0%Z] tri_maps 1 [(4%N, 1%Z)])) = true.
Proof.
  cbv zeta. split; [|split].
  - destruct (C18_projector 8 [3] [1%Z] tri_maps tri_S [4; 2; 1]%N [(4%N, 1%Z)] None false tri_good tri_dom tri_enum tri_closed (tri_block 1) I (or_introl eq_refl)) as (P & E & _ & _ & H & _).
    cbn [length] in E. rewrite E. exact (H 0 0 ltac:(cbn; lia) ltac:(cbn; lia)).
  - destruct (C18_projector 8 [3] [1%Z] tri_maps tri_S [4; 2; 1]%N [(4%N, 1%Z)] (Some [4; 2; 1]%N) false tri_good tri_dom tri_enum tri_closed (tri_block 1) tri_rows (or_introl eq_refl)) as (P & E & _ & _ & H & _).
    cbn [length] in E. rewrite E. exact (H 0 0 ltac:(cbn; lia) ltac:(cbn; lia)).
  - destruct (C18_projector 8 [3] [0%Z] tri_maps tri_S [4; 2; 1]%N [(4%N, 1%Z)] None true tri_good tri_dom tri_enum tri_closed (tri_block 0) I (or_intror tri_real)) as (P & E & _).
    cbn [length] in E. rewrite E. reflexivity.
Qed.
