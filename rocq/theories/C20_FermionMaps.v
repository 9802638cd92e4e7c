(* C20: symmetry maps of the fermion bases.  map_matrix f is the matrix of the signed map f; orbital j goes to
   target (nth j m) and its occupation is inverted where flips (nth j m). *)
From Verif Require Import AuxN SpecC SpecBits SpecDigits SpecMaps SpecSymm SpecOps SpecInv SpecFermi SpecProj M_maps M_symm M_fmap M_ops M_opstr P_maps P_fermion P_fmap P_fmap2 P_fmap3 P_fmap4 P_fmap5.
From Coq Require Import Permutation.
Local Open Scope nat_scope.
Local Open Scope char_scope.

(* the image moves every occupation; the sign counts the pairs of particles that are reordered, and the particles removed from odd orbitals *)
Theorem C20_sign : forall n m s, signed_perm n m ->
  moved 2 n m s (fst (fermion_map_bits n m s)) /\
  snd (fermion_map_bits n m s) = neg_one_pow (crossings n m s + odd_inverted n m s).
Proof. intros n m s Hm. split; [rewrite fermion_map_eq; apply hcb_map_bits_moved, Hm|apply fermion_map_sign]. Qed.
Print Assumptions C20_sign.
Theorem C20_sign_permutation : forall n m s, signed_perm n m -> no_inversion m -> snd (fermion_map_bits n m s) = neg_one_pow (crossings n m s).
Proof.
  intros n m s Hm NI. rewrite fermion_map_sign. f_equal. replace (odd_inverted n m s) with 0; [lia|]. unfold odd_inverted. induction (seq 0 n) as [|k l IH]; [reflexivity|].
  cbn [filter]. rewrite (fl_no m NI k). exact IH.
Qed.
Print Assumptions C20_sign_permutation.

Theorem C20_unitary : forall n m, signed_perm n m ->
  let M := N.to_nat (2 ^ N.of_nat n) in let U := map_matrix (fermion_map_bits n m) in
  meq M (mmul M (madj U) U) mident /\ meq M (mmul M U (madj U)) mident.
Proof. intros n m Hm. split; [apply UM_unitary, Hm|apply UM_unitary', Hm]. Qed.
Print Assumptions C20_unitary.

(* U c_i U^-1 = c_m(i) and the vacuum is kept *)
Theorem C20_transforms : forall bytes n m, (N.of_nat n <= 8 * bytes)%N -> n <= 256 -> signed_perm n m -> no_inversion m ->
  let M := N.to_nat (2 ^ N.of_nat n) in let U := map_matrix (fermion_map_bits n m) in
  let c o i := op_matrix (fermion_op bytes n [(o, i)]) in
  fermion_map_bits n m 0 = (0%N, 1%Z) /\
  forall o i, In o ["I"; "n"; "z"; "+"; "-"] -> i < n -> meq M (mmul M U (c o i)) (mmul M (c o (target (nth i m 0%Z))) U).
Proof.
  intros bytes n m Hw Hn Hm NI. cbv zeta. split; [|intros o i Ho Hi; exact (law_letter bytes n m Hw Hn Hm NI o i Ho Hi)].
  destruct (W_zero n [m] (fun d => d = 0) ltac:(intros d ->; split; assumption) [0] ltac:(repeat constructor)) as [E1 E2]. cbn [Wst Wsg nth] in E1, E2.
  rewrite fermion_map_eq, E1. rewrite xorb_false_r in E2. rewrite E2. reflexivity.
Qed.
Print Assumptions C20_transforms.

(* maps with inversions *)
Theorem C20_transforms_inversions : forall bytes n m i, (N.of_nat n <= 8 * bytes)%N -> n <= 256 -> signed_perm n m -> i < n ->
  let M := N.to_nat (2 ^ N.of_nat n) in let U := map_matrix (fermion_map_bits n m) in
  let c o i := op_matrix (fermion_op bytes n [(o, i)]) in
  let inv := flips (nth i m 0%Z) in let j := target (nth i m 0%Z) in
  let sign := RtoC (IZR (neg_one_pow ((if inv then i else 0) + filled_behind n m i))) in
  meq M (mmul M U (c "+" i)) (mscale sign (mmul M (c (if inv then "-" else "+") j) U)) /\
  meq M (mmul M U (c "-" i)) (mscale sign (mmul M (c (if inv then "+" else "-") j) U)) /\
  meq M (mmul M U (c "z" i)) (mscale (if inv then RtoC (-1) else C1) (mmul M (c "z" j) U)).
Proof.
  intros bytes n m i Hw Hn Hm Hi. cbv zeta. rewrite <- eta_spec.
  split; [|split]; [exact (law_pm bytes n m Hw Hn Hm "+" i ltac:(tauto) Hi)|exact (law_pm bytes n m Hw Hn Hm "-" i ltac:(tauto) Hi)|exact (law_z bytes n m Hw Hn Hm i Hi)].
Qed.
Print Assumptions C20_transforms_inversions.

(* composition: if orbital i goes to m2(m1(i)) under m12 then so do states, and the signs multiply *)
Theorem C20_composition : forall n m1 m2 m12,
  signed_perm n m1 -> signed_perm n m2 -> signed_perm n m12 -> no_inversion m1 -> no_inversion m2 -> no_inversion m12 ->
  (forall i, i < n -> target (nth i m12 0%Z) = target (nth (target (nth i m1 0%Z)) m2 0%Z)) ->
  forall s, (s < 2 ^ N.of_nat n)%N ->
    let '(t, a) := fermion_map_bits n m1 s in let '(u, b) := fermion_map_bits n m2 t in fermion_map_bits n m12 s = (u, (a * b)%Z).
Proof.
  intros n m1 m2 m12 H1 H2 H3 N1 N2 N3 E s Hs.
  assert (HP : forall d, d < 3 -> signed_perm n (nth d [m1; m2; m12] []) /\ no_inversion (nth d [m1; m2; m12] [])) by (intros [|[|[|d]]] Hd; [split; assumption|split; assumption|split; assumption|lia]).
  assert (D1 : Forall (fun d => d < 3) [0; 1]) by (repeat constructor; lia). assert (D2 : Forall (fun d => d < 3) [2]) by (repeat constructor; lia).
  destruct (words_orbitals n [m1; m2; m12] (fun d => d < 3) HP [0; 1] [2] D1 D2) with (s := s) as [W1 W2]; [|exact Hs|].
  - intros i Hi. cbn [Wtg nth]. symmetry. apply E, Hi.
  - cbn [Wst Wsg nth] in W1, W2. rewrite !fermion_map_eq. rewrite W1. f_equal. rewrite !xorb_false_r in W2. rewrite <- W2.
    destruct (sgnb n m1 s), (sgnb n m2 (hcb_map_bits n m1 s)); reflexivity.
Qed.
Print Assumptions C20_composition.

(* the maps of a basis generate an abelian group of signed maps with the periods computed by the constructor *)
Theorem C20_group : forall n mlist pers, accepted n mlist pers -> (forall d, d < length pers -> no_inversion (nth d mlist [])) ->
  (forall d e s, d < length pers -> e < length pers -> (s < 2 ^ N.of_nat n)%N ->
     hcb_map_bits n (nth d mlist []) (hcb_map_bits n (nth e mlist []) s) = hcb_map_bits n (nth e mlist []) (hcb_map_bits n (nth d mlist []) s)) ->
  good_maps (fun s => (s < 2 ^ N.of_nat n)%N) (length pers) pers (fermion_smap n mlist).
Proof. exact fermion_good_maps. Qed.
Print Assumptions C20_group.

(* the inversion of all orbitals is c_j^+ -> (-1)^(n-1) c_j *)
Theorem C20_full_inversion : forall bytes n i, (N.of_nat n <= 8 * bytes)%N -> n <= 256 -> i < n ->
  let M := N.to_nat (2 ^ N.of_nat n) in
  let U := map_matrix (fermion_map_bits n (map (fun i => (- (Z.of_nat i + 1))%Z) (seq 0 n))) in
  let c o i := op_matrix (fermion_op bytes n [(o, i)]) in
  meq M (mmul M U (c "+" i)) (mscale (RtoC (IZR (neg_one_pow (n - 1)))) (mmul M (c "-" i) U)).
Proof. intros bytes n i Hw Hn Hi. exact (full_law bytes n "+" i Hw Hn ltac:(tauto) Hi). Qed.
Print Assumptions C20_full_inversion.
(* ... and not the documented c_j^+ -> (-1)^j c_j *)
Theorem C20_documented_inversion_refuted : let U := map_matrix (fermion_map_bits 2 [-1; -2]%Z) in let c o i := op_matrix (fermion_op 4 2 [(o, i)]) in
  ~ (forall i, i < 2 -> meq 4 (mmul 4 U (c "+" i)) (mscale (RtoC (IZR (neg_one_pow i))) (mmul 4 (c "-" i) U))).
Proof. exact ph2_law_doc. Qed.
Print Assumptions C20_documented_inversion_refuted.
(* an accepted map and a list that passes the symmetry check, while the operator does not commute with the map: c_0^+ c_1 + c_1^+ c_0 *)
Theorem C20_inversion_symmetry_refuted : exists n mlist pers l, accepted n mlist pers /\ length pers = 1 /\
  Forall (fun t => Forall (fun oi => In (fst oi) ["+"; "-"] /\ snd oi < n) (fst t)) l /\
  check_symm_map fermion_sort (fun i => nth i (nth 0 mlist []) 0%Z) l = true /\
  let M := N.to_nat (2 ^ N.of_nat n) in let U := map_matrix (fermion_smap n mlist 0) in let H := terms_matrix (fermion_op 4 n) l in
  ~ meq M (mmul M U H) (mmul M H U).
Proof. exists 2, [ph2], [2], hop2. split; [exact ph2_accepted|]. split; [reflexivity|]. split; [exact hop2_known|]. split; [exact hop2_check|exact hop2_not]. Qed.
Print Assumptions C20_inversion_symmetry_refuted.
(* an accepted map whose period is not the period of its action: two applications give the sign -1 *)
Theorem C20_inversion_period_refuted : exists n mlist pers s, accepted n mlist pers /\ (s < 2 ^ N.of_nat n)%N /\
  Nat.iter (nth 0 pers 0) (sact (fermion_smap n mlist) 0) (s, 1%Z) = (s, (-1)%Z).
Proof. exists 2, [ph2], [2], 0%N. split; [exact ph2_accepted|]. split; [cbn; lia|]. vm_compute. reflexivity. Qed.
Print Assumptions C20_inversion_period_refuted.
(* two accepted maps that commute on states and anticommute as signed maps *)
Theorem C20_inversion_commutation_refuted : exists n mlist pers s, accepted n mlist pers /\ (s < 2 ^ N.of_nat n)%N /\
  (forall t, (t < 2 ^ N.of_nat n)%N -> hcb_map_bits n (nth 0 mlist []) (hcb_map_bits n (nth 1 mlist []) t) = hcb_map_bits n (nth 1 mlist []) (hcb_map_bits n (nth 0 mlist []) t)) /\
  sapply (fermion_smap n mlist) [0; 1] (s, 1%Z) <> sapply (fermion_smap n mlist) [1; 0] (s, 1%Z).
Proof.
  exists 2, [[1; 0]; [-1; -2]]%Z, [2; 2], 1%N. split; [|split; [cbn; lia|split]].
  - split; [reflexivity|]. intros [|[|d]] Hd; [| |cbn in Hd; lia]; (split; [reflexivity|]; exists 10; vm_compute; reflexivity).
  - intros t Ht. change (2 ^ N.of_nat 2)%N with 4%N in Ht. assert (C : t = 0%N \/ t = 1%N \/ t = 2%N \/ t = 3%N) by lia. destruct C as [-> | [-> | [-> | ->]]]; vm_compute; reflexivity.
  - vm_compute. discriminate.
Qed.
Print Assumptions C20_inversion_commutation_refuted.

(* hypotheses met: translation of four orbitals; two particles, one of them moved around the ring *)
Example C20_example : let T := [1; 2; 3; 0]%Z in signed_perm 4 T /\ no_inversion T /\ accepted 4 [T] [4] /\
  fermion_map_bits 4 T 9 = (12%N, (-1)%Z) /\ crossings 4 T 9 = 1 /\ (N.of_nat 4 <= 8 * 4)%N.
Proof.
  split; [unfold signed_perm; cbn; change [1; 2; 3; 0] with ([1; 2; 3] ++ [0]); apply Permutation_sym, Permutation_cons_append|].
  split; [intros z; cbn; intuition (subst; reflexivity)|]. split; [|split; [vm_compute; reflexivity|split; [vm_compute; reflexivity|cbn; lia]]].
  split; [reflexivity|]. intros [|d] Hd; [|cbn in Hd; lia]. split; [reflexivity|]. exists 10. vm_compute. reflexivity.
Qed.
