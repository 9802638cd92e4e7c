(* C08: the representative of a symmetry orbit. *)
From Verif Require Import AuxN SpecC SpecDigits SpecMaps SpecSymm M_maps M_symm P_maps P_symm P_symminst.
Local Open Scope nat_scope.

(* For every set of commuting signed maps: the returned state is the largest one reached by any sequence of the maps;
   if it differs from s, the returned exponents and sign carry s to it; if it is s, the caller's g and sign are left. *)
Theorem C08_representative_is_maximum : forall D nt pers ms s g0 ph0 fuel,
  good_maps D nt pers ms -> D s -> 0 < nt <= 32 -> group_order pers <= fuel ->
  exists r g ph, ref_state fuel pers ms nt s g0 ph0 = Some (r, g, ph) /\
    reach nt ms s r /\ (forall t, reach nt ms s t -> (t <= r)%N) /\
    ((r = s /\ g = g0 /\ ph = ph0) \/ ((s < r)%N /\ group_elem pers g /\ gact ms g s = (r, ph))).
Proof. intros D nt pers ms s g0 ph0 fuel HG. exact (rep_spec D nt pers ms HG s g0 ph0 fuel). Qed.
Print Assumptions C08_representative_is_maximum.

Theorem C08_same_orbit_same_representative : forall D nt pers ms s t g0 h0 p0 q0 fuel,
  good_maps D nt pers ms -> D s -> reach nt ms s t -> 0 < nt <= 32 -> group_order pers <= fuel ->
  exists r g h p q, ref_state fuel pers ms nt s g0 p0 = Some (r, g, p) /\ ref_state fuel pers ms nt t h0 q0 = Some (r, h, q).
Proof. intros D nt pers ms s t g0 h0 p0 q0 fuel HG. exact (rep_same_orbit D nt pers ms HG s t g0 h0 p0 q0 fuel). Qed.
Print Assumptions C08_same_orbit_same_representative.

Theorem C08_idempotent : forall D nt pers ms s g0 p0 r g p h0 q0 fuel,
  good_maps D nt pers ms -> D s -> 0 < nt <= 32 -> group_order pers <= fuel ->
  ref_state fuel pers ms nt s g0 p0 = Some (r, g, p) -> ref_state fuel pers ms nt r h0 q0 = Some (r, h0, q0).
Proof. intros D nt pers ms s g0 p0 r g p h0 q0 fuel HG. exact (rep_idempotent D nt pers ms HG s g0 p0 r g p h0 q0 fuel). Qed.
Print Assumptions C08_idempotent.

(* the hypotheses hold for spin-1/2 bases and for boson / higher spin bases whose maps were accepted and commute *)
Theorem C08_spin_half_maps : forall ld n mlist pers, (n <= 2 ^ ld)%nat -> accepted n mlist pers ->
  (forall d e s, d < length pers -> e < length pers -> (s < 2 ^ N.of_nat n)%N ->
     hcb_map_bits n (nth d mlist []) (hcb_map_bits n (nth e mlist []) s) = hcb_map_bits n (nth e mlist []) (hcb_map_bits n (nth d mlist []) s)) ->
  good_maps (fun s => (s < 2 ^ N.of_nat n)%N) (length pers) pers (hcb_smap ld n mlist).
Proof. exact hcb_good_maps. Qed.
Print Assumptions C08_spin_half_maps.

Theorem C08_boson_maps : forall B n mlist pers, (2 <= B)%N -> accepted n mlist pers ->
  (forall d e s, d < length pers -> e < length pers -> (s < B ^ N.of_nat n)%N ->
     boson_map_bits B n (nth d mlist []) (boson_map_bits B n (nth e mlist []) s) = boson_map_bits B n (nth e mlist []) (boson_map_bits B n (nth d mlist []) s)) ->
  good_maps (fun s => (s < B ^ N.of_nat n)%N) (length pers) pers (boson_smap B n mlist).
Proof. exact boson_good_maps. Qed.
Print Assumptions C08_boson_maps.

(* 4-site ring with spin inversion (period 2) and translation (period 4): state 0011 has representative 1100 after
   two translations; the sign and exponents given for 1100 itself are not overwritten *)
Definition ring_maps : list (list Z) := [[-1; -2; -3; -4]; [1; 2; 3; 0]]%Z.
Example C08_example : good_maps (fun s => (s < 2 ^ N.of_nat 4)%N) 2 [2; 4] (hcb_smap 5 4 ring_maps)
  /\ ref_state 8 [2; 4] (hcb_smap 5 4 ring_maps) 2 3 [0; 0] 1%Z = Some (12%N, [0; 2], 1%Z)
  /\ ref_state 8 [2; 4] (hcb_smap 5 4 ring_maps) 2 12 [1; 3] 7%Z = Some (12%N, [1; 3], 7%Z).
Proof.
  split; [|vm_compute; repeat split; reflexivity].
  apply (hcb_good_maps 5 4 ring_maps [2; 4]).
  - cbn. lia.
  - split; [reflexivity|]. intros [|[|d]] Hd; [split; [reflexivity|exists 10; vm_compute; reflexivity]..|cbn in Hd; lia].
  - intros [|[|d]] [|[|e]] s Hd He Hs; cbn in Hd, He; try lia; try reflexivity;
    (assert (C : forallb (fun i => hcb_map_bits 4 [-1; -2; -3; -4]%Z (hcb_map_bits 4 [1; 2; 3; 0]%Z (N.of_nat i)) =?
                          hcb_map_bits 4 [1; 2; 3; 0]%Z (hcb_map_bits 4 [-1; -2; -3; -4]%Z (N.of_nat i)))%N (seq 0 16) = true) by (vm_compute; reflexivity);
     rewrite forallb_forall in C; specialize (C (N.to_nat s)); rewrite N2Nat.id, N.eqb_eq in C; cbn in Hs;
     first [symmetry; apply C | apply C]; apply in_seq; lia).
Qed.
