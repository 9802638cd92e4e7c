(* Small blocks for Op_shift_sector and Op_bra_ket: two sites, exchange, one particle. *)
From Verif Require Import AuxN SpecC SpecMaps SpecSymm SpecSector SpecBasis SpecIndex SpecOps SpecProj SpecShift M_benes M_maps M_symm M_index M_ops M_opstr M_symop M_inplace M_shift
  P_symm P_norm P_symminst P_index P_mat P_proj P_ops P_symop P_symopinst P_inplace P_make2 P_projex P_shift P_braket.
Local Open Scope nat_scope.

Definition pair_maps : smap := hcb_smap 5 2 two_map.
Lemma pair_accepted : accepted 2 two_map [2].
Proof. split; [reflexivity|]. intros [|d] Hd; [|cbn in Hd; lia]. split; [reflexivity|]. exists 10. vm_compute. reflexivity. Qed.
Lemma pair_closed : closed_under duo_S 1 pair_maps.
Proof. intros [|d] s Hd Hs; [|lia]. destruct Hs as [->| ->]; vm_compute; tauto. Qed.
Lemma pair_group g : group_elem [2] g -> g = [0] \/ g = [1].
Proof. intros [HL H]. destruct g as [|a [|b g]]; cbn in HL; try discriminate. specialize (H 0 ltac:(cbn; lia)). cbn in H. destruct a as [|[|a]]; [tauto|tauto|lia]. Qed.
Lemma pair_good : good_maps (fun s => (s < N.of_nat 4)%N) 1 [2] pair_maps.
Proof. exact two_good. Qed.
Lemma pair_block q : lists_decreasing (in_block duo_S 1 [2] [q] pair_maps) [(2%N, 1%Z)].
Proof.
  split; [repeat constructor|]. intros s k. split.
  - intros [E|[]]. injection E as <- <-. split; [right; reflexivity|]. split; [|split].
    + intros t Ht. apply (reach_act' _ 1 [2] pair_maps pair_good) in Ht; [|reflexivity]. destruct Ht as (g & Hg & <-). apply (valid_elem _ 1 [2] _ pair_good) in Hg.
      destruct (pair_group g Hg) as [->| ->]; vm_compute; discriminate.
    + intros g Hg Hf. destruct (pair_group g Hg) as [->| ->]; [|vm_compute in Hf; discriminate].
      unfold theta. cbn [length seq Rsum fold_right nth INR]. rewrite Rmult_0_r, Rplus_0_l, cis_0. replace (snd (gact pair_maps [0] 2)) with 1%Z by (vm_compute; reflexivity). apply C_eq; cbn; ring.
    + vm_compute. reflexivity.
  - intros (Hs & Hr & _ & ->). assert (s = 2%N).
    { assert (R1 : reach 1 pair_maps s (fst (sapply pair_maps [0] (s, 1%Z)))) by (exists [0]; split; [repeat constructor|reflexivity]).
      apply Hr in R1. destruct Hs as [->| ->]; [|reflexivity]. vm_compute in R1. exfalso. congruence. }
    subst. left. f_equal.
Qed.

(* ---- values of strings ---- *)
Lemma Czero_no m : fst m <> 0%R \/ snd m <> 0%R -> Czero m = false.
Proof. intros H. unfold Czero, Rzero. destruct (Req_EM_T (fst m) 0); [|reflexivity]. destruct (Req_EM_T (snd m) 0); [tauto|reflexivity]. Qed.
Lemma Czero_yes m : m = C0 -> Czero m = true.
Proof. intros ->. unfold Czero, Rzero. cbn [fst snd C0]. destruct (Req_EM_T 0 0); [reflexivity|congruence]. Qed.
Lemma acts_value M op A s r m : acts_as M op A -> (s < N.of_nat M)%N -> op s C1 = Some (r, m) -> forall t, (t < N.of_nat M)%N -> A t s = if (t =? r)%N then m else C0.
Proof.
  intros H Hs E t Ht. destruct (H s C1 Hs) as (r' & m' & E' & _ & HA). rewrite E in E'. injection E' as <- <-. rewrite <- HA by exact Ht. ring.
Qed.
(* the operator of a hop from site b to site a *)
Definition hop (a b : nat) : list (ascii * nat) := [("+"%char, a); ("-"%char, b)].
Notation P2 := (fun o => site_matrix 2 2 (pauli_site 0 o)).
Lemma P2_string l t s : string_matrix 4 P2 l t s = string_matrix 4 (fun o => site_matrix 2 2 (spin_half_site o)) l t s.
Proof. change 4 with (N.to_nat (2 ^ N.of_nat 2)). rewrite (pauli_string 2 0 l t s). change (pauli_scale 0 (map fst l)) with 1%R. apply C_eq; cbn; ring. Qed.
Lemma hop_known a b : a < 2 -> b < 2 -> Forall (fun oi => spin_known (fst oi) /\ snd oi < 2) (hop a b).
Proof. intros Ha Hb. unfold hop. constructor; [split; [cbn; tauto|exact Ha]|]. constructor; [split; [cbn; tauto|exact Hb]|]. constructor. Qed.
Lemma hop_acts a b : a < 2 -> b < 2 -> acts_as 4 (hcb_op 2 (hop a b)) (string_matrix 4 P2 (hop a b)).
Proof.
  intros Ha Hb s m Hs. destruct (hcb_op_acts 2 (hop a b) (hop_known a b Ha Hb) s m Hs) as (r & m' & E & Hr & HA). exists r, m'. split; [exact E|]. split; [exact Hr|].
  intros t Ht. rewrite P2_string. apply HA. exact Ht.
Qed.
Lemma op_steps : forall J, hcb_op 2 (hop 0 1) 2 J = Some (2%N, (J * C0)%C) /\ hcb_op 2 (hop 1 0) 1 J = Some (1%N, (J * C0)%C).
Proof.
  intros J. split; unfold hcb_op, hop; cbn [rev app op_loop hcb_local]; cbn [Nat.sub N.of_nat]; 
  match goal with |- context [Czero ?m] => replace (Czero m) with true by (symmetry; apply Czero_yes; apply C_eq; cbn; ring) end; reflexivity.
Qed.
Lemma op_hops : forall J, fst J <> 0%R -> hcb_op 2 (hop 0 1) 1 J = Some (2%N, (J * C1 * C1)%C) /\ hcb_op 2 (hop 1 0) 2 J = Some (1%N, (J * C1 * C1)%C).
Proof.
  intros J HJ. split; unfold hcb_op, hop; cbn [rev app op_loop hcb_local].
  - change (N.testbit 1 (N.of_nat (2 - 1 - 1))) with true. cbn iota. rewrite Czero_no by (left; cbn; lra). cbn [op_loop hcb_local].
    change (N.testbit (N.lxor 1 (N.shiftl 1 (N.of_nat (2 - 1 - 1)))) (N.of_nat (2 - 0 - 1))) with false. cbn iota. rewrite Czero_no by (left; cbn; lra). reflexivity.
  - change (N.testbit 2 (N.of_nat (2 - 0 - 1))) with true. cbn iota. rewrite Czero_no by (left; cbn; lra). cbn [op_loop hcb_local].
    change (N.testbit (N.lxor 2 (N.shiftl 1 (N.of_nat (2 - 0 - 1)))) (N.of_nat (2 - 1 - 1))) with false. cbn iota. rewrite Czero_no by (left; cbn; lra). reflexivity.
Qed.
Lemma hop_matrix t : (t < 4)%N -> string_matrix 4 P2 (hop 0 1) t 1%N = (if (t =? 2)%N then C1 else C0) /\ string_matrix 4 P2 (hop 0 1) t 2%N = C0 /\
  string_matrix 4 P2 (hop 1 0) t 2%N = (if (t =? 1)%N then C1 else C0) /\ string_matrix 4 P2 (hop 1 0) t 1%N = C0.
Proof.
  intros Ht. assert (N1 : fst C1 <> 0%R) by (cbn; lra). destruct (op_steps C1) as [S1 S2]. destruct (op_hops C1 N1) as [H1 H2].
  split; [|split; [|split]].
  - rewrite (acts_value 4 _ _ 1%N _ _ (hop_acts 0 1 ltac:(lia) ltac:(lia)) ltac:(reflexivity) H1 t Ht). destruct (t =? 2)%N; [ring|reflexivity].
  - rewrite (acts_value 4 _ _ 2%N _ _ (hop_acts 0 1 ltac:(lia) ltac:(lia)) ltac:(reflexivity) S1 t Ht). destruct (t =? 2)%N; [ring|reflexivity].
  - rewrite (acts_value 4 _ _ 2%N _ _ (hop_acts 1 0 ltac:(lia) ltac:(lia)) ltac:(reflexivity) H2 t Ht). destruct (t =? 1)%N; [ring|reflexivity].
  - rewrite (acts_value 4 _ _ 1%N _ _ (hop_acts 1 0 ltac:(lia) ltac:(lia)) ltac:(reflexivity) S2 t Ht). destruct (t =? 1)%N; [ring|reflexivity].
Qed.
(* the current S+_0 S-_1 - S+_1 S-_0 *)
Definition current : list (list (ascii * nat) * C) := [(hop 0 1, C1); (hop 1 0, RtoC (-1))].
Lemma current_matrix t : (t < 4)%N -> lattice_operator 4 P2 current t 1%N = (if (t =? 2)%N then C1 else C0) /\ lattice_operator 4 P2 current t 2%N = (if (t =? 1)%N then RtoC (-1) else C0).
Proof.
  intros Ht. destruct (hop_matrix t Ht) as (E1 & E2 & E3 & E4). unfold lattice_operator, current. rewrite !Csum_cons, !Csum_nil. cbn [fst snd]. rewrite E1, E2, E3, E4.
  split; [destruct (t =? 2)%N; ring|destruct (t =? 1)%N; ring].
Qed.
Lemma cis_half : cis (2 * PI * IZR 1 / INR 2) = RtoC (-1).
Proof. replace (2 * PI * IZR 1 / INR 2)%R with PI by (cbn; field). apply C_eq; cbn; [apply cos_PI|apply sin_PI]. Qed.
Lemma cis_zero p : cis (2 * PI * IZR 0 / INR p) = C1.
Proof. replace (2 * PI * IZR 0 / INR p)%R with 0%R by (unfold Rdiv; ring). apply cis_0. Qed.
Lemma current_shifts : shifts_sector duo_S duo_S 1 [2] [0%Z] [1%Z] pair_maps (lattice_operator 4 P2 current).
Proof.
  intros [|d] r s Hd Hr Hs; [|lia]. cbn [nth]. rewrite cis_half, cis_zero.
  assert (M1 : pair_maps 0 1%N = (2%N, 1%Z)) by (vm_compute; reflexivity). assert (M2 : pair_maps 0 2%N = (1%N, 1%Z)) by (vm_compute; reflexivity).
  destruct (current_matrix 1%N ltac:(lia)) as [A1 A2]. destruct (current_matrix 2%N ltac:(lia)) as [B1 B2]. cbn [N.eqb Pos.eqb] in A1, A2, B1, B2.
  destruct Hr as [->| ->], Hs as [->| ->]; rewrite ?M1, ?M2; cbn [fst snd]; rewrite ?A1, ?A2, ?B1, ?B2; apply C_eq; cbn; ring.
Qed.

Definition one_state : list (N * Z) := [(2%N, 1%Z)].
Notation cur_events := (fun x => shift_events false [2] [1%Z] pair_maps 1 one_state one_state (hcb_op 2 (fst x)) (snd x) 1 (fun _ _ => C1)).
Lemma pair_ref : ref_state (group_order [2]) [2] pair_maps 1 1 (repeat 0 1) 1 = Some (2%N, [1], 1%Z).
Proof. vm_compute. reflexivity. Qed.
Lemma sqrt_one : sqrt (IZR 1 / IZR 1) = 1%R.
Proof. replace (IZR 1 / IZR 1)%R with 1%R by field. apply sqrt_1. Qed.
Lemma cur_element J : fst J <> 0%R -> shift_element [2] [1%Z] pair_maps 1 one_state one_state (hcb_op 2 (hop 1 0)) J 0 = Some (Some ((J * C1 * C1 * C1)%C, 0)) /\
  shift_element [2] [1%Z] pair_maps 1 one_state one_state (hcb_op 2 (hop 0 1)) J 0 = Some (Some ((J * C0 * C1)%C, 0)).
Proof.
  intros HJ. unfold shift_element, one_state. cbn [nth fst snd]. rewrite (proj2 (op_hops J HJ)), (proj1 (op_steps J)). cbn [N.eqb Pos.eqb]. rewrite pair_ref.
  change (rep_position (map fst [(2%N, 1%Z)]) 2) with 0%Z. cbn [Z.ltb Z.compare Z.to_nat nth fst snd N.eqb Pos.eqb]. rewrite sqrt_one. split; reflexivity.
Qed.
Lemma one_iteration events v0 v l : inplace_core events 1 v0 (Some v) -> events 0 = Some l -> v 0 0 = (v0 0 0 + ev_sum l 0 0)%C.
Proof.
  intros H E. rewrite (core_sum _ _ _ _ H 0 0). cbn [seq]. rewrite Csum_cons, Csum_nil, E. ring.
Qed.
Lemma current_run v_out : exists v, Op_shift_sector false [2] [1%Z] pair_maps 1 one_state one_state (pauli_scale 0) (hcb_op 2) 1 (fun _ _ => C1) current v_out (Some v) /\
  v 0 0 = ((match v_out with Some w => w 0%nat 0%nat | None => C0 end) + RtoC (-1))%C.
Proof.
  assert (A1 : fst (C1 * RtoC 1)%C <> 0%R) by (cbn; lra). assert (A2 : fst (RtoC (-1) * RtoC 1)%C <> 0%R) by (cbn; lra).
  set (v0 := match v_out with Some w => w | None => fun _ _ => C0 end).
  destruct (core_some (shift_events false [2] [1%Z] pair_maps 1 one_state one_state (hcb_op 2 (hop 0 1)) (C1 * RtoC 1)%C 1 (fun _ _ => C1)) 1 v0) as [v1 H1].
  { intros [|i] Hi; [|lia]. unfold shift_events. rewrite (proj2 (cur_element _ A1)). discriminate. }
  destruct (core_some (shift_events false [2] [1%Z] pair_maps 1 one_state one_state (hcb_op 2 (hop 1 0)) (RtoC (-1) * RtoC 1)%C 1 (fun _ _ => C1)) 1 v1) as [v2 H2].
  { intros [|i] Hi; [|lia]. unfold shift_events. rewrite (proj1 (cur_element _ A2)). discriminate. }
  exists v2. split.
  - unfold Op_shift_sector, current. apply (sl_cons _ _ _ _ _ _ _ _ _ _ _ _ _ _ _ v1); [exact H1|]. apply (sl_cons _ _ _ _ _ _ _ _ _ _ _ _ _ _ _ v2); [exact H2|]. constructor.
  - erewrite (one_iteration _ _ _ _ H2); [|unfold shift_events; rewrite (proj1 (cur_element _ A2)); reflexivity].
    erewrite (one_iteration _ _ _ _ H1); [|unfold shift_events; rewrite (proj2 (cur_element _ A1)); reflexivity].
    rewrite !row_events_sum by lia. cbn [Nat.eqb as_type]. replace (match v_out with Some w => w 0 0 | None => C0 end) with (v0 0 0) by (unfold v0; destruct v_out; reflexivity).
    apply C_eq; cbn; ring.
Qed.
Lemma current_wts : wts [2] pair_maps [1%Z] one_state one_state 0 0 1%N = RtoC (-1).
Proof.
  rewrite (wts_orbit 4 1 [2] pair_maps pair_good ltac:(lia) [0%Z] [1%Z] duo_S duo_S one_state one_state duo_dom duo_dom
    (pair_block 0) (pair_block 1) 0 0 1%N [1]).
  2: (cbn; lia). 2: (cbn; lia). 2: (cbv; tauto). 3: (vm_compute; reflexivity).
  2: { apply (valid_elem _ 1 [2] _ pair_good). split; [reflexivity|]. intros [|d] Hd; cbn in *; lia. }
  unfold ph. replace (snd (gact pair_maps [1] 1)) with 1%Z by (vm_compute; reflexivity). cbn [one_state nth snd]. rewrite sqrt_one.
  unfold theta. cbn [length seq Rsum fold_right nth].
  replace (2 * PI * 1 / INR 2 * INR 1 + 0)%R with (2 * PI * IZR 1 / INR 2)%R by (change (INR 1) with 1%R; ring). rewrite cis_half.
  apply C_eq; cbn; ring.
Qed.
Lemma current_transition : transition [2; 1]%N [2; 1]%N [2] [1%Z] [0%Z] pair_maps (lattice_operator 4 P2 current) 2%N 2%N = C1.
Proof.
  pose proof (shift_transition 4 1 [2] pair_maps pair_good ltac:(lia) [0%Z] [1%Z] duo_S duo_S [2; 1]%N [2; 1]%N one_state one_state duo_dom duo_dom pair_closed pair_closed duo_enum duo_enum
    (pair_block 0) (pair_block 1) _ 0 0 current_shifts ltac:(cbn; lia) ltac:(cbn; lia)) as E.
  cbn [one_state nth fst] in E. rewrite <- E. rewrite !Csum_cons, Csum_nil.
  destruct (current_matrix 1%N ltac:(lia)) as [A1 A2]. destruct (current_matrix 2%N ltac:(lia)) as [B1 B2]. cbn [N.eqb Pos.eqb] in A1, A2, B1, B2. rewrite A2, B2.
  change [(2%N, 1%Z)] with one_state. rewrite current_wts. generalize (wts [2] pair_maps [1%Z] one_state one_state 0 0 2). intros z. clear. destruct z as [a b]. unfold Cmul, Cadd, RtoC, C0, C1. cbn [fst snd]. f_equal; ring.
Qed.

(* ---- Op_bra_ket: three sites, translation, k = 1 ---- *)
Lemma tri_check x : x = 4%N \/ x = 6%N -> check_state (group_order [3]) [3] [1%Z] tri_maps 1 x = Some (Norm 1).
Proof.
  intros Hx. assert (Dx : (x < N.of_nat 8)%N) by (cbn; lia).
  assert (Rx : is_rep 1 tri_maps x).
  { intros t Ht. apply (reach_act' _ 1 [3] tri_maps tri_good) in Ht; [|exact Dx]. destruct Ht as (g & Hg & <-). apply (valid_elem _ 1 [3] _ tri_good) in Hg.
    destruct Hx as [-> | ->]; destruct (tri_group g Hg) as [->|[->| ->]]; vm_compute; discriminate. }
  destruct (check_rep 8 1 [3] tri_maps [1%Z] tri_good ltac:(lia) tri_S tri_dom [(4%N, 1%Z)] (tri_block 1) x Dx Rx) as (y & E & [[_ ->]|[Nc _]]).
  - rewrite E. replace (stabilisers [3] tri_maps x) with 1 by (destruct Hx as [-> | ->]; vm_compute; reflexivity). reflexivity.
  - exfalso. apply Nc. intros g Hg Hf. destruct (tri_group g Hg) as [->|[->| ->]]; [|destruct Hx as [-> | ->]; vm_compute in Hf; discriminate Hf|destruct Hx as [-> | ->]; vm_compute in Hf; discriminate Hf].
    unfold theta. cbn [length seq Rsum fold_right nth INR]. rewrite Rmult_0_r, Rplus_0_l, cis_0. replace (snd (gact tri_maps [0] x)) with 1%Z by (destruct Hx as [-> | ->]; vm_compute; reflexivity). apply C_eq; cbn; ring.
Qed.
Definition raise_1 : list (ascii * nat) := [("+"%char, 1)].
Lemma raise_op : hcb_op 3 raise_1 4 C1 = Some (6%N, (C1 * C1)%C).
Proof.
  unfold hcb_op, raise_1. cbn [rev app op_loop hcb_local]. change (N.testbit 4 (N.of_nat (3 - 1 - 1))) with false. cbn iota. rewrite Czero_no by (left; cbn; lra). reflexivity.
Qed.
Lemma tri_ref j : ref_state (group_order [3]) [3] tri_maps 1 6 [j] 1 = Some (6%N, [j], 1%Z).
Proof. vm_compute. reflexivity. Qed.
Definition tri_kets : list ascii := ["I"; "+"; "-"; "x"; "y"; "z"; "n"]%char.
Lemma stale_run j : Op_bra_ket false None [3] [1%Z] tri_maps 1 3 tri_kets (pauli_scale 0) (hcb_op 3) raise_1 C1 [4%N] true
  (Some [(CVal (cis (- (2 * PI * IZR 1 / INR 3 * INR j))), 6%N, 4%N)]).
Proof.
  unfold Op_bra_ket. cbn [raise_1 tri_kets existsb snd fst Nat.leb orb Ascii.eqb Bool.eqb negb].
  set (z := (C1 * C1 * g_phase [3] [1%Z] 1 [j] * (RtoC (IZR 1) * RtoC (sqrt (1 / 1))))%C).
  assert (Ez : z = cis (- (2 * PI * IZR 1 / INR 3 * INR j))).
  { unfold z, g_phase. cbn [seq Rsum fold_right nth]. rewrite Rplus_0_r. replace (1 / 1)%R with 1%R by field. rewrite sqrt_1. unfold ks. cbn [nth]. destruct (cis _) as [a b]. apply C_eq; cbn; ring. }
  exists (Some [(CVal z, 6%N)]). split.
  - exists [([j], [4%N])]. split; [reflexivity|]. split; [intros p [<-|[]]; reflexivity|]. cbn [map fst snd bra_ket_thread]. unfold bra_ket_step.
    fold raise_1. rewrite raise_op. cbn [N.eqb Pos.eqb]. rewrite tri_ref. rewrite (tri_check 6) by tauto. destruct (Rle_dec 1 1); [|lra]. rewrite (tri_check 4) by tauto. destruct (Req_EM_T 1 0); [lra|].
    reflexivity.
  - cbn [combine flat_map keep_entry fst snd andb app map].
    assert (Nz : Czero z = false).
    { apply Czero_no. rewrite Ez. unfold cis. cbn [fst snd]. set (u := (- (2 * PI * IZR 1 / INR 3 * INR j))%R). pose proof (sin2_cos2 u) as E. unfold Rsqr in E.
      destruct (Req_EM_T (cos u) 0) as [X|X]; [right; intros Y; rewrite X, Y in E; lra|left; exact X]. }
    rewrite Nz. cbn [app map scale_cell fst snd]. change (pauli_scale 0 ["+"%char]) with 1%R. rewrite Ez. do 5 f_equal. destruct (cis _) as [a b]. apply C_eq; cbn; ring.
Qed.
(* ---- two sites, one particle, k = pi: the density on site 0 ---- *)
Definition density_0 : list (ascii * nat) := [("n"%char, 0)].
Lemma density_op : hcb_op 2 density_0 2 C1 = Some (2%N, (C1 * C1)%C).
Proof.
  unfold hcb_op, density_0. cbn [rev app op_loop hcb_local]. change (N.testbit 2 (N.of_nat (2 - 0 - 1))) with true. cbn iota. rewrite Czero_no by (left; cbn; lra). reflexivity.
Qed.
Definition one_particle (s : N) : bool := ((s =? 1) || (s =? 2))%N.
Lemma diagonal_run j z : z = cis (- (2 * PI * IZR 1 / INR 2 * INR j)) -> Op_bra_ket false (Some one_particle) [2] [1%Z] pair_maps 1 2 tri_kets (pauli_scale 0) (hcb_op 2) density_0 C1 [2%N] true (Some [(CVal z, 2%N, 2%N)]).
Proof.
  intros Hz. unfold Op_bra_ket. cbn [density_0 tri_kets existsb snd fst Nat.leb orb Ascii.eqb Bool.eqb negb].
  set (w := (C1 * C1 * g_phase [2] [1%Z] 1 [j])%C).
  assert (Ew : w = z).
  { unfold w, g_phase. cbn [seq Rsum fold_right nth]. rewrite Rplus_0_r. rewrite Hz. unfold ks. cbn [nth]. destruct (cis _) as [a b]. apply C_eq; cbn; ring. }
  exists (Some [(CVal w, 2%N)]). split.
  - exists [([j], [2%N])]. split; [reflexivity|]. split; [intros p [<-|[]]; reflexivity|]. cbn [map fst snd bra_ket_thread]. unfold bra_ket_step.
    fold density_0. rewrite density_op. cbn [N.eqb Pos.eqb]. reflexivity.
  - cbn [combine flat_map keep_entry fst snd andb app map].
    assert (Nz : Czero w = false).
    { apply Czero_no. rewrite Ew, Hz. unfold cis. cbn [fst snd]. set (u := (- (2 * PI * IZR 1 / INR 2 * INR j))%R). pose proof (sin2_cos2 u) as E. unfold Rsqr in E.
      destruct (Req_EM_T (cos u) 0) as [X|X]; [right; intros Y; rewrite X, Y in E; lra|left; exact X]. }
    rewrite Nz. cbn [app map scale_cell fst snd]. change (pauli_scale 0 ["n"%char]) with 1%R. rewrite Ew. do 5 f_equal. clear. destruct z as [a b]. apply C_eq; cbn; ring.
Qed.
(* ---- the difference of densities n_0 - n_1 carries k = 0 to k = pi ---- *)
Definition density_1 : list (ascii * nat) := [("n"%char, 1)].
Definition imbalance : list (list (ascii * nat) * C) := [(density_0, C1); (density_1, RtoC (-1))].
Lemma density_ops s : s = 1%N \/ s = 2%N -> exists x y, hcb_op 2 density_0 s C1 = Some (s, x) /\ hcb_op 2 density_1 s C1 = Some (s, y) /\
  (x - y)%C = (if (s =? 2)%N then C1 else RtoC (-1)).
Proof.
  intros Hs. unfold hcb_op, density_0, density_1. cbn [rev app op_loop hcb_local].
  destruct Hs as [-> | ->].
  - change (N.testbit 1 (N.of_nat (2 - 0 - 1))) with false. change (N.testbit 1 (N.of_nat (2 - 1 - 1))) with true. cbn iota.
    rewrite (Czero_yes (C1 * C0)%C) by ring. rewrite Czero_no by (left; cbn; lra). do 2 eexists. split; [reflexivity|]. split; [reflexivity|]. apply C_eq; cbn; ring.
  - change (N.testbit 2 (N.of_nat (2 - 0 - 1))) with true. change (N.testbit 2 (N.of_nat (2 - 1 - 1))) with false. cbn iota.
    rewrite (Czero_yes (C1 * C0)%C) by ring. rewrite Czero_no by (left; cbn; lra). do 2 eexists. split; [reflexivity|]. split; [reflexivity|]. apply C_eq; cbn; ring.
Qed.
Lemma density_acts l : l = density_0 \/ l = density_1 -> acts_as 4 (hcb_op 2 l) (string_matrix 4 P2 l).
Proof.
  intros Hl s m Hs. assert (K : Forall (fun oi => spin_known (fst oi) /\ snd oi < 2) l).
  { destruct Hl as [-> | ->]; (constructor; [split; [cbn; tauto|cbn; lia]|constructor]). }
  destruct (hcb_op_acts 2 l K s m Hs) as (r & m' & E & Hr & HA). exists r, m'. split; [exact E|]. split; [exact Hr|].
  intros t Ht. rewrite P2_string. apply HA. exact Ht.
Qed.
Lemma imbalance_matrix t s : (t < 4)%N -> s = 1%N \/ s = 2%N -> lattice_operator 4 P2 imbalance t s = if (t =? s)%N then (if (s =? 2)%N then C1 else RtoC (-1)) else C0.
Proof.
  intros Ht Hs. destruct (density_ops s Hs) as (x & y & E1 & E2 & E3). assert (Ds : (s < N.of_nat 4)%N) by (cbn; lia).
  unfold lattice_operator, imbalance. rewrite !Csum_cons, Csum_nil. cbn [fst snd].
  rewrite (acts_value 4 _ _ s _ _ (density_acts density_0 (or_introl eq_refl)) Ds E1 t Ht), (acts_value 4 _ _ s _ _ (density_acts density_1 (or_intror eq_refl)) Ds E2 t Ht).
  destruct (t =? s)%N; [rewrite <- E3; apply C_eq; cbn; ring|ring].
Qed.
Lemma imbalance_shifts : shifts_sector duo_S duo_S 1 [2] [0%Z] [1%Z] pair_maps (lattice_operator 4 P2 imbalance).
Proof.
  intros [|d] r s Hd Hr Hs; [|lia]. cbn [nth]. rewrite cis_half, cis_zero.
  assert (M1 : pair_maps 0 1%N = (2%N, 1%Z)) by (vm_compute; reflexivity). assert (M2 : pair_maps 0 2%N = (1%N, 1%Z)) by (vm_compute; reflexivity).
  destruct Hr as [->| ->], Hs as [->| ->]; rewrite ?M1, ?M2; cbn [fst snd]; rewrite !imbalance_matrix by (tauto || lia); cbn [N.eqb Pos.eqb]; apply C_eq; cbn; ring.
Qed.
Lemma imbalance_diagonal : no_return_phase duo_S duo_S 1 [1%Z] pair_maps [2%N] (term_matrices 4 P2 imbalance).
Proof.
  right. left. intros A s t HA Hs Ht Hn _. destruct Hs as [<-|[]]. assert (Dt : (t < 4)%N) by (destruct Ht; lia). destruct (density_ops 2 ltac:(tauto)) as (x & y & E1 & E2 & _).
  destruct (N.eqb_spec t 2) as [|N2]; [assumption|]. exfalso. apply Hn. destruct HA as [<-|[<-|[]]]; cbn [fst snd].
  - rewrite (acts_value 4 _ _ 2%N _ _ (density_acts density_0 (or_introl eq_refl)) ltac:(cbn; lia) E1 t Dt). apply N.eqb_neq in N2. rewrite N2. ring.
  - rewrite (acts_value 4 _ _ 2%N _ _ (density_acts density_1 (or_intror eq_refl)) ltac:(cbn; lia) E2 t Dt). apply N.eqb_neq in N2. rewrite N2. ring.
Qed.
Lemma imbalance_transition : transition [2; 1]%N [2; 1]%N [2] [1%Z] [0%Z] pair_maps (lattice_operator 4 P2 imbalance) 2%N 2%N = C1.
Proof.
  pose proof (shift_transition 4 1 [2] pair_maps pair_good ltac:(lia) [0%Z] [1%Z] duo_S duo_S [2; 1]%N [2; 1]%N one_state one_state duo_dom duo_dom pair_closed pair_closed duo_enum duo_enum
    (pair_block 0) (pair_block 1) _ 0 0 imbalance_shifts ltac:(cbn; lia) ltac:(cbn; lia)) as E.
  cbn [one_state nth fst] in E. rewrite <- E. rewrite !Csum_cons, Csum_nil. rewrite !imbalance_matrix by (tauto || lia). cbn [N.eqb Pos.eqb].
  change [(2%N, 1%Z)] with one_state.
  rewrite (wts_orbit 4 1 [2] pair_maps pair_good ltac:(lia) [0%Z] [1%Z] duo_S duo_S one_state one_state duo_dom duo_dom
    (pair_block 0) (pair_block 1) 0 0 2%N [0]).
  2: (cbn; lia). 2: (cbn; lia). 2: (cbv; tauto). 3: (vm_compute; reflexivity).
  2: { apply (valid_elem _ 1 [2] _ pair_good). split; [reflexivity|]. intros [|d] Hd; cbn in *; lia. }
  unfold ph. replace (snd (gact pair_maps [0] 2)) with 1%Z by (vm_compute; reflexivity). cbn [one_state nth snd]. rewrite sqrt_one.
  unfold theta. cbn [length seq Rsum fold_right nth]. change (INR 0) with 0%R. rewrite Rmult_0_r, Rplus_0_r, cis_0. generalize (wts [2] pair_maps [1%Z] one_state one_state 0 0 1). intros z. clear. destruct z as [a b].
  apply C_eq; cbn; ring.
Qed.
