(* C40: the particle-photon basis and the photon operators. *)
From Verif Require Import AuxN SpecC SpecSector SpecTensor SpecPhoton M_ops M_opstr M_symop M_tensor M_photon P_tensor P_tensor2 P_photon P_photon2.
Local Open Scope nat_scope.

(* Op of ho_basis is J times the matrix of the word on the oscillator with all its levels, cut to the levels 0..Np afterwards.
   room: Np + number of letters fits the integer type of the row indices (for 8 bits: Np + length <= 127).
   some_value: no element is nan *)
Theorem C40_oscillator : forall real Np w J, Forall (fun o => In o osc_letters) w -> room Np (length w) ->
  exists l, ho_Op real Np w (repeat 0 (length w)) J = Some (map some_value l) /\ in_range (S Np) l /\
    forall i j, i <= Np -> j <= Np -> entry l i j = (J * RtoC (osc_element w i j))%C.
Proof. intros real Np w J HF HR. destruct (ho_entry real Np w J HF HR) as (l & E & R & _ & H & _). exists l. auto. Qed.
Print Assumptions C40_oscillator.
(* the letters are those of an oscillator: a a^+ - a^+ a = 1 and n = a^+ a *)
Theorem C40_oscillator_letters : forall i j, (osc_element ["-"; "+"]%char i j - osc_element ["+"; "-"]%char i j = if (j =? i)%nat then 1 else 0)%R /\
  osc_element ["n"]%char i j = osc_element ["+"; "-"]%char i j.
Proof.
  intros i j. unfold osc_element, osc_word. cbn [fold_right osc pred].
  assert (S1 : (sqrt (INR (S j)) * (sqrt (INR (S j)) * 1) = INR (S j))%R) by (rewrite Rmult_1_r; apply sqrt_sqrt, pos_INR).
  rewrite S1. destruct j as [|j]; [|cbn [pred]; assert (S2 : (sqrt (INR (S j)) * (sqrt (INR (S j)) * 1) = INR (S j))%R) by (rewrite Rmult_1_r; apply sqrt_sqrt, pos_INR); rewrite S2].
  - cbn [pred INR]. rewrite sqrt_0, sqrt_1. destruct i as [|[|i]]; cbn; split; ring.
  - destruct (Nat.eqb_spec (S j) i); split; rewrite ?(S_INR (S j)); ring.
Qed.
Print Assumptions C40_oscillator_letters.
(* without room: an oscillator with the levels 0..127 has 8-bit row indices; a a^+ on the highest level is nan for real types and
   -128 for complex types, instead of 128 *)
Theorem C40_index_type_refuted :
  ho_cell true 127 ["-"; "+"]%char C1 127 = Some (None, 127%Z, 127%Z) /\
  (exists v, ho_cell false 127 ["-"; "+"]%char C1 127 = Some (Some v, 127%Z, 127%Z) /\ v = RtoC (-128)) /\ osc_element ["-"; "+"]%char 127 127 = 128%R.
Proof.
  split; [|split].
  - reflexivity.
  - exists (C1 * (0, sqrt (IZR (- (-128))))%R * (0, sqrt (IZR (- (-128))))%R * C1)%C. split; [reflexivity|]. change (- (-128))%Z with 128%Z. set (s := sqrt (IZR 128)).
    assert (E : (s * s = 128)%R) by (apply sqrt_sqrt; lra). apply C_eq; unfold Cmul, C1, RtoC; cbn [fst snd]; [|ring]. transitivity (- (s * s))%R; [ring|]. rewrite E. ring.
  - unfold osc_element, osc_word. cbn [fold_right]. cbn [osc]. change (pred 128) with 127. rewrite Nat.eqb_refl. rewrite Rmult_1_r, sqrt_sqrt by apply pos_INR. rewrite INR_IZR_INZ. reflexivity.
Qed.
Print Assumptions C40_index_type_refuted.

(* The conserving basis: state c stands for |c> of the particle basis times |Ntot - number of particles of c> of the oscillator.
   If the particle part (with matrix entry l0) changes the number of particles by the opposite of what the photon part does, then
   Op is the restriction of the product of the two parts to these states. *)
Theorem C40_conserving : forall real L nums Ntot opl w indx J l0,
  b_Op L opl indx J = Some l0 -> in_range (b_Ns L) l0 -> 0 < b_Ns L -> length nums = b_Ns L -> Forall (fun k => k <= Ntot) nums -> Ntot <= 127 ->
  room Ntot (length w) -> Forall (fun o => In o osc_letters) w -> count_bar opl = 0 -> length opl = length indx ->
  (forall r c, r < b_Ns L -> c < b_Ns L -> entry l0 r c <> C0 -> nth r nums 0 + letters "+" w = nth c nums 0 + letters "-" w) ->
  exists l, photon_Op real L nums Ntot (opl ++ bar :: w) indx J = Some (map some_value l) /\ in_range (b_Ns L) l /\
    forall r c, r < b_Ns L -> c < b_Ns L ->
      entry l r c = (entry l0 r c * RtoC (osc_element w (Ntot - nth r nums 0) (Ntot - nth c nums 0)))%C.
Proof.
  intros real L nums Ntot opl w indx J l0 H1 H2 H3 H4 H5 H6 H7 H8 H9 H10 HC.
  destruct (photon_entry real L nums Ntot opl w indx J l0 H1 H2 H3 H4 H5 H6 H7 H8 H9 H10) as (l & E & R & H). exists l. split; [exact E|]. split; [exact R|].
  intros r c Hr Hc. destruct (H r c Hr Hc) as (v & Ev & Hv0). rewrite Ev.
  assert (Hn : forall k, k < b_Ns L -> nth k nums 0 <= Ntot) by (intros k Hk; rewrite Forall_forall in H5; apply H5; apply nth_In; lia).
  assert (Hv : nth r nums 0 + letters "+" w = nth c nums 0 + letters "-" w -> v = RtoC (osc_element w (Ntot - nth r nums 0) (Ntot - nth c nums 0))).
  { intros X. pose proof (Hn r Hr). pose proof (Hn c Hc). apply Hv0; lia. }
  destruct (Req_EM_T (fst (entry l0 r c)) 0) as [Z1|Z1].
  - destruct (Req_EM_T (snd (entry l0 r c)) 0) as [Z2|Z2].
    + assert (Z : entry l0 r c = C0) by (apply C_eq; assumption). rewrite Z. ring.
    + rewrite Hv; [reflexivity|]. apply HC; try assumption. intros X. apply Z2. rewrite X. reflexivity.
  - rewrite Hv; [reflexivity|]. apply HC; try assumption. intros X. apply Z1. rewrite X. reflexivity.
Qed.
Print Assumptions C40_conserving.
(* the photon numbers are kept in 8 bits: with Ntot = 200 the state without particles, |200> of the oscillator, is given the
   photon number 145 *)
Theorem C40_many_quanta_refuted : forall L, b_Ns L = 1 -> b_Op L [] [] C1 = Some [(C1, 0%Z, 0%Z)] ->
  exists v, photon_Op false L [0] 200 ([] ++ bar :: ["n"%char]) [] C1 = Some [(Some v, 0%Z, 0%Z)] /\ v = RtoC 145 /\ osc_element ["n"%char] 200 200 = 200%R.
Proof.
  intros L HN HO. destruct (ho_entry false 200 ["n"%char] C1) as (ph & Eph & _ & Lph & _ & Hph); [repeat constructor; cbn; tauto|unfold room; cbn; lia|].
  assert (E200 : osc_element ["n"%char] 200 200 = 200%R) by (unfold osc_element, osc_word; cbn [fold_right osc]; rewrite Nat.eqb_refl, Rmult_1_r, INR_IZR_INZ; reflexivity).
  assert (E145 : osc_element ["n"%char] 145 145 = 145%R) by (unfold osc_element, osc_word; cbn [fold_right osc]; rewrite Nat.eqb_refl, Rmult_1_r, INR_IZR_INZ; reflexivity).
  destruct (Hph 145 ltac:(lia)) as (v & row & A1 & A2 & A3). exists (C1 * v)%C. 
  assert (V : v = RtoC 145).
  { specialize (A3 145 ltac:(lia)). rewrite E145 in A3. destruct A2 as [->| ->].
    - change (letters "+" ["n"%char]) with 0 in A3. change (letters "-" ["n"%char]) with 0 in A3. replace (Z.of_nat 145 + Z.of_nat 0 - Z.of_nat 0)%Z with (Z.of_nat 145) in A3 by lia.
      rewrite Z.eqb_refl in A3. rewrite A3. ring.
    - exfalso. destruct (_ =? _)%Z; apply (f_equal fst) in A3; cbn in A3; lra. }
  split; [|split; [rewrite V; apply C_eq; cbn; ring|exact E200]].
  unfold photon_Op. rewrite HN. cbn [Nat.eqb app count_bar filter split_bar Ascii.eqb Bool.eqb bar length negb repeat]. rewrite HO.
  change (repeat 0 (length ["n"%char])) with [0] in Eph. rewrite Eph. cbn [map all_some length]. change (np_index 1 0) with (Some 0). cbn [nth]. change (photon_n 200 0) with (-56)%Z.
  rewrite map_length, Lph. change (np_index 201 (-56)) with (Some 145). cbv iota. change (Some C0, 0%Z, 0%Z) with (some_value (C0, 0%Z, 0%Z)). rewrite map_nth, A1.
  cbn [some_value fst snd times filter is_zero]. destruct (Czero (C1 * v)%C) eqn:Z; [|reflexivity]. exfalso. apply Czero_spec in Z. rewrite V in Z. apply (f_equal fst) in Z. cbn in Z. lra.
Qed.
Print Assumptions C40_many_quanta_refuted.

(* the columns of the projector: state c of the conserving basis, times its photon number; ns are the photon numbers *)
Theorem C40_projector : forall ns Nph P1 m, ns <> [] -> Forall (fun n => 0 <= n <= Z.of_nat Nph)%Z ns -> isometry m (length ns) P1 ->
  exists P, conserved_proj ns Nph P1 = Some P /\ isometry (m * S Nph) (length ns) P /\
    forall i p j, p <= Nph -> j < length ns -> P (i * S Nph + p) j = if (nth j ns 0 =? Z.of_nat p)%Z then P1 i j else C0.
Proof.
  intros ns Nph P1 m Hne HF HI. destruct (conserved_proj_spec ns Nph P1 Hne HF) as (P & E & HP). exists P. split; [exact E|]. split; [exact (conserved_isometry ns Nph P1 m P Hne HF HI E)|].
  intros i p j Hp Hj. rewrite HP by exact Hj. rewrite Nat.div_add_l by lia. rewrite Nat.div_small by lia. rewrite Nat.add_0_r. rewrite (Nat.add_comm _ p), Nat.mod_add by lia. rewrite Nat.mod_small by lia. reflexivity.
Qed.
Print Assumptions C40_projector.

(* ---- which particle numbers are in the conserving basis ---- *)
(* spin 1/2: exactly those of the lattice that leave a nonnegative number of photons *)
Theorem C40_sectors_spin_half : forall L Ntot k, In k (spin_sectors L Ntot) <-> k <= L /\ k <= Ntot.
Proof. intros L Ntot k. unfold spin_sectors. rewrite in_seq. destruct (Nat.ltb_spec L (Ntot + 1)); lia. Qed.
Print Assumptions C40_sectors_spin_half.
(* higher spin: with sps states per site there are particle numbers up to (sps-1)*L, but none above L is included *)
Theorem C40_sectors_higher_spin_refuted : forall sps L Ntot, 2 < sps -> 0 < L -> L < Ntot ->
  exists k, k <= (sps - 1) * L /\ k <= Ntot /\ ~ In k (spin_sectors L Ntot).
Proof. intros sps L Ntot H1 H2 H3. exists (S L). rewrite C40_sectors_spin_half. split; [nia|lia]. Qed.
Print Assumptions C40_sectors_higher_spin_refuted.
(* bosons and spinless fermions: the highest possible number is always missing; for Ntot = 0 the basis is empty *)
Theorem C40_sectors_boson_refuted : forall sps L Ntot, let top := Nat.min ((sps - 1) * L) Ntot in ~ In top (boson_sectors sps L Ntot) /\ forall k, k < top -> In k (boson_sectors sps L Ntot).
Proof. intros sps L Ntot top. unfold boson_sectors. split; [rewrite in_seq; unfold top; lia|]. intros k Hk. apply in_seq. unfold top in Hk. lia. Qed.
Print Assumptions C40_sectors_boson_refuted.
Theorem C40_sectors_fermion_refuted : forall L Ntot, let top := Nat.min L Ntot in ~ In top (fermion_sectors L Ntot) /\ forall k, k < top -> In k (fermion_sectors L Ntot).
Proof. intros L Ntot top. unfold fermion_sectors. split; [rewrite in_seq; unfold top; lia|]. intros k Hk. apply in_seq. unfold top in Hk. lia. Qed.
Print Assumptions C40_sectors_fermion_refuted.
(* spinful fermions: right for Ntot <= L; for Ntot > L no pair with more than L particles is included *)
Theorem C40_sectors_spinful : forall L Ntot u d, Ntot <= L -> (In (u, d) (spinful_sectors L Ntot) <-> u + d <= Ntot).
Proof.
  intros L Ntot u d H. unfold spinful_sectors. rewrite in_flat_map. setoid_rewrite in_map_iff. setoid_rewrite in_seq.
  assert (E : (if L <? Ntot + 1 then L else Ntot) = Ntot) by (destruct (Nat.ltb_spec L (Ntot + 1)); lia). rewrite E. split.
  - intros (n & Hn & i & Ei & Hi). injection Ei as <- <-. lia.
  - intros Hs. exists (u + d). split; [lia|]. exists d. split; [f_equal; lia|lia].
Qed.
Print Assumptions C40_sectors_spinful.
Theorem C40_sectors_spinful_refuted : forall L Ntot, 0 < L -> L < Ntot -> exists u d, u <= L /\ d <= L /\ u + d <= Ntot /\ ~ In (u, d) (spinful_sectors L Ntot).
Proof.
  intros L Ntot H0 H. exists L, 1. split; [lia|]. split; [lia|]. split; [lia|]. unfold spinful_sectors. rewrite in_flat_map. setoid_rewrite in_map_iff. setoid_rewrite in_seq.
  rewrite (proj2 (Nat.ltb_lt L (Ntot + 1))) by lia. intros (n & Hn & i & Ei & Hi). injection Ei as E1 E2. lia.
Qed.
Print Assumptions C40_sectors_spinful_refuted.

(* photon_Hspace_dim: the number of lattice states with at most Ntot particles, or all of them times the photon levels *)
Theorem C40_dimension : forall N t Nph, photon_Hspace_dim N (Some t) Nph = Some (INR (list_sum (map (binom N) (seq 0 (S t))))) /\
  forall Np, photon_Hspace_dim N None (Some Np) = Some (INR (2 ^ N * S Np)).
Proof.
  intros N t Nph. split; [apply Hspace_dim_conserved|]. intros Np. cbn [photon_Hspace_dim]. f_equal. rewrite INR_IZR_INZ. f_equal. rewrite Nat2Z.inj_mul, Nat2Z.inj_pow. change (Z.of_nat 2) with 2%Z. lia.
Qed.
Print Assumptions C40_dimension.

(* coherent states; the vacuum a = 0 gives nan instead of 1, a negative real number gives only nan *)
Theorem C40_coherent : forall a n, (0 < a)%R -> coherent_state a n = map (fun k => Some (coherent a k)) (seq 0 n).
Proof. exact coherent_ok. Qed.
Print Assumptions C40_coherent.
Theorem C40_coherent_refuted : forall n, 0 < n -> hd None (coherent_state 0 n) = None /\ coherent 0 0 = 1%R /\ forall a, (a < 0)%R -> Forall (fun x => x = None) (coherent_state a n).
Proof.
  intros n Hn. destruct n as [|n]; [lia|]. split; [|split].
  - unfold coherent_state. cbn [seq map hd]. destruct (Rlt_dec 0 0); [lra|]. destruct (Req_EM_T 0 0); [reflexivity|lra].
  - unfold coherent. cbn. replace (- (0 * 0) / 2)%R with 0%R by field. rewrite exp_0, sqrt_1. field.
  - intros a Ha. unfold coherent_state. apply Forall_map, Forall_forall. intros k _. destruct (Rlt_dec 0 a); [lra|]. destruct (Req_EM_T a 0); [lra|reflexivity].
Qed.
Print Assumptions C40_coherent_refuted.

(* ---- check_pcon of a conserving basis accepts every list of terms with at most Ntot raising and at most Ntot lowering photon letters;
   sigma^+ n (particle raised, photons kept) then gets elements that the product does not have ---- *)
Definition one_spin (Op : list ascii -> list nat -> C -> option triples) : basis :=
  {| b_Ns := 2; b_Op := Op; b_index := fun _ => None; b_full := 2; b_proj := identity; b_project := fun v => v |}.
Theorem C40_check_pcon_refuted :
  (forall nzL expandL Ntot eps ts, Forall (fun t : pterm => let '(_, w, _, _) := t in letters "+" w <= Ntot /\ letters "-" w <= Ntot) ts ->
     photon_check_pcon nzL expandL Ntot eps ts = true) /\
  forall real Op, Op ["+"%char] [0] C1 = Some [(C1, 0%Z, 1%Z)] ->
    exists l, photon_Op real (one_spin Op) [1; 0] 1 (["+"%char] ++ bar :: ["n"%char]) [0] C1 = Some (map some_value l) /\
      entry l 0 1 = C1 /\ (entry [(C1, 0%Z, 1%Z)] 0 1 * RtoC (osc_element ["n"%char] (1 - 1) (1 - 0)))%C = C0.
Proof.
  split.
  - intros nzL expandL Ntot eps ts H. unfold photon_check_pcon.
    match goal with |- context [filter ?f ?l] => assert (E : filter f l = []) end.
    { match goal with |- filter ?f ?l = [] => assert (F : Forall (fun t => f t = false) l) end.
      - apply Forall_forall. intros [[[l w] a] J] Ht. apply in_flat_map in Ht. destruct Ht as ([[[l' w'] a'] J'] & Ht & Hu). apply in_map_iff in Hu. destruct Hu as (u & Eu & _). injection Eu as _ <- _ _.
        rewrite Forall_forall in H. specialize (H _ Ht). cbn in H. unfold ho_non_zero. fold (letters "+" w') (letters "-" w'). rewrite (proj2 (Nat.ltb_ge _ _)), (proj2 (Nat.ltb_ge _ _)) by lia. apply Bool.andb_false_r.
      - induction F as [|x l Hx _ IH]; [reflexivity|]. cbn [filter]. rewrite Hx. exact IH. }
    rewrite E. reflexivity.
  - intros real Op HO.
    destruct (photon_entry real (one_spin Op) [1; 0] 1 ["+"%char] ["n"%char] [0] C1 [(C1, 0%Z, 1%Z)] HO) as (l & E & _ & H); try reflexivity; try (cbn; lia).
    { repeat constructor; cbn; lia. } { repeat constructor. } { repeat constructor; cbn; tauto. }
    exists l. split; [exact E|]. destruct (H 0 1 ltac:(cbn; lia) ltac:(cbn; lia)) as (v & Ev & Hv). rewrite Ev. split.
    + rewrite (Hv 1) by (cbn; lia). unfold osc_element, osc_word, entry. cbn. apply C_eq; cbn; ring.
    + unfold osc_element, osc_word, entry. cbn. apply C_eq; cbn; ring.
Qed.
Print Assumptions C40_check_pcon_refuted.

(* sigma^- a^+ on a spin with at most one quantum: the hypotheses of C40_conserving hold, and the element is 1 *)
Example C40_hyps : let L := one_spin (fun _ _ J => Some [(J, 1%Z, 0%Z)]) in
  in_range (b_Ns L) [(C1, 1%Z, 0%Z)] /\ Forall (fun k => k <= 1) [1; 0] /\ room 1 1 /\ Forall (fun o => In o osc_letters) ["+"%char] /\
  (forall r c, r < b_Ns L -> c < b_Ns L -> entry [(C1, 1%Z, 0%Z)] r c <> C0 -> nth r [1; 0] 0 + letters "+" ["+"%char] = nth c [1; 0] 0 + letters "-" ["+"%char]) /\
  entry [(C1, 1%Z, 0%Z)] 1 0 = C1 /\ osc_element ["+"%char] (1 - 0) (1 - 1) = 1%R /\ room 100 20.
Proof.
  cbn zeta. split; [repeat constructor; cbn; lia|]. split; [repeat constructor|]. split; [unfold room; cbn; lia|]. split; [repeat constructor; cbn; tauto|]. split; [|split; [|split]].
  - intros r c Hr Hc. cbn in Hr, Hc. destruct r as [|[|r]], c as [|[|c]]; try lia; unfold entry; cbn; intros H; try reflexivity; exfalso; apply H; apply C_eq; cbn; ring.
  - unfold entry. cbn. apply C_eq; cbn; ring.
  - unfold osc_element, osc_word. cbn. rewrite sqrt_1. ring.
  - unfold room. cbn. lia.
Qed.
