(* Blocks without semi-momentum: the columns of the matrix. *)
From Verif Require Import AuxN SpecC SpecOps SpecMaps SpecFermi SpecChain M_bits1d SpecChain1d SpecCheck1d SpecBlock1d M_check1d
  P_maps P_square P_bits1d P_bits1d4 P_bits1d5 P_check1d P_check1d2 P_check1d3 P_check1d4 P_check1d5 P_block1d P_block1d2 P_block1d3 P_block1d4
  M_ops M_symop P_symop M_op1d P_op1d P_op1d2 P_op1d3 P_op1d4 P_op1d5 C39_checks C39_reference C39_translations.
From Coq Require Import Permutation.
Local Open Scope nat_scope.

Lemma nth_tl {A} (l : list A) i d : nth i (tl l) d = nth (S i) l d. Proof. destruct l; [destruct i; reflexivity|reflexivity]. Qed.
Lemma pw_q q c : c <= 1 -> pw q c = IZR (if Nat.eqb c 1 then q else 1). Proof. intros H. unfold pw. destruct c as [|[|]]; [reflexivity|rewrite Z.pow_1_r; reflexivity|lia]. Qed.
Section C.
Variables (w : btype) (k : kind) (L T kb : nat) (b : block).
Lemma collect_in states es : collect w k L T kb b states = Some es -> forall e, In e es -> exists s l, In s states /\ keep w k L T kb b s = Some l /\ In e l.
Proof.
  unfold collect. destruct (all_some _) as [ls|] eqn:E; [|discriminate]. intros H. injection H as <-. apply all_some_spec in E. intros e He. apply in_concat in He. destruct He as (l & Hl & He).
  assert (Hs : In (Some l) (map (keep w k L T kb b) states)) by (rewrite E; apply in_map, Hl). apply in_map_iff in Hs. destruct Hs as (s & Es & Hs). exists s, l. auto.
Qed.
Lemma collect_nodup states es : (forall s l, In s states -> keep w k L T kb b s = Some l -> l = [] \/ exists e, l = [e] /\ e_s e = s) -> NoDup states -> collect w k L T kb b states = Some es -> NoDup (map e_s es).
Proof.
  intros H1 Nd. unfold collect. revert es. induction Nd as [|s states Hn Nd IH]; intros es; [cbn; intros E; injection E as <-; constructor|].
  cbn [map all_some]. destruct (keep w k L T kb b s) as [l|] eqn:Ek; [|discriminate]. destruct (all_some (map _ states)) as [ls|] eqn:E; [|discriminate]. cbn [option_map]. intros Ee. injection Ee as <-. cbn [concat].
  specialize (IH (fun s' l' Hs' => H1 s' l' (or_intror Hs')) (concat ls)). cbn [option_map] in IH. specialize (IH eq_refl).
  destruct (H1 s l (or_introl eq_refl) Ek) as [->|(e & -> & <-)]; [exact IH|]. cbn [app map]. constructor; [|exact IH]. intros Hin. apply in_map_iff in Hin. destruct Hin as (e' & Ee' & He').
  assert (Ec : collect w k L T kb b states = Some (concat ls)) by (unfold collect; rewrite E; reflexivity). destruct (collect_in _ _ Ec e' He') as (s' & l' & Hs' & Ek' & Hl').
  destruct (H1 s' l' (or_intror Hs') Ek') as [->|(e'' & -> & <-)]; [destruct Hl'|]. destruct Hl' as [->|[]]. apply Hn. rewrite <- Ee'. exact Hs'.
Qed.
Lemma collect_ok states : (forall s, In s states -> exists l, keep w k L T kb b s = Some l) -> exists es, collect w k L T kb b states = Some es.
Proof.
  intros H. unfold collect. destruct (all_some_ok (map (keep w k L T kb b) states)) as [ls ->]; [|eexists; reflexivity]. intros x Hx. apply in_map_iff in Hx. destruct Hx as (s & <- & Hs). destruct (H s Hs) as [l ->]. discriminate.
Qed.
End C.

Section S.
Variables (w : btype) (k : kind) (L T kb : nat) (b : block).
Hypothesis OK : block_ok w k L T b.
Hypothesis Pz : pz_ok k b.
Hypothesis Sm : semi b = false.
Notation M := (Mst k L).
Notation two := (two_of b).
Notation tf := (translates b).
Notation n := (n_of L T b).
Notation Hs := (heads b).
Notation To := (T_of T b).
Notation X := (X w k L To two n).
Notation G := (G w k L To two n).
Notation eps := (eps two tf).
Notation th := (th_of L T kb b).
Notation V := (V n Hs (chi b) X G).
Notation cab := (cab th).
Notation nrm := (nrm L T kb b).
Notation kap := (kap L T b).
Lemma cab_0 : cab 0 = C1. Proof. unfold P_block1d2.cab. rewrite Rmult_0_r, Ropp_0. apply cis_0. Qed.
Lemma cis_pi m : cis (- (PI * INR m)) = RtoC ((-1) ^ m).
Proof.
  induction m as [|m IH]; [cbn [INR pow]; rewrite Rmult_0_r, Ropp_0; apply cis_0|]. rewrite S_INR. replace (- (PI * (INR m + 1)))%R with (- (PI * INR m) + - PI)%R by ring. rewrite cis_add, IH. cbn [pow].
  unfold cis. rewrite cos_neg, sin_neg, cos_PI, sin_PI. apply C_eq; cbn; ring.
Qed.
Lemma flat_cab l m : tf = true -> flat L T kb = true -> m = 2 * l * T * kb -> RtoC ((-1) ^ (m / L)) = cab (Z.of_nat l).
Proof.
  intros Et Hf ->. pose proof (L_pos w k L T b OK) as HL. unfold flat in Hf. apply Nat.eqb_eq in Hf. apply Nat.mod_divide in Hf; [|lia]. destruct Hf as [c Hc].
  replace (2 * l * T * kb) with (l * c * L) by nia. rewrite Nat.div_mul by lia. rewrite <- cis_pi. unfold P_block1d2.cab. f_equal. f_equal. rewrite (th_k L T kb b Et). unfold kval. rewrite <- INR_IZR_INZ, mult_INR.
  apply (f_equal INR) in Hc. rewrite !mult_INR in Hc. cbn [INR] in Hc. assert (INR L <> 0%R) by (apply not_0_INR; lia). apply (Rmult_eq_reg_r (INR L)); [|assumption]. transitivity (PI * INR l * (INR c * INR L))%R; [ring|]. rewrite <- Hc. field. assumption.
Qed.
Lemma cab_cs l : tf = true -> cab (Z.of_nat l) = (cosm L T kb (Z.of_nat l), - sinm L T kb (Z.of_nat l))%R.
Proof. intros Et. unfold P_block1d2.cab, cis, cosm, sinm. rewrite cos_neg, sin_neg, (th_k L T kb b Et). reflexivity. Qed.
Lemma phase_f_cab l : tf = true -> phase_f L T kb l = cab (Z.of_nat l).
Proof. intros Et. unfold phase_f. destruct (flat L T kb) eqn:Ef; [apply flat_cab; auto|symmetry; apply cab_cs, Et]. Qed.
Lemma phase_t_cab real l : tf = true -> (real && needs_complex L T kb b)%bool = false -> phase_t L T kb real l = cab (Z.of_nat l).
Proof.
  intros Et Hr. unfold phase_t. destruct real; [|symmetry; apply cab_cs, Et]. apply flat_cab; [exact Et| |lia]. unfold needs_complex in Hr. rewrite Et, Sm in Hr. cbn in Hr. destruct (flat L T kb); [reflexivity|discriminate].
Qed.
Lemma real_phase real x l : tf = true -> (real && needs_complex L T kb b)%bool = false -> real_of real (RtoC x * phase_f L T kb l)%C = (RtoC x * cab (Z.of_nat l))%C.
Proof.
  intros Et Hr. rewrite <- (phase_f_cab l Et). unfold real_of. destruct real; [|reflexivity]. unfold needs_complex in Hr. rewrite Et, Sm in Hr. cbn in Hr. unfold phase_f. destruct (flat L T kb); [|discriminate]. apply C_eq; cbn; ring.
Qed.
Lemma chi_hd Rc : length Rc = length (words_of b) -> Forall (fun c => c <= 1) Rc ->
  chi b (hd_of b Rc) = match b with
    | BP q | BT_P q | BA q | BT_A q | BZ q | BT_Z q | BB q | BT_B q | BPZ q | BT_PZ q => pw q (nth 0 Rc 0)
    | BP_Z p z | BT_P_Z p z | BA_B p z | BT_A_B p z => (pw p (nth 0 Rc 0%nat) * pw z (nth 1 Rc 0%nat))%R
    | _ => 1%R end.
Proof.
  intros Hl Hf. destruct Rc as [|c [|c2 [|]]]; destruct b; cbn [words_of length] in Hl; try discriminate Hl;
    repeat match goal with F : Forall _ (_ :: _) |- _ => inversion_clear F end; unfold chi, chiZ; cbn [hd_of nth q12 fst snd h0]; rewrite ?pw_q by (cbv beta in *; lia); rewrite <- ?mult_IZR; f_equal;
    repeat match goal with |- context [Nat.eqb ?c 1] => destruct (Nat.eqb c 1) end; lia.
Qed.
Lemma factor_ok real sign Rc c r : (real && needs_complex L T kb b)%bool = false -> length (counts b Rc) = length (words_of b) -> Forall (fun c => c <= 1) (counts b Rc) ->
  match b with BFull | BNo => sign = 1%Z | _ => True end ->
  factor L T kb real b sign Rc c r = (RtoC (IZR sign) * ch (chi b) (hd_of b (counts b Rc)) * cab (Z.of_nat (shifts b Rc)) * RtoC (sqrt (nrm r / nrm c)))%C.
Proof.
  intros Hr Hl Hf Hs1. unfold ch. rewrite (chi_hd _ Hl Hf). pose proof (real_phase real) as RP. pose proof (phase_t_cab real) as PT. pose proof cab_0 as K0.
  unfold factor, counts, shifts in *. destruct b; try discriminate Sm; cbn [translates P_op1d4.nrm] in *; cbv zeta; change (Z.of_nat 0) with 0%Z.
  - rewrite Hs1, K0. replace (1 / 1)%R with 1%R by field. rewrite sqrt_1. apply C_eq; cbn; ring.
  - rewrite Hs1, K0. replace (1 / 1)%R with 1%R by field. rewrite sqrt_1. apply C_eq; cbn; ring.
  - rewrite K0, RtoC_mul. ring.
  - rewrite K0, RtoC_mul. ring.
  - rewrite K0, RtoC_mul. ring.
  - rewrite K0, RtoC_mul. ring.
  - rewrite K0, RtoC_mul. ring.
  - rewrite K0, !RtoC_mul. ring.
  - rewrite K0, !RtoC_mul. ring.
  - rewrite PT by auto. replace (1 / IZR (e_N r) / (1 / IZR (e_N c)))%R with (IZR (e_N c) / IZR (e_N r))%R; [unfold C1; apply C_eq; cbn; ring|]. unfold Rdiv. rewrite !Rmult_1_l, Rinv_inv. ring.
  - rewrite RP by auto. rewrite RtoC_mul, nth_tl. ring.
  - rewrite RP by auto. rewrite RtoC_mul, nth_tl. ring.
  - rewrite RP by auto. rewrite RtoC_mul, nth_tl. ring.
  - rewrite RP by auto. rewrite !RtoC_mul, !nth_tl. ring.
Qed.
End S.
