(* C52: the stored states of a one-dimensional basis span the block. *)
From Verif Require Import AuxN SpecC SpecOps SpecMaps SpecFermi SpecChain M_bits1d SpecChain1d SpecCheck1d SpecBlock1d SpecSpan1d M_check1d
  P_bits1d P_check1d P_check1d3 P_block1d P_block1d2 P_block1d3 P_block1d4 M_ops M_symop P_symop M_op1d P_op1d P_op1d2 P_op1d3 P_op1d4 P_op1d5 P_op1d6 P_op1d7 P_op1d8 P_semi1d P_semi1d2 P_semi1d3
  P_span1d P_span1d2 P_span1d3 P_span1d4 P_span1d5 C39_checks C39_reference C39_translations C52_matrix.
From Coq Require Import Permutation.
Local Open Scope nat_scope.

Lemma stored_in w k L T kb b states es : block_ok w k L T b -> (forall s, In s states -> is_state k L s) -> collect w k L T kb b states = Some es ->
  forall e, In e es -> exists l, In (e_s e) states /\ keep w k L T kb b (e_s e) = Some l /\ In e l.
Proof.
  intros OK Hst Hcol e He. unfold collect in Hcol. destruct (all_some (map (keep w k L T kb b) states)) as [ls|] eqn:Ea; [|discriminate]. injection Hcol as <-. pose proof (all_some_spec _ _ Ea) as Em.
  apply in_concat in He. destruct He as (l & Hl & He). assert (Q : In (Some l) (map (keep w k L T kb b) states)) by (rewrite Em; apply in_map, Hl). apply in_map_iff in Q. destruct Q as (s & Ek & Hs).
  assert (Es : e_s e = s).
  { destruct (semi b) eqn:Sm.
    - destruct (keep_semi_ok w k L T kb b OK Sm s (Hst s Hs)) as (l' & E & K). rewrite Ek in E. injection E as <-. apply K, He.
    - destruct (keep_ab w k L T kb b OK Sm s (Hst s Hs)) as (l' & E & K). rewrite Ek in E. injection E as <-. apply (K e He). }
  exists l. rewrite Es. auto.
Qed.

(* every stored state has the eigenvalues of the block and lies in the sector *)
Theorem C52_in_block : forall w k L T kb b states basis,
  block_ok w k L T b -> sector k L b states -> closed w k L T b states -> constructed w k L T kb b states basis ->
  forall i, i < length basis ->
    in_block w k L T b kb (sym_state w k L T kb b basis i) /\
    forall t, ~ In t states -> sym_state w k L T kb b basis i t = C0.
Proof.
  intros w k L T kb b states basis OK (Hst & _) Hcl (es & Hcol & Harr) i Hi. pose proof (all_st w k L T kb b states es basis OK Hst Hcol Harr i Hi) as Sti.
  set (en := nth i basis entry0) in *. assert (E : forall t, sym_state w k L T kb b basis i t = (P_block1d.V (n_of L T b) (heads b) (chi b) (X w k L (T_of T b) (two_of b) (n_of L T b)) (G w k L (T_of T b) (two_of b) (n_of L T b)) (cf L T kb b (e_N en)) (e_s en) t * RtoC (/ norm1 k L (block_vector w k L T b kb (e_N en) (e_s en))))%C).
  { intros t. unfold sym_state, normalised. fold en. rewrite (block_V w k L T kb b OK (e_N en) (e_s en) t Sti). reflexivity. }
  split.
  - apply (in_block_ext w k L T kb b _ _ (fun t _ => eq_sym (E t))). apply in_block_scal. apply V_block; assumption.
  - intros t Ht. rewrite E. assert (Ie : In en es) by (apply (Permutation_in _ (Permutation_sym (proj1 Harr))); apply nth_In, Hi). destruct (stored_in w k L T kb b states es OK Hst Hcol en Ie) as (_ & Is & _).
    assert (Z : forall c, P_block1d.V (n_of L T b) (heads b) (chi b) (X w k L (T_of T b) (two_of b) (n_of L T b)) (G w k L (T_of T b) (two_of b) (n_of L T b)) c (e_s en) t = C0).
    { intros c. unfold P_block1d.V. apply Csum_zero. intros r _. apply Csum_zero. intros h Hh. unfold U. destruct (N.eqb_spec (X w k L (T_of T b) (two_of b) (n_of L T b) r h (e_s en)) t) as [<-|_]; [|ring]. destruct Ht. apply (closed_X w k L T b OK states Hst Hcl r h (e_s en) Hh Is). }
    rewrite Z. ring.
Qed.
Print Assumptions C52_in_block.

(* The stored states are complete: every vector of the sector with the eigenvalues of the block is the sum of its components
   along them.  Missing: blocks of translations and both sublattice inversions with an odd number of levels per site, for which
   the claim is false (C52_complete_odd_levels_refuted) *)
Theorem C52_complete_partial : forall w k L T kb b states basis,
  block_ok w k L T b -> (forall x y, b = BT_A_B x y -> N.even (levels k) = true) ->
  sector k L b states -> closed w k L T b states -> constructed w k L T kb b states basis ->
  forall v, in_block w k L T b kb v -> (forall t, is_state k L t -> ~ In t states -> v t = C0) ->
  forall t, is_state k L t ->
    v t = Csum (seq 0 (length basis)) (fun i => inner1 k L (sym_state w k L T kb b basis i) v * sym_state w k L T kb b basis i t)%C.
Proof.
  intros w k L T kb b states basis OK Ev Se Hcl Co v HB Hout. pose proof (C52_orthonormal w k L T kb b states basis OK Se Co) as Or. destruct Se as (Hst & _). destruct Co as (es & Hcol & Harr).
  assert (Ev' : match b with BT_A_B _ _ => N.even (levels k) = true | _ => True end) by (destruct b; try exact I; apply (Ev _ _ eq_refl)).
  destruct (sp_block w k L T kb b OK states es basis Ev' Hst Hcl Hcol Harr v HB Hout) as [c Hc]. intros t Ht. rewrite (Hc t Ht). apply Csum_ext. intros i Hi. apply in_seq in Hi. f_equal.
  set (psi := sym_state w k L T kb b basis) in *. symmetry. unfold inner1.
  transitivity (Csum (all_states (Mst k L)) (fun t => Csum (seq 0 (length basis)) (fun j => c j * (Cconj (psi i t) * psi j t)))%C).
  - apply Csum_ext. intros u Hu. apply al_in in Hu. apply M_st in Hu. rewrite (Hc u Hu), <- Csum_mul_l. apply Csum_ext. intros j _. ring.
  - rewrite Csum_swap. transitivity (Csum (seq 0 (length basis)) (fun j => c j * (if j =? i then C1 else C0))%C).
    + apply Csum_ext. intros j Hj. apply in_seq in Hj. rewrite Csum_mul_l. f_equal. apply (Or j i); lia.
    + rewrite (Csum_single (seq 0 (length basis)) _ i (seq_NoDup _ _)); [rewrite Nat.eqb_refl; ring|apply in_seq; lia|]. intros j _ Ne. destruct (Nat.eqb_spec j i); [contradiction|ring].
Qed.
Print Assumptions C52_complete_partial.

(* the full space is closed under the symmetries *)
Theorem C52_full_closed : forall w k L T b states,
  block_ok w k L T b -> (forall s, In s states <-> is_state k L s) -> closed w k L T b states.
Proof.
  intros w k L T b states OK Hall s t g sign Hs Hg Hr. apply Hall. apply Hall in Hs. pose proof (gen_lok w k L T b OK g Hg) as Lg. pose proof (sto_lt w k L (T_of T b) (SFb w k L T b OK) g s Lg Hs) as Lt.
  assert (E : reaches w k L (T_of T b) g s t sign).
  { unfold reaches in *. destruct (Bool.bool_dec (translates b) true) as [Et|Et]; [rewrite (To_t T b Et); exact Hr|]. rewrite <- Hr. f_equal. destruct (gen_cases w k L T b OK g Hg) as [[_ Q]|(h & Hh & ->)]; [congruence|]. clear. unfold hw. destruct (two_of b), h as [[|] [|]]; reflexivity. }
  apply (reaches_iff w k L (T_of T b) (SFb w k L T b OK) _ _ _ _ Lg Hs) in E. destruct E as [-> _]. exact Lt.
Qed.
Print Assumptions C52_full_closed.

(* Two spins of size 1, unit cells of two sites, both sublattice inversions with labels 1: the state with both spins in the
   middle level (number 4) has the eigenvalues of the block, but is no combination of the states the basis stores. *)
Theorem C52_complete_odd_levels_refuted :
  let k := Boson 3 in let b := BT_A_B 1 1 in let states := [0; 1; 2; 3; 4; 5; 6; 7; 8]%N in
  let v := fun t => if (t =? 4)%N then C1 else C0 in
  block_ok U32 k 2 2 b /\ sector k 2 b states /\ closed U32 k 2 2 b states /\ in_block U32 k 2 2 b 0 v /\
  forall basis, constructed U32 k 2 2 0 b states basis ->
    ~ exists c : nat -> C, forall t, is_state k 2 t -> v t = Csum (seq 0 (length basis)) (fun i => c i * sym_state U32 k 2 2 0 b basis i t)%C.
Proof.
  intros k b states v. assert (SF : states_fit U32 (Boson 3) 2) by (split; [lia|]; split; [lia|vm_compute; discriminate]).
  assert (HC : cells U32 (Boson 3) 2 2) by (split; [split; [exact SF|exact I]|]; split; [lia|exists 1; reflexivity]).
  assert (OK : block_ok U32 k 2 2 b) by (split; [exact SF|]; split; [intros _; exact HC|]; split; [exact I|]; split; [reflexivity|]; split; [reflexivity|]; split; left; reflexivity).
  assert (Hall : forall s, In s states <-> is_state k 2 s) by (intros s; cbn; lia).
  assert (Se : sector k 2 b states) by (split; [intros s; apply Hall|]; split; [repeat constructor; cbn; intuition discriminate|discriminate]).
  assert (Cl : closed U32 k 2 2 b states) by (apply C52_full_closed; assumption).
  assert (X4 : forall r h, In h (heads b) -> X U32 k 2 (T_of 2 b) (two_of b) (n_of 2 2 b) r h 4 = 4%N /\ G U32 k 2 (T_of 2 b) (two_of b) (n_of 2 2 b) r h 4 = 1%Z).
  { intros r h Hh. unfold P_block1d4.X, P_block1d4.G, cnt. change (n_of 2 2 b) with 1. rewrite Z.mod_1_r. destruct Hh as [<-|[<-|[<-|[<-|[]]]]]; vm_compute; split; reflexivity. }
  pose proof (block_grp U32 k 2 2 b OK) as GR. assert (D4 : (4 < N.of_nat (Mst k 2))%N) by (vm_compute; reflexivity).
  assert (Vx : forall c s, is_state k 2 s -> s <> 4%N -> P_block1d.V (n_of 2 2 b) (heads b) (chi b) (X U32 k 2 (T_of 2 b) (two_of b) (n_of 2 2 b)) (G U32 k 2 (T_of 2 b) (two_of b) (n_of 2 2 b)) c s 4 = C0).
  { intros c s Hs Ne. unfold P_block1d.V. apply Csum_zero. intros r _. apply Csum_zero. intros h Hh. unfold U. destruct (N.eqb_spec (X U32 k 2 (T_of 2 b) (two_of b) (n_of 2 2 b) r h s) 4) as [E|_]; [|ring]. destruct Ne.
    apply M_st in Hs. apply (X_inj _ _ _ _ _ _ _ GR r h s 4%N Hh Hs D4). rewrite E. symmetry. apply X4, Hh. }
  split; [exact OK|]. split; [exact Se|]. split; [exact Cl|]. split.
  - apply (in_block_ext U32 k 2 2 0 b (fun t => P_block1d.V (n_of 2 2 b) (heads b) (chi b) (X U32 k 2 (T_of 2 b) (two_of b) (n_of 2 2 b)) (G U32 k 2 (T_of 2 b) (two_of b) (n_of 2 2 b)) (cf 2 2 0 b 1) 4%N t * RtoC (/ 4))%C).
    + intros t Ht. unfold P_block1d.V. change (zs (n_of 2 2 b)) with [0%Z]. rewrite Csum_cons, Csum_nil.
      transitivity ((Csum (heads b) (fun _ => C1) * v t + C0) * RtoC (/ 4))%C; [|rewrite Csum_const; change (length (heads b)) with 4; cbn [INR]; apply C_eq; cbn; field].
      f_equal. f_equal. rewrite <- Csum_mul_r. apply Csum_ext. intros h Hh. unfold U, Gc. destruct (X4 0%Z h Hh) as [-> ->]. unfold v. rewrite (N.eqb_sym 4 t).
      assert (Ec : cf 2 2 0 b 1 0 = C1) by (unfold cf; cbn [semi b]; unfold cab; replace (- (th_of 2 2 0 b * IZR 0))%R with 0%R by (cbn; ring); apply cis_0).
      rewrite Ec. assert (Eh : ch (chi b) h = C1) by (unfold ch, chi; destruct Hh as [<-|[<-|[<-|[<-|[]]]]]; reflexivity). rewrite Eh. destruct (t =? 4)%N; change (RtoC (IZR 1)) with C1; ring.
    + apply in_block_scal. apply V_block; [exact OK|reflexivity].
  - intros basis (es & Hcol & Harr) [c Hc]. specialize (Hc 4%N eq_refl). unfold v in Hc. cbn [N.eqb Pos.eqb] in Hc. rewrite Csum_zero in Hc; [apply (f_equal fst) in Hc; cbn in Hc; lra|].
    intros i Hi. apply in_seq in Hi. assert (Hi' : i < length basis) by lia. pose proof (all_st U32 k 2 2 0 b states es basis OK (proj1 Se) Hcol Harr i Hi') as Sti. unfold sym_state, normalised. rewrite (block_V U32 k 2 2 0 b OK _ _ _ Sti).
    rewrite Vx; [ring|exact Sti|]. intros E4. assert (Ie : In (nth i basis entry0) es) by (apply (Permutation_in _ (Permutation_sym (proj1 Harr))); apply nth_In, Hi').
    destruct (stored_in U32 k 2 2 0 b states es OK (proj1 Se) Hcol _ Ie) as (l & _ & Ek & Il). rewrite E4 in Ek. assert (K4 : keep U32 k 2 2 0 b 4 = Some []) by (vm_compute; reflexivity). rewrite K4 in Ek. injection Ek as <-. exact Il.
Qed.
Print Assumptions C52_complete_odd_levels_refuted.

(* two spins, momentum 0: the hypotheses hold and the state |01> + |10> is a vector of the block *)
Example C52_complete_met :
  block_ok U32 (Hcp false) 2 1 BT /\ sector (Hcp false) 2 BT [0; 1; 2; 3]%N /\ closed U32 (Hcp false) 2 1 BT [0; 1; 2; 3]%N /\
  constructed U32 (Hcp false) 2 1 0 BT [0; 1; 2; 3]%N zero_mom /\ in_block U32 (Hcp false) 2 1 BT 0 (fun t => if ((t =? 1) || (t =? 2))%N%bool then C1 else C0).
Proof.
  destruct C52_matrix_met as (OK & Se & Co & _). split; [exact OK|]. split; [exact Se|]. split; [apply C52_full_closed; [exact OK|]; intros s; cbn; lia|]. split; [exact Co|].
  assert (M0 : cis (momentum 2 1 0) = C1) by (unfold momentum; cbn [INR]; replace (2 * PI * 0 * 1 / (1 + 1))%R with 0%R by field; apply cis_0).
  assert (Cs : forall t, (t < levels (Hcp false) ^ N.of_nat (sites (Hcp false) 2))%N -> (t = 0 \/ t = 1 \/ t = 2 \/ t = 3)%N) by (intros t Ht; cbn in Ht; lia).
  split.
  - intros x [<-|[]] t Ht. unfold applied. change (all_states (Mst (Hcp false) 2)) with [0; 1; 2; 3]%N. rewrite !Csum_cons, Csum_nil. unfold word_matrix, amp. change (snd (1%Z, @nil letter)) with (@nil letter). cbn [fst]. change (map (act U32 (Hcp false) 2 1) []) with (@nil (N * Z -> option (N * Z))). repeat match goal with |- context [run_ops [] ?x] => change (run_ops [] x) with (Some x) end.
    destruct (Cs t Ht) as [-> | [-> | [-> | ->]]]; cbn [N.eqb Pos.eqb orb]; change (RtoC (IZR 1)) with C1; ring.
  - intros _ t Ht. cbn [semi]. cbn zeta. rewrite M0. unfold applied. change (all_states (Mst (Hcp false) 2)) with [0; 1; 2; 3]%N. rewrite !Csum_cons, Csum_nil. unfold word_matrix, amp.
    change (run_ops (map (act U32 (Hcp false) 2 1) [LT]) (0%N, 1%Z)) with (Some (0%N, 1%Z)). change (run_ops (map (act U32 (Hcp false) 2 1) [LT]) (1%N, 1%Z)) with (Some (2%N, 1%Z)).
    change (run_ops (map (act U32 (Hcp false) 2 1) [LT]) (2%N, 1%Z)) with (Some (1%N, 1%Z)). change (run_ops (map (act U32 (Hcp false) 2 1) [LT]) (3%N, 1%Z)) with (Some (3%N, 1%Z)).
    destruct (Cs t Ht) as [-> | [-> | [-> | ->]]]; cbn [N.eqb Pos.eqb orb]; change (RtoC (IZR 1)) with C1; ring.
Qed.
