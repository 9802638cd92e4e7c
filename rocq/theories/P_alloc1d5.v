(* The entries of a translation block fit into the preallocated arrays. *)
From Verif Require Import AuxN SpecC SpecOps SpecMaps SpecFermi SpecChain M_bits1d SpecChain1d SpecCheck1d SpecBlock1d SpecSpan1d M_check1d
  P_maps P_square P_bits1d P_bits1d4 P_bits1d5 P_check1d P_check1d2 P_check1d3 P_check1d4 P_check1d5 P_block1d P_block1d2 P_block1d3 P_block1d4
  M_ops M_symop P_symop P_photon M_op1d P_op1d P_op1d2 P_op1d3 P_op1d4 P_op1d5 P_op1d6 P_semi1d P_semi1d2 P_semi1d3 P_semi1d4 P_span1d5
  M_alloc1d P_alloc1d P_alloc1d2 P_alloc1d3 P_alloc1d4 C39_checks C39_reference C39_translations C52_matrix C52_complete C52_sectors SpecAlloc1d.
From Flocq Require Import Core.
From Coq Require Import Reals Lra.
Local Open Scope nat_scope.

(* ---------- sums over the translations ---------- *)
Lemma cube_max (l : list nat) (D : nat) (f : nat -> nat) : (forall r, In r l -> f r * f r * f r <= D) -> exists x, x * x * x <= D /\ forall r, In r l -> f r <= x.
Proof.
  induction l as [|r l IH]; intros H; [exists 0; split; [apply Nat.le_0_l|intros r []]|]. destruct IH as (x & Hx & Hl); [intros; apply H; right; assumption|]. destruct (Nat.le_ge_cases (f r) x).
  - exists x. split; [exact Hx|]. intros r' [<-|H']; auto.
  - exists (f r). split; [apply H; left; reflexivity|]. intros r' [<-|H']; [lia|]. specialize (Hl r' H'). lia.
Qed.
Lemma half_once (l : list nat) n y : NoDup l -> sum l (fun r => if 2 * r =? n then y else 0) <= y.
Proof.
  induction 1 as [|r l Hr ND IH]; [apply Nat.le_0_l|]. rewrite sum_cons. destruct (Nat.eqb_spec (2 * r) n) as [E|]; [|lia]. rewrite sum_zero; [lia|]. intros x Hx. destruct (Nat.eqb_spec (2 * x) n); [|reflexivity]. assert (x = r) by lia. subst. contradiction.
Qed.
Lemma sum_const {A} (l : list A) x : sum l (fun _ => x) = length l * x. Proof. induction l as [|a l IH]; [reflexivity|]. rewrite sum_cons, IH. cbn [length]. lia. Qed.
Lemma sum_mapz l (f : Z -> nat) : sum (map Z.of_nat l) f = sum l (fun r => f (Z.of_nat r)). Proof. unfold sum. rewrite map_map. reflexivity. Qed.
Lemma extra_bound n D (f : nat -> nat) : 1 <= n -> (forall r, 0 < r < n -> f r * f r <= D /\ (2 * r <> n -> f r * f r * f r <= D)) ->
  exists x y, y * y <= D /\ x * x * x <= D /\ sum (seq 1 (n - 1)) f <= y + (n - 1) * x.
Proof.
  intros Hn H. set (l := filter (fun r => negb (2 * r =? n)) (seq 1 (n - 1))). destruct (cube_max l D f) as (x & Hx & Hl).
  { intros r Hr. apply filter_In in Hr. destruct Hr as [Hr Hb]. apply in_seq in Hr. apply H; [lia|]. destruct (Nat.eqb_spec (2 * r) n); [discriminate|assumption]. }
  set (y := if (n mod 2 =? 0) && (2 <=? n) then f (n / 2) else 0). exists x, y. split; [|split; [exact Hx|]].
  - unfold y. destruct (Nat.eqb_spec (n mod 2) 0) as [E|]; cbn [andb]; [|apply Nat.le_0_l]. destruct (Nat.leb_spec 2 n) as [H2|]; [|apply Nat.le_0_l]. pose proof (Nat.div_mod n 2 ltac:(lia)) as Dm. apply H. lia.
  - apply Nat.le_trans with (sum (seq 1 (n - 1)) (fun r => (if 2 * r =? n then y else 0) + x)).
    + apply sum_le. intros r Hr. destruct (Nat.eqb_spec (2 * r) n) as [E|E].
      * assert (Ey : y = f r). { unfold y. assert (Em : n mod 2 = 0) by (rewrite <- E, Nat.mul_comm; apply Nat.mod_mul; lia). assert (Ed : n / 2 = r) by (rewrite <- E, Nat.mul_comm; apply Nat.div_mul; lia). apply in_seq in Hr. rewrite Em, Ed. destruct (Nat.leb_spec 2 n); [reflexivity|lia]. } lia.
      * cbn [Nat.add]. apply Hl. apply filter_In. split; [exact Hr|]. destruct (Nat.eqb_spec (2 * r) n); [contradiction|reflexivity].
    + rewrite sum_add, sum_const, seq_length. pose proof (half_once (seq 1 (n - 1)) n y (seq_NoDup _ _)). lia.
Qed.

Section S.
Variables (w : btype) (k : kind) (L T kb : nat) (b : block).
Hypothesis OK : block_ok w k L T b.
Hypothesis Tr : translates b = true.
Notation M := (Mst k L).
Notation two := (two_of b).
Notation n := (n_of L T b).
Notation Hs := (heads b).
Notation To := (T_of T b).
Notation X := (X w k L To two n).
Variables (np : option (nat * nat)) (states : list N) (es : list entry).
Hypothesis Hnd : NoDup states.
Hypothesis Hst : forall s, In s states <-> in_space k L np s.
Hypothesis Hpz : forall q m, b = BT_PZ q -> np = Some m -> half_filled k L m.
Hypothesis Hcol : collect w k L T kb b states = Some es.
Let SF := SFb w k L T b OK.
Let HL := L_pos w k L T b OK.
Lemma Hst' s : In s states -> is_state k L s. Proof. intros H. apply Hst in H. unfold in_space, in_number in H. destruct np; [apply H|exact H]. Qed.
Lemma cells_T : cells w k L T. Proof. apply (proj1 (proj2 OK)), Tr. Qed.
Lemma ok_T : block_ok w k L T BT. Proof. split; [exact SF|]. split; [intros _; exact cells_T|exact I]. Qed.
Lemma ok_P : block_ok w k L T (BT_P 1). Proof. split; [exact SF|]. split; [intros _; exact cells_T|left; reflexivity]. Qed.
Lemma ToT : To = T. Proof. unfold T_of. rewrite Tr. reflexivity. Qed.
(* the sector is closed under the operations that are needed *)
Lemma closed_b b' : block_ok w k L T b' -> (forall g, In g (generators b') -> ~ In LA g /\ ~ In LB g) -> (forall g m, In g (generators b') -> In LZ g -> np = Some m -> half_filled k L m) -> closed w k L T b' states.
Proof.
  intros OK' NAB HZ. destruct np as [m|] eqn:En; [|apply C52_full_closed; [exact OK'|exact Hst]].
  assert (Case : k = Spf \/ k <> Spf) by (destruct k; auto; right; discriminate). destruct Case as [Ek|Nk].
  - clear - Ek OK' Hst HZ. subst k. apply (C52_species_closed w L T b' states (N.of_nat (fst m)) (N.of_nat (snd m)) OK'); [|exact Hst]. intros g Hg Hz. f_equal. exact (HZ g m Hg Hz eq_refl).
  - apply (C52_number_closed w k L T b' states (N.of_nat (fst m)) OK' Nk NAB).
    + intros g Hg Hz. specialize (HZ g m Hg Hz eq_refl). unfold half_filled in HZ. destruct k; try exact HZ. congruence.
    + intros s. rewrite Hst. unfold in_space, in_number. destruct k; try reflexivity. congruence.
Qed.
Lemma sto_closed b' g s : block_ok w k L T b' -> closed w k L T b' states -> In g (generators b') -> Forall (lok w k L T) g -> In s states -> In (sto w k L T g s) states.
Proof. intros OK' Cl Hg Lg Is. apply (Cl s (sto w k L T g s) g (sgo w k L T g s) Is Hg). apply (reaches_iff w k L T SF g s _ _ Lg (Hst' s Is)). auto. Qed.
Lemma lok_T : lok w k L T LT. Proof. destruct (cells_n w k L T b OK Tr) as (E & E1 & E2 & E3). cbn [lok]. split; [nia|exact E3]. Qed.
Lemma closed_rep i s : In s states -> In (sto w k L T (repeat LT i) s) states.
Proof.
  revert s. induction i as [|i IH]; intros s Is; [exact Is|]. change (repeat LT (S i)) with ([LT] ++ repeat LT i). rewrite (proj1 (sto_app w k L T SF [LT] (repeat LT i) s (Forall_cons _ lok_T (Forall_nil _)) (rep_lok w k L T lok_T i) (Hst' s Is))). apply IH.
  apply (sto_closed BT [LT] s ok_T); [|left; reflexivity|apply (Forall_cons _ lok_T (Forall_nil _))|exact Is]. apply closed_b; [exact ok_T| |]; intros g; cbn; intuition (subst; cbn in *; intuition discriminate).
Qed.
Lemma X_T r s : X r h0 s = sto w k L T (repeat LT (cnt n r)) s.
Proof. unfold P_block1d4.X. rewrite ToT. f_equal. unfold hw, h0. cbn [fst snd]. destruct two; apply app_nil_r. Qed.
Lemma X_refl s : X 0 (refl b) s = sto w k L T (hw two (refl b)) s.
Proof. unfold P_block1d4.X. rewrite ToT. replace (cnt n 0) with 0 by (unfold cnt; rewrite Zmod_0_l; reflexivity). reflexivity. Qed.
Lemma closed_refl : semi b = true -> forall s, In s states -> In (X 0 (refl b) s) states.
Proof.
  intros Sm s Is. rewrite X_refl.
  assert (P : forall s, In s states -> In (sto w k L T [LP] s) states).
  { intros t It. apply (sto_closed (BT_P 1) [LP] t ok_P); [|right; left; reflexivity|apply Forall_cons; [exact I|apply Forall_nil]|exact It]. apply closed_b; [exact ok_P| |]; intros g; cbn; intuition (subst; cbn in *; intuition discriminate). }
  assert (C : hw two (refl b) = [LP] \/ exists q, b = BT_PZ q) by (clear - Sm; destruct b; cbn [semi] in Sm; try discriminate Sm; [left; reflexivity|right; eexists; reflexivity|left; reflexivity]).
  destruct C as [->|[q Eq]]; [apply P, Is|]. assert (OKq : block_ok w k L T (BT_PZ q)) by (rewrite <- Eq; exact OK). assert (Ew : hw two (refl b) = [LP; LZ]) by (rewrite Eq; reflexivity). rewrite Ew.
  destruct (Logic.conj OKq I) as [(_ & _ & HI & Hq) _]. apply (sto_closed (BT_PZ q) [LP; LZ] s OKq); [|right; left; reflexivity|repeat apply Forall_cons; [exact I|exact HI|apply Forall_nil]|exact Is].
  apply closed_b; [exact OKq|intros g; cbn; intuition (subst; cbn in *; intuition discriminate)|]. intros g m Hg Hz Em. exact (Hpz q m Eq Em).
Qed.

Notation X1 := (fun r s => X r h0 s).
Lemma sums_ex : exists x, forall s, In s states <-> with_sums k L x s.
Proof.
  destruct np as [m|].
  - exists (Some (fun c => if c =? 0 then N.of_nat (fst m) else N.of_nat (snd m))). intros s. rewrite Hst. unfold in_space, in_number, with_sums. apply and_iff_compat_l. destruct k as [f|B|] eqn:Ek.
    + split; [intros E c [->|[Q _]]; [exact E|discriminate Q]|intros H; exact (H 0 (or_introl eq_refl))].
    + split; [intros E c [->|[Q _]]; [exact E|discriminate Q]|intros H; exact (H 0 (or_introl eq_refl))].
    + split; [intros [Hu Hd] c [->|[_ ->]]; [exact Hu|destruct (Nat.eqb_spec L 0); [lia|exact Hd]]|]. intros H. split; [exact (H 0 (or_introl eq_refl))|]. pose proof (H L (or_intror (Logic.conj eq_refl eq_refl))) as Q. cbv beta in Q. destruct (Nat.eqb_spec L 0); [lia|exact Q].
  - exists None. intros s. rewrite Hst. unfold in_space, with_sums. tauto.
Qed.
Lemma fixed_roots r : 0 < r < n -> let f := fixed X1 states (Z.of_nat r) in f * f <= length states /\ (2 * r <> n -> f * f * f <= length states).
Proof.
  intros Hr f. destruct sums_ex as [x Hx]. destruct (cells_n w k L T b OK Tr) as (E & E1 & E2 & E3).
  unfold f, fixed, count. apply (root_bound k L HL (HB2 w k L SF) x states Hx T n r E Hr); [apply NoDup_filter, Hnd|]. intros s Hs. apply filter_In in Hs. destruct Hs as [Is Eq]. split; [exact Is|]. apply N.eqb_eq in Eq. apply (fixed_unchanged w k L T SF lok_T r s (Hst' s Is)). rewrite X_T in Eq. unfold cnt in Eq. rewrite Z.mod_small, Nat2Z.id in Eq by lia. exact Eq.
Qed.
Lemma fit_real : (INR (length es) + 1 / 4 <= (1 + 1 / INR n) * INR (length states) / INR n + INR n)%R.
Proof.
  pose proof (block_grp w k L T b OK) as GR. pose proof (g_H0 _ _ _ _ _ _ _ GR) as H0. pose proof (g_Hn _ _ _ _ _ _ _ GR) as Hn.
  assert (En : n * length es <= sum states (stab n X1)).
  { apply (entries_stab w k L T kb b OK Tr states es Hst' Hnd Hcol states Hst' Hnd (incl_refl _)); [|exact closed_refl]. intros s Is r. rewrite X_T. apply closed_rep, Is. }
  rewrite (sum_stab n X1 states) in En. unfold zr in En. rewrite sum_mapz in En. assert (Es : forall m, 1 <= m -> seq 0 m = 0 :: seq 1 (m - 1)) by (intros [|m] Hm; [lia|cbn [seq]; rewrite Nat.sub_succ, Nat.sub_0_r; reflexivity]). rewrite (Es n Hn), sum_cons in En. change (Z.of_nat 0) with 0%Z in En.
  rewrite (fixed_0 X1 (fun s => (s < N.of_nat M)%N)) in En; [|intros s D; exact (g_X0 _ _ _ _ _ _ _ GR s D)|intros s Is; apply M_st, Hst', Is].
  destruct (extra_bound n (length states) (fun r => fixed X1 states (Z.of_nat r)) Hn fixed_roots) as (x & y & Hy & Hx & He).
  apply (size_bound n (length states) (length es) x y (sum (seq 1 (n - 1)) (fun r => fixed X1 states (Z.of_nat r))) Hn En He Hy Hx). intros ->. reflexivity.
Qed.
End S.
