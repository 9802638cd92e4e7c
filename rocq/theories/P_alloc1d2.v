(* States that a translation leaves unchanged: their number is at most the square or the cube root of the size of the sector. *)
From Verif Require Import AuxN SpecDigits SpecMaps SpecFermi SpecChain M_bits1d SpecChain1d SpecCheck1d P_maps P_period P_ops P_square P_bits1d P_bits1d4 P_bits1d5 P_check1d P_alloc1d C38_chain C39_checks C52_sectors.
From Coq Require Import Permutation.
Local Open Scope nat_scope.

Fixpoint nsum (n : nat) (f : nat -> N) : N := match n with 0 => 0%N | S n => (nsum n f + f n)%N end.
Lemma nsum_ext n f g : (forall i, i < n -> f i = g i) -> nsum n f = nsum n g.
Proof. induction n as [|n IH]; intros H; [reflexivity|]. cbn [nsum]. rewrite IH, H by (try lia; intros; apply H; lia). reflexivity. Qed.
Lemma nsum_add n m f : nsum (n + m) f = (nsum n f + nsum m (fun i => f (n + i)%nat))%N.
Proof. induction m as [|m IH]; [rewrite Nat.add_0_r; cbn; lia|]. replace (n + S m) with (S (n + m)) by lia. cbn [nsum]. rewrite IH. lia. Qed.
Lemma nsum_block g d f : nsum (g * d) f = nsum d (fun b => nsum g (fun i => f (b * g + i))).
Proof. induction d as [|d IH]; [rewrite Nat.mul_0_r; reflexivity|]. replace (g * S d) with (g * d + g) by lia. rewrite nsum_add, IH. cbn [nsum]. f_equal. apply nsum_ext. intros i _. f_equal. lia. Qed.
Lemma nsum_const d c : nsum d (fun _ => c) = (N.of_nat d * c)%N.
Proof. induction d as [|d IH]; [reflexivity|]. cbn [nsum]. rewrite IH. lia. Qed.
Lemma on_seq k L s c m : on_sites k L s (seq c m) = nsum m (fun i => site_val (levels k) (sites k L) s (c + i)).
Proof.
  revert c. induction m as [|m IH]; intros c; [reflexivity|]. change (S m) with (1 + m) at 2. rewrite nsum_add. cbn [nsum]. change (seq c (S m)) with (c :: seq (S c) m). unfold on_sites in *. cbn [fold_right]. rewrite IH. rewrite Nat.add_0_r. f_equal. apply nsum_ext. intros i _. f_equal. lia.
Qed.

Section F.
Variables (k : kind) (L : nat).
Hypothesis HL : 1 <= L.
Hypothesis HB : (2 <= levels k)%N.
Notation val s j := (site_val (levels k) (sites k L) s j).
Notation LZ_ := (Z.of_nat L).
(* the chains of the two species start at c *)
Definition ring (s : N) (c : nat) (z : Z) : N := val s (c + Z.to_nat (z mod LZ_)).
(* s is unchanged by a translation by a sites *)
Definition unchanged (a : nat) (s : N) : Prop := forall c z, off k L c -> ring s c (z + Z.of_nat a) = ring s c z.
Lemma ring_nat s c i : i < L -> ring s c (Z.of_nat i) = val s (c + i).
Proof. intros H. unfold ring. rewrite Z.mod_small by lia. rewrite Nat2Z.id. reflexivity. Qed.
Lemma ring_L s c z m : ring s c (z + m * LZ_) = ring s c z.
Proof. unfold ring. rewrite Z.mod_add by lia. reflexivity. Qed.
Lemma ring_mulN a s c : unchanged a s -> off k L c -> forall (m : nat) z, ring s c (z + Z.of_nat m * Z.of_nat a) = ring s c z.
Proof. intros U Hc m. induction m as [|m IH]; intros z; [f_equal; lia|]. rewrite <- (IH z), <- (U c (z + Z.of_nat m * Z.of_nat a)%Z Hc). f_equal. lia. Qed.
Lemma ring_mul a s c : unchanged a s -> off k L c -> forall m z, ring s c (z + m * Z.of_nat a) = ring s c z.
Proof.
  intros U Hc m z. destruct (Z_le_gt_dec 0 m).
  - rewrite <- (ring_mulN a s c U Hc (Z.to_nat m) z). f_equal. rewrite Z2Nat.id by lia. reflexivity.
  - rewrite <- (ring_mulN a s c U Hc (Z.to_nat (- m)) (z + m * Z.of_nat a)). f_equal. rewrite Z2Nat.id by lia. lia.
Qed.
Section G.
Variables (a g d e : nat).
Hypothesis Hg : 1 <= g.
Hypothesis HLd : L = g * d.
Hypothesis Ha : a = g * e.
Hypothesis Hbez : exists x y : Z, (x * Z.of_nat a + y * LZ_ = Z.of_nat g)%Z.
Lemma ring_g s c : unchanged a s -> off k L c -> forall m z, ring s c (z + m * Z.of_nat g) = ring s c z.
Proof.
  intros U Hc m z. destruct Hbez as (x & y & E). rewrite <- E. rewrite <- (ring_L s c (z + (m * x) * Z.of_nat a) (m * y)) at 1 || idtac.
  replace (z + m * (x * Z.of_nat a + y * LZ_))%Z with (z + m * x * Z.of_nat a + m * y * LZ_)%Z by ring. rewrite ring_L. apply ring_mul; assumption.
Qed.
(* the values in block q are those in block 0 *)
Lemma val_block s c q i : unchanged a s -> off k L c -> q < d -> i < g -> val s (c + (q * g + i)) = val s (c + i).
Proof.
  intros U Hc Hq Hi. assert (q * g + i < L) by nia. assert (i < L) by nia. rewrite <- (ring_nat s c (q * g + i)), <- (ring_nat s c i) by assumption.
  rewrite <- (ring_g s c U Hc (Z.of_nat q) (Z.of_nat i)). f_equal. lia.
Qed.
Lemma part_sum s c : unchanged a s -> off k L c -> on_sites k L s (seq c L) = (N.of_nat d * nsum g (fun i => val s (c + i)%nat))%N.
Proof.
  intros U Hc. rewrite on_seq, HLd, nsum_block, <- nsum_const. rewrite <- HLd. apply nsum_ext. intros q Hq. apply nsum_ext. intros i Hi. apply val_block; assumption.
Qed.
(* a state put together from blocks of the states f 0, f 1, ... *)
Variable m : nat.
Hypothesis Hm : 1 <= m <= d.
Definition pick (j : nat) : nat := Nat.min ((j mod L) / g) (m - 1).
Definition is_mix (f : nat -> N) (u : N) : Prop := is_state k L u /\ forall j, j < sites k L -> val u j = val (f (pick j)) j.
Lemma mix_ex f : exists u, is_mix f u.
Proof.
  destruct (vals_surj (levels k) (sites k L) HB (map (fun j => val (f (pick j)) j) (seq 0 (sites k L)))) as (u & Hu & E).
  - split; [rewrite map_length, seq_length; reflexivity|]. intros j Hj. rewrite nth_mapseq by exact Hj. unfold dig. apply P_ops.site_val_lt, HB.
  - exists u. split; [exact Hu|]. intros j Hj. assert (E' : nth j (vals (levels k) (sites k L) u) 0%N = nth j (map (fun j => val (f (pick j)) j) (seq 0 (sites k L))) 0%N) by (rewrite E; reflexivity).
    unfold vals in E'. rewrite !nth_mapseq in E' by exact Hj. exact E'.
Qed.
Lemma pick_c c q i : off k L c -> q < d -> i < g -> pick (c + (q * g + i)) = Nat.min q (m - 1).
Proof.
  intros Hc Hq Hi. unfold pick. assert (B : q * g + i < L) by nia. assert (E : (c + (q * g + i)) mod L = q * g + i).
  { destruct Hc as [->|[_ ->]]; [apply Nat.mod_small, B|]. rewrite Nat.add_comm, <- (Nat.mul_1_l L) at 1. rewrite Nat.mod_add by lia. apply Nat.mod_small, B. }
  rewrite E. f_equal. rewrite Nat.add_comm, Nat.div_add by lia. rewrite Nat.div_small by exact Hi. reflexivity.
Qed.
Lemma mix_sum f u c X : is_mix f u -> (forall i, i < m -> unchanged a (f i) /\ on_sites k L (f i) (seq c L) = X) -> off k L c -> on_sites k L u (seq c L) = X.
Proof.
  intros (Hu & E) Hf Hc. rewrite on_seq, HLd, nsum_block. rewrite <- HLd.
  assert (Eq : forall q, q < d -> nsum g (fun i => val u (c + (q * g + i))) = nsum g (fun i => val (f 0) (c + i))).
  { intros q Hq. set (p := Nat.min q (m - 1)). assert (Hp : p < m) by (unfold p; lia). transitivity (nsum g (fun i => val (f p) (c + i))).
    - apply nsum_ext. intros i Hi. assert (Bd : q * g + i < L) by nia. rewrite (E (c + (q * g + i)) (off_sites k L c _ Hc Bd)), (pick_c c q i Hc Hq Hi). apply val_block; try assumption. apply Hf, Hp.
    - destruct (Hf p Hp) as [Up Sp]. destruct (Hf 0 ltac:(lia)) as [U0 S0]. rewrite (part_sum _ c Up Hc) in Sp. rewrite (part_sum _ c U0 Hc) in S0. rewrite <- S0 in Sp. apply N.mul_cancel_l in Sp; [exact Sp|]. lia. }
  rewrite (nsum_ext d _ (fun _ => nsum g (fun i => val (f 0) (c + i))) Eq), nsum_const. destruct (Hf 0 ltac:(lia)) as [U0 S0]. rewrite <- S0. symmetry. apply part_sum; assumption.
Qed.
Lemma mix_inj f f' u : is_mix f u -> is_mix f' u -> (forall i, i < m -> is_state k L (f i) /\ unchanged a (f i)) -> (forall i, i < m -> is_state k L (f' i) /\ unchanged a (f' i)) -> forall i, i < m -> f i = f' i.
Proof.
  intros (_ & E) (_ & E') Hf Hf' p Hp. destruct (Hf p Hp) as [S U], (Hf' p Hp) as [S' U']. apply (site_ext (levels k) HB (sites k L)); [exact S|exact S'|]. intros j Hj. destruct (two_cases k L j Hj) as (c & i & -> & Hi & Hc).
  assert (Ed : i = (i / g) * g + i mod g) by (pose proof (Nat.div_mod i g ltac:(lia)); lia). assert (Hq : i / g < d) by (apply Nat.div_lt_upper_bound; lia). assert (Hr : i mod g < g) by (apply Nat.mod_upper_bound; lia).
  rewrite Ed. rewrite !(val_block _ c (i / g) (i mod g)) by assumption. assert (Hpd : p < d) by lia.
  rewrite <- (val_block (f p) c p (i mod g) U Hc Hpd Hr), <- (val_block (f' p) c p (i mod g) U' Hc Hpd Hr).
  assert (Bd : p * g + i mod g < L) by nia. pose proof (E _ (off_sites k L c _ Hc Bd)) as E1. pose proof (E' _ (off_sites k L c _ Hc Bd)) as E2. rewrite (pick_c c p _ Hc Hpd Hr) in E1, E2. replace (Nat.min p (m - 1)) with p in E1, E2 by lia. congruence.
Qed.
End G.
End F.

(* ---------- counting ---------- *)
Lemma count_rel {A} (R : A -> N -> Prop) (l : list A) (S : list N) : NoDup l -> (forall a, In a l -> exists u, In u S /\ R a u) -> (forall a a' u, In a l -> In a' l -> R a u -> R a' u -> a = a') -> length l <= length S.
Proof.
  intros ND HR Inj. assert (K : exists us, length us = length l /\ NoDup us /\ incl us S /\ forall u, In u us -> exists a, In a l /\ R a u).
  { induction ND as [|a l Ha ND IH]; [exists []; repeat split; [constructor|intros u []|intros u []]|].
    destruct IH as (us & E & Nu & I & Hu); [intros x Hx; apply HR; right; exact Hx|intros x y u Hx Hy; apply Inj; right; assumption|].
    destruct (HR a (or_introl eq_refl)) as (u & Iu & Ru). exists (u :: us). split; [cbn; lia|]. split; [constructor; [|exact Nu]; intros H; destruct (Hu u H) as (a' & Ia & Ra); apply Ha; rewrite (Inj a a' u (or_introl eq_refl) (or_intror Ia) Ru Ra); exact Ia|].
    split; [intros x [<-|Hx]; [exact Iu|apply I, Hx]|]. intros x [<-|Hx]; [exists a; split; [left; reflexivity|exact Ru]|]. destruct (Hu x Hx) as (a' & ? & ?). exists a'. split; [right|]; assumption. }
  destruct K as (us & <- & Nu & I & _). apply NoDup_incl_length; assumption.
Qed.
Lemma nodup_app {X} (l1 l2 : list X) : NoDup l1 -> NoDup l2 -> (forall x, In x l1 -> ~ In x l2) -> NoDup (l1 ++ l2).
Proof. induction 1 as [|x l1 Hx N1 IH]; intros N2 D; [exact N2|]. cbn. constructor; [|apply IH; [exact N2|intros y Hy; apply D; right; exact Hy]]. intros H. apply in_app_iff in H. destruct H as [H|H]; [exact (Hx H)|exact (D x (or_introl eq_refl) H)]. Qed.
Lemma nodup_prod {A B} (l : list A) (m : list B) : NoDup l -> NoDup m -> NoDup (list_prod l m).
Proof.
  intros Nl Nm. induction Nl as [|a l Ha Nl IH]; [constructor|]. cbn [list_prod]. apply nodup_app; [|exact IH|].
  - apply FinFun.Injective_map_NoDup; [intros x y E; congruence|exact Nm].
  - intros [x y] H1 H2. apply in_map_iff in H1. destruct H1 as (z & E & _). injection E as <- _. apply in_prod_iff in H2. apply Ha, H2.
Qed.

Section R.
Variables (k : kind) (L : nat).
Hypothesis HL : 1 <= L.
Hypothesis HB : (2 <= levels k)%N.
(* the states of the chain, all of them or those with given sums x c over the two chains *)
Definition with_sums (x : option (nat -> N)) (s : N) : Prop := is_state k L s /\ match x with Some x => forall c, off k L c -> on_sites k L s (seq c L) = x c | None => True end.
Variables (x : option (nat -> N)) (S : list N).
Hypothesis HS : forall s, In s S <-> with_sums x s.
Section M.
Variables (T n r : nat).
Hypothesis HT : L = T * n.
Hypothesis Hr : 0 < r < n.
Notation a := (r * T).
Variable F : list N.
Hypothesis NF : NoDup F.
Hypothesis HF : forall s, In s F -> In s S /\ unchanged k L a s.
Lemma gcd_data : exists g d e, 1 <= g /\ L = g * d /\ a = g * e /\ (exists p q : Z, (p * Z.of_nat a + q * Z.of_nat L = Z.of_nat g)%Z) /\ 2 <= d /\ (2 * r <> n -> 3 <= d).
Proof.
  assert (T1 : 1 <= T) by nia. set (g := Nat.gcd a L). destruct (Nat.gcd_divide_l a L) as [e He], (Nat.gcd_divide_r a L) as [d Hd]. fold g in He, Hd. assert (G1 : 1 <= g) by (destruct g; lia).
  exists g, d, e. split; [exact G1|]. split; [lia|]. split; [lia|]. split.
  - destruct (Nat.gcd_bezout_pos a L) as (p & q & E); [nia|]. fold g in E. exists (Z.of_nat p), (- Z.of_nat q)%Z. lia.
  - assert (Lt : a < L) by nia. assert (Gt : 0 < a) by nia. assert (D : e < d) by nia. assert (E0 : 0 < e) by nia. split; [lia|]. intros N2. destruct (Nat.eq_dec d 2) as [D2|]; [|lia]. exfalso. apply N2. assert (e = 1) by lia. subst e d. assert (2 * a = L) by lia. assert (2 * r * T = n * T) by lia. nia.
Qed.
Lemma root_bound : length F * length F <= length S /\ (2 * r <> n -> length F * length F * length F <= length S).
Proof.
  destruct gcd_data as (g & d & e & G1 & EL & Ea & Bz & D2 & D3).
  assert (Core : forall m f u, 1 <= m <= d -> (forall i, i < m -> In (f i) F) -> is_mix k L g m f u -> In u S).
  { intros m f u Hm Hf Mx. apply HS. split; [exact (proj1 Mx)|]. destruct x as [x0|] eqn:Ex; [|exact I]. intros c Hc. apply (mix_sum k L HL HB a g d e G1 EL Ea Bz m Hm f u c (x0 c) Mx); [|exact Hc].
    intros i Hi. destruct (HF (f i) (Hf i Hi)) as [I1 U1]. split; [exact U1|]. apply HS in I1. apply I1, Hc. }
  assert (Good : forall m f, (forall i, i < m -> In (f i) F) -> forall i, i < m -> is_state k L (f i) /\ unchanged k L a (f i)).
  { intros m f Hf i Hi. destruct (HF (f i) (Hf i Hi)) as [I1 U1]. apply HS in I1. split; [apply I1|exact U1]. }
  split.
  - rewrite <- prod_length. apply (count_rel (fun p u => is_mix k L g 2 (fun i => if i =? 0 then fst p else snd p) u)); [apply nodup_prod; assumption| |].
    + intros [s t] H. apply in_prod_iff in H. destruct (mix_ex k L HB g 2 (fun i => if i =? 0 then s else t)) as (u & Hu). exists u. split; [|exact Hu]. apply (Core 2 (fun i => if i =? 0 then s else t) u); [lia| |exact Hu]. intros i _. destruct (i =? 0); apply H.
    + intros [s t] [s' t'] u H H' M M'. apply in_prod_iff in H. apply in_prod_iff in H'. cbn [fst snd] in M, M'.
      assert (Q : forall i, i < 2 -> (if i =? 0 then s else t) = (if i =? 0 then s' else t')).
      { apply (mix_inj k L HL HB a g d e G1 EL Ea Bz 2 ltac:(lia) (fun i => if i =? 0 then s else t) (fun i => if i =? 0 then s' else t') u M M'); apply Good; intros i _; destruct (i =? 0); (apply H || apply H'). }
      f_equal; [exact (Q 0 ltac:(lia))|exact (Q 1 ltac:(lia))].
  - intros N2. specialize (D3 N2). rewrite <- !prod_length. apply (count_rel (fun p u => is_mix k L g 3 (fun i => if i =? 0 then fst (fst p) else if i =? 1 then snd (fst p) else snd p) u)); [repeat apply nodup_prod; assumption| |].
    + intros [[s t] v] H. apply in_prod_iff in H. destruct H as [H Hv]. apply in_prod_iff in H. destruct (mix_ex k L HB g 3 (fun i => if i =? 0 then s else if i =? 1 then t else v)) as (u & Hu). exists u. split; [|exact Hu]. apply (Core 3 (fun i => if i =? 0 then s else if i =? 1 then t else v) u); [lia| |exact Hu]. intros i _. destruct (i =? 0), (i =? 1); (apply H || apply Hv).
    + intros [[s t] v] [[s' t'] v'] u H H' M M'. apply in_prod_iff in H. destruct H as [H Hv]. apply in_prod_iff in H. apply in_prod_iff in H'. destruct H' as [H' Hv']. apply in_prod_iff in H'. cbn [fst snd] in M, M'.
      assert (Q : forall i, i < 3 -> (if i =? 0 then s else if i =? 1 then t else v) = (if i =? 0 then s' else if i =? 1 then t' else v')).
      { apply (mix_inj k L HL HB a g d e G1 EL Ea Bz 3 ltac:(lia) (fun i => if i =? 0 then s else if i =? 1 then t else v) (fun i => if i =? 0 then s' else if i =? 1 then t' else v') u M M'); apply Good; intros i _; destruct (i =? 0), (i =? 1); (apply H || apply H' || apply Hv || apply Hv'). }
      f_equal; [f_equal; [exact (Q 0 ltac:(lia))|exact (Q 1 ltac:(lia))]|exact (Q 2 ltac:(lia))].
Qed.
End M.
End R.

(* ---------- the translations move the sites around the ring ---------- *)
Section T.
Variables (w : btype) (k : kind) (L T : nat).
Hypothesis SF : states_fit w k L.
Hypothesis LK : lok w k L T LT.
Lemma one_T s c z : is_state k L s -> off k L c -> ring k L (sto w k L T [LT] s) c (z + Z.of_nat T) = ring k L s c z.
Proof.
  intros Hs Hc. pose proof (HL1 w k L SF) as HL. destruct (lgood w k L T SF LT LK) as (Ac & _ & _). destruct (Ac s 1%Z Hs) as (t & (Ht & Mv) & E). unfold sto. cbn [map]. rewrite run_cons, E. cbn [run_ops fold_left]. unfold run_ops. cbn [fold_left].
  unfold ring. set (i := Z.to_nat (z mod Z.of_nat L)). assert (Bi : (0 <= z mod Z.of_nat L < Z.of_nat L)%Z) by (apply Z.mod_pos_bound; lia). assert (Hi : i < L) by (unfold i; lia).
  pose proof (step_shift k L (- Z.of_nat T) c i false HL Hi Hc) as St. unfold step in St. cbn [fst snd] in St. injection St as St1 St2. specialize (Mv (c + i) (off_sites k L c i Hc Hi)). cbn [lmap] in Mv. rewrite St1 in Mv. destruct (flips (nth (c + i) (shift_map k L (- Z.of_nat T)) 0%Z)); [discriminate St2|]. rewrite <- Mv. f_equal. f_equal. unfold sh, i. rewrite Z2Nat.id by lia. f_equal. rewrite Zminus_mod_idemp_l. f_equal. lia.
Qed.
Lemma rep_lok i : Forall (lok w k L T) (repeat LT i). Proof. apply Forall_forall. intros l Hl. apply repeat_spec in Hl. subst. exact LK. Qed.
Lemma rep_T i s c z : is_state k L s -> off k L c -> ring k L (sto w k L T (repeat LT i) s) c (z + Z.of_nat (i * T)) = ring k L s c z.
Proof.
  intros Hs Hc. revert z. induction i as [|i IH]; intros z; [cbn; f_equal; lia|]. replace (S i) with (i + 1) at 1 by lia. rewrite repeat_app. destruct (sto_app w k L T SF (repeat LT i) (repeat LT 1) s (rep_lok i) (rep_lok 1) Hs) as [-> _]. rewrite <- (IH z), <- (one_T (sto w k L T (repeat LT i) s) c (z + Z.of_nat (i * T)) (sto_lt w k L T SF _ s (rep_lok i) Hs) Hc). cbn [repeat]. f_equal. lia.
Qed.
Lemma fixed_unchanged i s : is_state k L s -> sto w k L T (repeat LT i) s = s -> unchanged k L (i * T) s.
Proof. intros Hs E c z Hc. rewrite <- (rep_T i s c z Hs Hc), E. reflexivity. Qed.
End T.
