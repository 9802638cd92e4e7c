(* The bit operations of the one-dimensional bases act as site maps. *)
From Verif Require Import AuxN SpecC SpecBits SpecDigits SpecMaps SpecSymm SpecOps SpecFermi SpecChain SpecProj M_bitcount M_benes M_maps M_fmap M_bits1d P_next P_boson P_bitcount P_maps P_period P_fermion P_fmap P_fmap2 P_fmap3 P_fmap4.
Local Open Scope nat_scope.

(* ---- site maps ---- *)
Lemma nth_ms {X} (f : nat -> X) n j d : j < n -> nth j (map f (seq 0 n)) d = f j.
Proof. intros H. rewrite (nth_indep _ d (f 0)) by (rewrite map_length, seq_length; exact H). rewrite map_nth, seq_nth by exact H. reflexivity. Qed.
Lemma perm_of_targets n m : length m = n -> (forall j, j < n -> target (nth j m 0%Z) < n) ->
  (forall i j, i < n -> j < n -> target (nth i m 0%Z) = target (nth j m 0%Z) -> i = j) -> signed_perm n m.
Proof.
  intros Ln R I. unfold signed_perm. replace (map target m) with (map (fun j => target (nth j m 0%Z)) (seq 0 n)).
  2:{ apply (nth_ext _ _ 0 (target 0%Z)); [rewrite !map_length, seq_length; lia|]. intros j Hj. rewrite map_length, seq_length in Hj. rewrite nth_ms by exact Hj. symmetry. apply map_nth. }
  apply NoDup_Permutation_bis.
  - apply NoDup_map_in; [|apply seq_NoDup]. intros i j Hi Hj. apply in_seq in Hi, Hj. apply I; lia.
  - rewrite map_length. reflexivity.
  - intros z Hz. apply in_map_iff in Hz. destruct Hz as (j & <- & Hj). apply in_seq in Hj. apply in_seq. split; [lia|]. apply R. lia.
Qed.
Lemma target_nat k : target (Z.of_nat k) = k.
Proof. unfold target. destruct (Z.ltb_spec (Z.of_nat k) 0); lia. Qed.
Lemma target_inv k : target (- Z.of_nat k - 1) = k.
Proof. unfold target. destruct (Z.ltb_spec (- Z.of_nat k - 1) 0); lia. Qed.
Lemma flips_nat k : flips (Z.of_nat k) = false. Proof. unfold flips. lia. Qed.
Lemma flips_inv k : flips (- Z.of_nat k - 1) = true. Proof. unfold flips. lia. Qed.

(* the rotation with p = x mod L *)
Definition rot (L p j : nat) : nat := if j <? p then j + L - p else j - p.
Lemma shift_nth L x p j : (x mod Z.of_nat L = Z.of_nat p)%Z -> j < L -> nth j (chain_shift L x) 0%Z = Z.of_nat (rot L p j).
Proof.
  intros Hp Hj. unfold chain_shift. rewrite nth_ms by exact Hj. assert (p < L) by (pose proof (Z.mod_pos_bound x (Z.of_nat L)); lia).
  pose proof (Z.div_mod x (Z.of_nat L) ltac:(lia)) as D. unfold rot. destruct (Nat.ltb_spec j p).
  - symmetry. apply (Zmod_unique _ _ (- (x / Z.of_nat L) - 1)); [lia|]. rewrite D at 1. rewrite Hp. nia.
  - symmetry. apply (Zmod_unique _ _ (- (x / Z.of_nat L))); [lia|]. rewrite D at 1. rewrite Hp. nia.
Qed.
Lemma shift_len L x : length (chain_shift L x) = L. Proof. unfold chain_shift. rewrite map_length, seq_length. reflexivity. Qed.
Lemma mod_nat L x : 1 <= L -> exists p, p < L /\ (x mod Z.of_nat L = Z.of_nat p)%Z.
Proof. intros H. pose proof (Z.mod_pos_bound x (Z.of_nat L) ltac:(lia)). exists (Z.to_nat (x mod Z.of_nat L)). lia. Qed.
Lemma rot_lt L p j : p < L -> j < L -> rot L p j < L. Proof. unfold rot. destruct (Nat.ltb_spec j p); lia. Qed.
Lemma rot_inj L p i j : p < L -> i < L -> j < L -> rot L p i = rot L p j -> i = j. Proof. unfold rot. destruct (Nat.ltb_spec i p), (Nat.ltb_spec j p); lia. Qed.
Lemma shift_perm L x : 1 <= L -> signed_perm L (chain_shift L x).
Proof.
  intros H. destruct (mod_nat L x H) as (p & Hp & E). apply perm_of_targets; [apply shift_len| |].
  - intros j Hj. rewrite (shift_nth L x p j E Hj), target_nat. apply rot_lt; assumption.
  - intros i j Hi Hj. rewrite (shift_nth L x p i E Hi), (shift_nth L x p j E Hj), !target_nat. apply rot_inj; assumption.
Qed.
Lemma flip_nth L j : j < L -> nth j (chain_flip L) 0%Z = Z.of_nat (L - 1 - j). Proof. intros H. unfold chain_flip. rewrite nth_ms by exact H. reflexivity. Qed.
Lemma flip_perm L : signed_perm L (chain_flip L).
Proof.
  apply perm_of_targets; [unfold chain_flip; rewrite map_length, seq_length; reflexivity| |].
  - intros j Hj. rewrite flip_nth, target_nat by exact Hj. lia.
  - intros i j Hi Hj. rewrite !flip_nth, !target_nat by assumption. lia.
Qed.
Lemma inv_nth L p j : j < L -> nth j (chain_inv L p) 0%Z = if p j then (- Z.of_nat j - 1)%Z else Z.of_nat j.
Proof. intros H. unfold chain_inv. rewrite nth_ms by exact H. reflexivity. Qed.
Lemma inv_target L p j : j < L -> target (nth j (chain_inv L p) 0%Z) = j.
Proof. intros H. rewrite inv_nth by exact H. destruct (p j); [apply target_inv|apply target_nat]. Qed.
Lemma inv_flips L p j : j < L -> flips (nth j (chain_inv L p) 0%Z) = p j.
Proof. intros H. rewrite inv_nth by exact H. destruct (p j); [apply flips_inv|apply flips_nat]. Qed.
Lemma inv_perm L p : signed_perm L (chain_inv L p).
Proof.
  apply perm_of_targets; [unfold chain_inv; rewrite map_length, seq_length; reflexivity| |].
  - intros j Hj. rewrite inv_target by exact Hj. exact Hj.
  - intros i j Hi Hj. rewrite !inv_target by assumption. auto.
Qed.
Lemma both_nth L m j : length m = L -> j < 2 * L -> nth j (both_species L m) 0%Z = if j <? L then nth j m 0%Z else (nth (j - L) m 0 + Z.of_nat L)%Z.
Proof.
  intros Hl Hj. unfold both_species. destruct (Nat.ltb_spec j L); [apply app_nth1; lia|]. rewrite app_nth2 by lia. rewrite Hl.
  rewrite (nth_indep _ 0%Z (0 + Z.of_nat L)%Z) by (rewrite map_length; lia). apply (map_nth (fun z => (z + Z.of_nat L)%Z)).
Qed.
Lemma exch_nth L j : j < 2 * L -> nth j (swap_species L) 0%Z = Z.of_nat (rot (2 * L) L j).
Proof.
  intros H. unfold swap_species. rewrite nth_ms by exact H. f_equal. unfold rot. destruct (Nat.ltb_spec j L).
  - rewrite Nat.mod_small by lia. lia.
  - replace (j + L) with (j - L + 1 * (2 * L)) by lia. rewrite Nat.mod_add by lia. apply Nat.mod_small. lia.
Qed.
Lemma exch_perm L : signed_perm (2 * L) (swap_species L).
Proof.
  apply perm_of_targets; [unfold swap_species; rewrite map_length, seq_length; reflexivity| |].
  - intros j Hj. rewrite exch_nth, target_nat by exact Hj. apply rot_lt; lia.
  - intros i j Hi Hj. rewrite !exch_nth, !target_nat by assumption. apply rot_inj; lia.
Qed.
Lemma no_inv_nth n m : length m = n -> (forall j, j < n -> flips (nth j m 0%Z) = false) -> no_inversion m.
Proof. intros Ln H z Hz. apply (In_nth _ _ 0%Z) in Hz. destruct Hz as (j & Hj & <-). apply H. lia. Qed.
Lemma shift_no L x : 1 <= L -> no_inversion (chain_shift L x).
Proof. intros H. destruct (mod_nat L x H) as (p & _ & E). apply (no_inv_nth L); [apply shift_len|]. intros j Hj. rewrite (shift_nth L x p j E Hj). apply flips_nat. Qed.
Lemma flip_no L : no_inversion (chain_flip L).
Proof. apply (no_inv_nth L); [unfold chain_flip; rewrite map_length, seq_length; reflexivity|]. intros j Hj. rewrite flip_nth by exact Hj. apply flips_nat. Qed.
Lemma exch_no L : no_inversion (swap_species L).
Proof. apply (no_inv_nth (2 * L)); [unfold swap_species; rewrite map_length, seq_length; reflexivity|]. intros j Hj. rewrite exch_nth by exact Hj. apply flips_nat. Qed.
Lemma both_no L m : no_inversion m -> no_inversion (both_species L m).
Proof.
  intros H z Hz. unfold both_species in Hz. apply in_app_or in Hz. destruct Hz as [Hz|Hz]; [apply H, Hz|]. apply in_map_iff in Hz. destruct Hz as (y & <- & Hy). specialize (H y Hy). unfold flips in *. lia.
Qed.
Lemma both_target L m j : length m = L -> no_inversion m -> j < 2 * L -> target (nth j (both_species L m) 0%Z) = if j <? L then target (nth j m 0%Z) else target (nth (j - L) m 0%Z) + L.
Proof.
  intros Hl NI Hj. rewrite both_nth by assumption. destruct (Nat.ltb_spec j L); [reflexivity|]. assert (F : flips (nth (j - L) m 0%Z) = false) by (apply NI, nth_In; lia).
  unfold flips in F. unfold target. destruct (Z.ltb_spec (nth (j - L) m 0%Z) 0); [lia|]. destruct (Z.ltb_spec (nth (j - L) m 0%Z + Z.of_nat L) 0); lia.
Qed.
Lemma both_perm L m : signed_perm L m -> no_inversion m -> signed_perm (2 * L) (both_species L m).
Proof.
  intros P NI. pose proof (signed_perm_length L m P) as Ln. apply perm_of_targets; [unfold both_species; rewrite app_length, map_length; lia| |].
  - intros j Hj. rewrite both_target by assumption. destruct (Nat.ltb_spec j L) as [H|H]; [pose proof (signed_perm_lt L m j P H); lia|]. pose proof (signed_perm_lt L m (j - L) P ltac:(lia)). lia.
  - intros i j Hi Hj. rewrite !both_target by assumption. destruct (Nat.ltb_spec i L) as [H|H], (Nat.ltb_spec j L) as [H'|H']; intros E.
    + apply (nth_perm_inj L m); assumption.
    + pose proof (signed_perm_lt L m i P H). lia.
    + pose proof (signed_perm_lt L m j P H'). lia.
    + assert (i - L = j - L) by (apply (nth_perm_inj L m); [exact P|lia|lia|lia]). lia.
Qed.

(* ---- parity of crossings ---- *)
Definition cpar (n : nat) (tg : nat -> nat) (o : nat -> bool) : bool :=
  bsum (seq 0 n) (fun k => o k && bsum (seq 0 n) (fun l => (l <? k) && (o l && (tg k <? tg l))))%bool.
Lemma cpar_crossings n m s : no_inversion m -> neg_one_pow (crossings n m s) = zs (cpar n (fun k => target (nth k m 0%Z)) (occ n s)).
Proof.
  intros NI. pose proof (sgnb_spec n m s) as E. assert (O : odd_inverted n m s = 0).
  { unfold odd_inverted. replace (filter _ (seq 0 n)) with (@nil nat); [reflexivity|]. symmetry. induction (seq 0 n) as [|k l IH]; [reflexivity|]. cbn [filter]. rewrite (fl_no m NI k). exact IH. }
  rewrite O, Nat.add_0_r in E. unfold neg_one_pow. rewrite <- E. unfold sgnb. rewrite bsum_false; [rewrite xorb_false_l; reflexivity|]. intros k _. rewrite (fl_no m NI k), andb_false_r. reflexivity.
Qed.
Lemma bsum_rev n f : bsum (seq 0 n) f = bsum (seq 0 n) (fun k => f (n - 1 - k)).
Proof. rewrite <- (bsum_map (fun k => n - 1 - k) (seq 0 n) f). apply bsum_perm, Permutation_sym, rev_perm_seq. Qed.
Lemma bsum_andr {X} (l : list X) b f : bsum l (fun x => f x && b)%bool = (bsum l f && b)%bool.
Proof. rewrite andb_comm, <- bsum_andl. apply bsum_ext. intros. apply andb_comm. Qed.
Lemma bsum_split p n f : p <= n -> bsum (seq 0 n) f = xorb (bsum (seq 0 p) f) (bsum (seq 0 (n - p)) (fun k => f (p + k))).
Proof.
  intros H. replace n with (p + (n - p)) at 1 by lia. rewrite seq_app, bsum_app. f_equal. replace (seq (0 + p) (n - p)) with (map (fun k => p + k) (seq 0 (n - p))); [apply bsum_map|].
  clear. generalize (n - p) as q. intros q. rewrite Nat.add_0_l. induction q as [|q IH]; [reflexivity|]. rewrite !seq_S, map_app, IH. cbn [map]. rewrite Nat.add_0_l. reflexivity.
Qed.
Lemma cpar_ext n tg tg' o o' : (forall k, k < n -> tg k = tg' k) -> (forall k, k < n -> o k = o' k) -> cpar n tg o = cpar n tg' o'.
Proof.
  intros H H'. unfold cpar. apply bsum_ext. intros k Hk. apply in_seq in Hk. rewrite H' by lia. f_equal. apply bsum_ext. intros l Hl. apply in_seq in Hl. rewrite H', !H by lia. reflexivity.
Qed.
Lemma cpar_rot n p o : p <= n -> cpar n (rot n p) o = (bsum (seq 0 p) o && bsum (seq 0 (n - p)) (fun k => o (p + k)))%bool.
Proof.
  intros H. unfold cpar.
  transitivity (bsum (seq 0 n) (fun k => (negb (k <? p) && o k) && bsum (seq 0 n) (fun l => (l <? p) && o l)))%bool.
  { apply bsum_ext. intros k Hk. apply in_seq in Hk. rewrite (andb_comm (negb _) (o k)), <- andb_assoc. f_equal. rewrite <- bsum_andl. apply bsum_ext. intros l Hl. apply in_seq in Hl. unfold rot.
    destruct (o l); rewrite ?andb_true_r, ?andb_true_l, ?andb_false_r; [|reflexivity].
    destruct (Nat.ltb_spec k p), (Nat.ltb_spec l p), (Nat.ltb_spec l k); cbn [negb andb]; try reflexivity;
      match goal with |- context [?a <? ?b] => destruct (Nat.ltb_spec a b) | _ => idtac end; first [reflexivity|lia]. }
  rewrite bsum_andr, andb_comm. f_equal.
  - rewrite (bsum_seq_ltb p n o H). reflexivity.
  - rewrite (bsum_split p n _ H). rewrite bsum_false, xorb_false_l.
    + apply bsum_ext. intros k _. destruct (Nat.ltb_spec (p + k) p); [lia|reflexivity].
    + intros k Hk. apply in_seq in Hk. destruct (Nat.ltb_spec k p); [reflexivity|lia].
Qed.
Lemma cpar_rev n : forall o, cpar n (fun k => n - 1 - k) o = Nat.testbit (count_upto o n) 1.
Proof.
  intros o. transitivity (bsum (seq 0 n) (fun k => o k && bsum (seq 0 k) o)%bool).
  { unfold cpar. apply bsum_ext. intros k Hk. apply in_seq in Hk. f_equal. rewrite (bsum_seq_ltb k n o) by lia. apply bsum_ext. intros l Hl. apply in_seq in Hl.
    destruct (Nat.ltb_spec l k); [|reflexivity]. destruct (Nat.ltb_spec (n - 1 - k) (n - 1 - l)); [|lia]. rewrite andb_true_r. reflexivity. }
  assert (P : forall k, Nat.odd (count_upto o k) = bsum (seq 0 k) o).
  { induction k as [|k IH]; [reflexivity|]. rewrite bsum_seqS, <- IH. cbn [count_upto]. rewrite Nat.odd_add. destruct (o k), (Nat.odd (count_upto o k)); reflexivity. }
  induction n as [|n IH]; [reflexivity|]. rewrite bsum_seqS, IH, <- P. cbn [count_upto]. generalize (count_upto o n) as c. intros c.
  destruct (o n); cbn [andb Nat.b2n]; [|rewrite xorb_false_r, Nat.add_0_l; reflexivity].
  assert (T : forall a, Nat.testbit a 1 = Nat.odd (a / 2)) by (intros a; rewrite <- Nat.div2_div; reflexivity).
  rewrite !T. destruct (Nat.Even_or_Odd c) as [[q ->]|[q ->]].
  - replace (Nat.odd (2 * q)) with false by (rewrite Nat.odd_mul; reflexivity). rewrite xorb_false_r. f_equal. replace (1 + 2 * q) with (1 + q * 2) by lia. rewrite Nat.div_add, (Nat.mul_comm 2 q), Nat.div_mul by lia. reflexivity.
  - replace (Nat.odd (2 * q + 1)) with true by (rewrite Nat.odd_add, Nat.odd_mul; reflexivity). replace (2 * q + 1) with (1 + q * 2) by lia. rewrite Nat.div_add by lia. replace (1 + (1 + q * 2)) with (0 + (q + 1) * 2) by lia. rewrite Nat.div_add by lia.
    change (1 / 2) with 0. change (0 / 2) with 0. rewrite !Nat.add_0_l, Nat.odd_add. destruct (Nat.odd q); reflexivity.
Qed.
Lemma cpar_both L tg o : (forall k, k < L -> tg k < L) ->
  cpar (2 * L) (fun k => if k <? L then tg k else tg (k - L) + L) o = xorb (cpar L tg o) (cpar L tg (fun k => o (L + k))).
Proof.
  intros T. unfold cpar at 1. rewrite (bsum_split L (2 * L) _ ltac:(lia)). replace (2 * L - L) with L by lia. f_equal.
  - unfold cpar. apply bsum_ext. intros k Hk. apply in_seq in Hk. f_equal. rewrite (bsum_split L (2 * L) _ ltac:(lia)). replace (2 * L - L) with L by lia.
    match goal with |- xorb ?a ?b = _ => assert (Z : b = false) end; [apply bsum_false|rewrite Z, xorb_false_r].
    + intros l Hl. destruct (Nat.ltb_spec (L + l) k); [lia|reflexivity].
    + apply bsum_ext. intros l Hl. apply in_seq in Hl. destruct (Nat.ltb_spec k L), (Nat.ltb_spec l L); try lia; reflexivity.
  - unfold cpar. apply bsum_ext. intros k Hk. apply in_seq in Hk. f_equal. rewrite (bsum_split L (2 * L) _ ltac:(lia)). replace (2 * L - L) with L by lia. rewrite (bsum_false (seq 0 L)).
    + rewrite xorb_false_l. apply bsum_ext. intros l Hl. apply in_seq in Hl. destruct (Nat.ltb_spec (L + k) L), (Nat.ltb_spec (L + l) L); try (exfalso; lia). replace (L + k - L) with k by lia. replace (L + l - L) with l by lia.
      destruct (Nat.ltb_spec (L + l) (L + k)), (Nat.ltb_spec l k); try (exfalso; lia); try reflexivity; destruct (Nat.ltb_spec (tg k + L) (tg l + L)), (Nat.ltb_spec (tg k) (tg l)); first [exfalso; lia|reflexivity].
    + intros l Hl. apply in_seq in Hl. destruct (Nat.ltb_spec (L + k) L), (Nat.ltb_spec l L); try (exfalso; lia). pose proof (T l ltac:(lia)). destruct (Nat.ltb_spec (tg (L + k - L) + L) (tg l)); [lia|]. rewrite !andb_false_r. reflexivity.
Qed.
