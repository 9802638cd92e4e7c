(* Conversions between python integers, fixed-width integers and printed states. *)
From Verif Require Import AuxN SpecDigits SpecMaps M_conv.
Local Open Scope N_scope.

Lemma size_shift v : v <> 0 -> N.size v = N.size (N.shiftr v 1) + 1.
Proof. intros H. destruct v as [|p]; [contradiction|]. destruct p; cbn; rewrite ?Pos.add_1_r; reflexivity. Qed.
Lemma size_le v w : N.size v <= w <-> v < 2 ^ w.
Proof.
  destruct (N.eq_dec v 0) as [-> |H]; [split; intros; [apply N.neq_0_lt_0, N.pow_nonzero; lia|cbn; lia]|]. rewrite N.size_log2 by exact H. rewrite N.le_succ_l. symmetry. apply N.log2_lt_pow2. lia.
Qed.
Lemma nbits_ok fuel : forall v nb, (N.to_nat (N.size v) <= fuel)%nat -> nbits_loop fuel v nb = Some (nb + N.size v).
Proof.
  induction fuel as [|f IH]; intros v nb Hf; cbn [nbits_loop]; destruct (N.eqb_spec v 0) as [-> |H]; try (cbn [N.size]; rewrite N.add_0_r; reflexivity).
  - rewrite (size_shift v H) in Hf. lia.
  - rewrite IH by (rewrite (size_shift v H) in Hf; lia). rewrite (size_shift v H). f_equal. lia.
Qed.
Lemma land1_testbit v : N.land v 1 = N.b2n (N.testbit v 0).
Proof. change 1 with (N.ones 1). rewrite N.land_ones. change (2 ^ 1) with 2. rewrite N.bit0_mod. reflexivity. Qed.
Lemma split_bit v i : N.shiftl v i = N.lxor (N.shiftl (N.land v 1) i) (N.shiftl (N.shiftr v 1) (i + 1)).
Proof.
  apply N_bits_ext. intros j. rewrite N.lxor_spec. destruct (N.lt_ge_cases j i) as [L|L].
  - rewrite !N.shiftl_spec_low by lia. reflexivity.
  - rewrite !N.shiftl_spec_high' by lia. destruct (N.eq_dec j i) as [-> |D].
    + rewrite N.sub_diag. rewrite (N.shiftl_spec_low _ (i + 1) i) by lia. rewrite land1_testbit. destruct (N.testbit v 0); reflexivity.
    + rewrite N.shiftl_spec_high' by lia. rewrite N.shiftr_spec'. replace (j - (i + 1) + 1) with (j - i) by lia.
      rewrite land1_testbit. replace (N.testbit (N.b2n (N.testbit v 0)) (j - i)) with false; [rewrite xorb_false_l; reflexivity|].
      symmetry. apply (testbit_small _ 1); [destruct (N.testbit v 0); cbn; lia|lia].
Qed.
Lemma mod_lxor a b w : N.lxor a b mod 2 ^ w = N.lxor (a mod 2 ^ w) (b mod 2 ^ w).
Proof.
  apply N_bits_ext. intros j. rewrite N.lxor_spec. destruct (N.lt_ge_cases j w) as [L|L]; [rewrite !N.mod_pow2_bits_low by exact L; apply N.lxor_spec|rewrite !N.mod_pow2_bits_high by exact L; reflexivity].
Qed.
Lemma to_basis_ok w fuel : forall v i val, (N.to_nat (N.size v) <= fuel)%nat -> to_basis_loop w fuel v i val = Some (N.lxor val (N.shiftl v i mod 2 ^ w)).
Proof.
  induction fuel as [|f IH]; intros v i val Hf; cbn [to_basis_loop]; destruct (N.eqb_spec v 0) as [-> |H];
    try (rewrite N.shiftl_0_l, N.mod_0_l by (apply N.pow_nonzero; lia); rewrite N.lxor_0_r; reflexivity).
  - rewrite (size_shift v H) in Hf. lia.
  - rewrite IH by (rewrite (size_shift v H) in Hf; lia). rewrite N.lxor_assoc, <- mod_lxor, <- split_bit. reflexivity.
Qed.
Lemma python_to_basis_ok w fuel v : (N.to_nat (N.size v) <= fuel)%nat -> python_to_basis w fuel v = Some (v mod 2 ^ w).
Proof. intros H. unfold python_to_basis. rewrite to_basis_ok by exact H. rewrite N.lxor_0_l, N.shiftl_0_r. reflexivity. Qed.
Lemma to_python_ok fuel : forall v i acc, (N.to_nat (N.size v) <= fuel)%nat -> to_python_loop fuel v i acc = Some (N.lxor acc (N.shiftl v i)).
Proof.
  induction fuel as [|f IH]; intros v i acc Hf; cbn [to_python_loop]; destruct (N.eqb_spec v 0) as [-> |H]; try (rewrite N.shiftl_0_l, N.lxor_0_r; reflexivity).
  - rewrite (size_shift v H) in Hf. lia.
  - rewrite IH by (rewrite (size_shift v H) in Hf; lia). rewrite N.lxor_assoc, <- split_bit. reflexivity.
Qed.
Lemma basis_to_python_ok fuel v : (N.to_nat (N.size v) <= fuel)%nat -> basis_to_python fuel v = Some v.
Proof. intros H. unfold basis_to_python. rewrite to_python_ok by exact H. rewrite N.lxor_0_l, N.shiftl_0_r. reflexivity. Qed.
Lemma int_to_basis_width fuel v w : (0 <= v)%Z -> (N.to_nat (N.size (Z.to_N v)) <= fuel)%nat -> known w = true ->
  python_int_to_basis_int fuel v (Some (U w)) = if Z.to_N v <? 2 ^ w then Cok (U w) (Z.to_N v) else C_value_error.
Proof.
  intros Hv Hf K. unfold python_int_to_basis_int. rewrite (proj2 (Z.ltb_ge _ _)) by exact Hv. rewrite nbits_ok by exact Hf. rewrite N.add_0_l, K. rewrite python_to_basis_ok by exact Hf.
  destruct (N.ltb_spec (Z.to_N v) (2 ^ w)) as [L|L].
  - rewrite (proj2 (N.ltb_ge _ _)) by (apply size_le; exact L). rewrite N.mod_small by exact L. reflexivity.
  - rewrite (proj2 (N.ltb_lt _ _)); [reflexivity|]. apply N.nle_gt. rewrite size_le. lia.
Qed.
Definition widths : list N := [32; 64; 256; 1024; 4096; 16384].
Lemma known_in w : known w = true <-> In w widths.
Proof. unfold known, widths. rewrite !orb_true_iff, !N.eqb_eq. cbn. intuition. Qed.
Lemma smallest_spec nb : match smallest nb with U w => In w widths /\ nb <= w /\ (forall w', In w' widths -> nb <= w' -> w <= w') | Obj => forall w', In w' widths -> w' < nb end.
Proof.
  unfold smallest. repeat match goal with |- context [?a <=? ?b] => destruct (N.leb_spec a b) end; unfold widths; cbn [In];
  try (split; [tauto|split; [assumption|intros w' I Hw; repeat (destruct I as [<- |I]; [lia|]); contradiction]]).
  intros w' I. repeat (destruct I as [<- |I]; [lia|]). contradiction.
Qed.
Lemma int_to_basis_default fuel v : (0 <= v)%Z -> (N.to_nat (N.size (Z.to_N v)) <= fuel)%nat ->
  exists d, python_int_to_basis_int fuel v None = Cok d (Z.to_N v) /\
  match d with U w => In w widths /\ Z.to_N v < 2 ^ w /\ (forall w', In w' widths -> Z.to_N v < 2 ^ w' -> w <= w') | Obj => forall w', In w' widths -> 2 ^ w' <= Z.to_N v end.
Proof.
  intros Hv Hf. pose proof (smallest_spec (N.size (Z.to_N v))) as S. exists (smallest (N.size (Z.to_N v))). split.
  - unfold python_int_to_basis_int. rewrite (proj2 (Z.ltb_ge _ _)) by exact Hv. rewrite nbits_ok by exact Hf. rewrite N.add_0_l. destruct (smallest (N.size (Z.to_N v))) as [w|]; [|reflexivity].
    destruct S as (I & L & _). rewrite (proj2 (known_in w) I). rewrite (proj2 (N.ltb_ge _ _)) by exact L. rewrite python_to_basis_ok by exact Hf. rewrite N.mod_small by (apply size_le; exact L). reflexivity.
  - destruct (smallest (N.size (Z.to_N v))) as [w|].
    + destruct S as (I & L & M). split; [exact I|]. split; [apply size_le; exact L|]. intros w' I' H'. apply M; [exact I'|apply size_le; exact H'].
    + intros w' I'. specialize (S w' I'). apply N.nlt_ge. rewrite <- size_le. lia.
Qed.
Lemma search_spec v basis : forall i, match search_array basis v i with Some k => (i <= k)%nat /\ nth_error basis (k - i) = Some v /\ forall j, (j < k - i)%nat -> nth_error basis j <> Some v | None => ~ In v basis end.
Proof.
  induction basis as [|b basis IH]; intros i; cbn [search_array]; [auto|]. destruct (N.eqb_spec b v) as [-> |D].
  - split; [lia|]. rewrite Nat.sub_diag. split; [reflexivity|]. intros j Hj. lia.
  - specialize (IH (S i)). destruct (search_array basis v (S i)) as [k|].
    + destruct IH as (L & E & F). split; [lia|]. replace (k - i)%nat with (S (k - S i)) by lia. split; [exact E|]. intros [|j] Hj; cbn; [congruence|apply F; lia].
    + intros [F|F]; [congruence|contradiction].
Qed.

(* ---- strings ---- *)
Definition nsp (c : ch) : bool := match c with Sp => false | _ => true end.
Lemma filter_join l : filter nsp (join [Sp] l) = concat (map (filter nsp) l).
Proof.
  induction l as [|x l IH]; [reflexivity|]. cbn [map concat join]. destruct l as [|y l]; [cbn; rewrite app_nil_r; reflexivity|]. rewrite !filter_app, IH. reflexivity.
Qed.
Lemma filter_Dg l : filter nsp (map Dg l) = map Dg l. Proof. induction l; [reflexivity|]. cbn. rewrite IHl. reflexivity. Qed.
Lemma filter_format n v : filter nsp (format_d n v) = map Dg (decimal v).
Proof.
  unfold format_d. cbv zeta. rewrite filter_app, filter_Dg. assert (E : forall k, filter nsp (repeat Sp k) = []) by (intros k; induction k; [reflexivity|exact IHk]). rewrite E. reflexivity.
Qed.
Lemma decimal_small v : v < 10 -> decimal v = [v]. Proof. intros H. unfold decimal. cbn [dec]. rewrite (proj2 (N.ltb_lt _ _) H). reflexivity. Qed.
Lemma concat_digits n l : (forall d, In d l -> d < 10) -> concat (map (filter nsp) (map (format_d n) l)) = map Dg l.
Proof.
  intros H. rewrite map_map. induction l as [|d l IH]; [reflexivity|]. cbn [map concat]. rewrite filter_format, decimal_small by (apply H; left; reflexivity). rewrite IH by (intros; apply H; right; assumption). reflexivity.
Qed.
Lemma bits_small sps n s l : sps <> 0 -> sps <= 10 -> forall d, In d (bits_of sps n s l) -> d < sps /\ d < 10.
Proof. intros H0 H d I. apply in_map_iff in I. destruct I as (i & <- & _). pose proof (N.mod_lt (s / sps ^ N.of_nat (n - i - 1)) sps H0). lia. Qed.
Lemma print_short sps n s : sps <> 0 -> sps <= 10 -> (n <= 64)%nat -> int_to_state sps n s false = map Dg (bits_of sps n s (seq 0 n)).
Proof.
  intros H0 H Hn. unfold int_to_state. cbv zeta. rewrite (proj2 (Nat.leb_le _ _) Hn). change (filter nsp (join [Sp] (map (format_d (length (decimal sps))) (bits_of sps n s (seq 0 n)))) = map Dg (bits_of sps n s (seq 0 n))).
  rewrite filter_join. apply concat_digits. intros d I. apply (bits_small sps n s (seq 0 n) H0 H d I).
Qed.
Lemma drop_Dg l : drop_sp (map Dg l) = map Dg l. Proof. destruct l; reflexivity. Qed.
Lemma strip_Dg l : rev (drop_sp (rev (drop_sp (map Dg l)))) = map Dg l. Proof. rewrite drop_Dg, <- map_rev, drop_Dg, <- map_rev, rev_involutive. reflexivity. Qed.
Lemma digits_Dg base l : (forall d, In d l -> d < base) -> forall acc, digits_of base (map Dg l) acc = Some (fold_left (fun a d => a * base + d) l acc).
Proof.
  induction l as [|d l IH]; intros H acc; [reflexivity|]. cbn [map digits_of fold_left]. rewrite (proj2 (N.ltb_lt _ _)) by (apply H; left; reflexivity). apply IH. intros; apply H; right; assumption.
Qed.
Lemma bits_fold sps (H : 2 <= sps) s n : forall acc, fold_left (fun a d => a * sps + d) (bits_of sps n s (seq 0 n)) acc = acc * sps ^ N.of_nat n + s mod sps ^ N.of_nat n.
Proof.
  induction n as [|n IH]; intros acc; [cbn [bits_of seq map fold_left N.of_nat]; rewrite N.pow_0_r, N.mod_1_r; lia|]. unfold bits_of. cbn [seq map fold_left]. rewrite <- seq_shift, map_map.
  replace (map (fun i => (s / sps ^ N.of_nat (S n - S i - 1)) mod sps) (seq 0 n)) with (bits_of sps n s (seq 0 n)) by reflexivity. rewrite IH.
  replace (S n - 0 - 1)%nat with n by lia. replace (N.of_nat (S n)) with (N.of_nat n + 1) by lia. rewrite N.pow_add_r, N.pow_1_r. rewrite (N.mul_comm (sps ^ N.of_nat n)), (N.mul_comm sps).
  rewrite N.mod_mul_r by (try apply N.pow_nonzero; lia). lia.
Qed.
Lemma py_int_Dg base l : l <> [] -> 2 <= base <= 36 -> (forall d, In d l -> d < base) -> py_int base (map Dg l) = Some (fold_left (fun a d => a * base + d) l 0).
Proof.
  intros Hl Hb Hd. unfold py_int. cbv zeta. rewrite strip_Dg. destruct l as [|d l]; [contradiction|]. cbn [map]. rewrite (proj2 (N.leb_le 2 base)), (proj2 (N.leb_le base 36)) by lia. cbn [andb]. apply (digits_Dg base (d :: l) Hd).
Qed.
Lemma py_int_print sps n s : 2 <= sps <= 10 -> (1 <= n <= 64)%nat -> s < sps ^ N.of_nat n -> py_int sps (int_to_state sps n s false) = Some s.
Proof.
  intros Hs Hn L. rewrite print_short by lia. rewrite py_int_Dg; [|destruct n; [lia|discriminate]|lia|intros d I; apply (bits_small sps n s (seq 0 n)); [lia|lia|exact I]]. rewrite bits_fold by lia. rewrite N.mod_small by exact L. f_equal.
Qed.
Lemma round_trip w fuel sps n basis s : 2 <= sps <= 10 -> (1 <= n <= 64)%nat -> s < sps ^ N.of_nat n -> s < 2 ^ w -> (N.to_nat (N.size s) <= fuel)%nat ->
  state_to_int w fuel sps basis (int_to_state sps n s false) = if in_dec N.eq_dec s basis then Bk s else Bk_value_error.
Proof.
  intros Hs Hn L Lw Hf. unfold state_to_int, get_basis_index. rewrite py_int_print by assumption. rewrite python_to_basis_ok by exact Hf. rewrite N.mod_small by exact Lw. pose proof (search_spec s basis 0) as S.
  destruct (search_array basis s 0) as [k|]; destruct (in_dec N.eq_dec s basis) as [I|I]; try contradiction; [| |reflexivity].
  - destruct S as (_ & E & _). rewrite Nat.sub_0_r in E. rewrite (nth_error_nth _ _ 0 E). rewrite basis_to_python_ok by exact Hf. reflexivity.
  - exfalso. destruct S as (_ & E & _). apply I, (nth_error_In _ _ E).
Qed.
Lemma round_trip_1d sps n basis s : 2 <= sps <= 10 -> (1 <= n <= 64)%nat -> s < sps ^ N.of_nat n ->
  state_to_int_1d sps basis (int_to_state sps n s false) = if in_dec N.eq_dec s basis then Bk s else Bk_value_error.
Proof.
  intros Hs Hn L. unfold state_to_int_1d. rewrite (print_short sps n s) at 1 by lia. rewrite py_int_Dg; [|destruct n; [lia|discriminate]|lia|intros d I; apply (bits_small sps n s (seq 0 n)); [lia|lia|exact I]].
  rewrite py_int_print by assumption. pose proof (search_spec s basis 0) as S. destruct (search_array basis s 0) as [k|]; destruct (in_dec N.eq_dec s basis) as [I|I]; try contradiction; [| |reflexivity].
  - destruct S as (_ & E & _). rewrite Nat.sub_0_r in E. rewrite (nth_error_nth _ _ 0 E). reflexivity.
  - exfalso. destruct S as (_ & E & _). apply I, (nth_error_In _ _ E).
Qed.
(* strings that int() refuses *)
Definition is_Dg (c : ch) : bool := match c with Dg _ => true | _ => false end.
Lemma digits_bad base s : forall acc, existsb (fun c => negb (is_Dg c)) s = true -> digits_of base s acc = None.
Proof.
  induction s as [|c s IH]; intros acc H; [discriminate|]. destruct c; cbn in H |- *; try reflexivity. destruct (d <? base); [apply IH, H|reflexivity].
Qed.
Lemma drop_In c s : c <> Sp -> In c s -> In c (drop_sp s).
Proof. intros D. induction s as [|a s IH]; intros I; [exact I|]. destruct I as [-> |I]; [destruct c; try (left; reflexivity); contradiction|]. destruct a; cbn; auto. Qed.
Lemma py_int_bad base c s : c <> Sp -> is_Dg c = false -> In c s -> py_int base s = None.
Proof.
  intros D B I. unfold py_int. cbv zeta. assert (J : In c (rev (drop_sp (rev (drop_sp s))))) by (rewrite <- in_rev; apply drop_In; [exact D|]; rewrite <- in_rev; apply drop_In; assumption).
  destruct (rev (drop_sp (rev (drop_sp s)))) as [|a t] eqn:E; [reflexivity|]. destruct ((2 <=? base) && (base <=? 36)); [|reflexivity]. apply digits_bad. apply existsb_exists. exists c. split; [exact J|]. rewrite B. reflexivity.
Qed.
Lemma bracket_bad sps n s : In Bar (int_to_state sps n s true). Proof. unfold int_to_state. cbv zeta. left. reflexivity. Qed.
Lemma join_In c l x : In x l -> In c x -> In c (join [Sp] l).
Proof.
  induction l as [|y l IH]; intros I J; [destruct I|]. destruct l as [|z l]; [destruct I as [-> |[]]; exact J|]. cbn [join]. destruct I as [-> |I]; apply in_or_app; [left; exact J|right; right; apply IH; assumption].
Qed.
Lemma long_dots sps n s b : (64 < n)%nat -> In Dot (int_to_state sps n s b).
Proof.
  intros H. unfold int_to_state. cbv zeta. rewrite (proj2 (Nat.leb_gt _ _) H).
  assert (J : forall a c : list (list ch), In Dot (join [Sp] (a ++ [[Dot; Dot; Dot]] ++ c))) by (intros a c; apply (join_In _ _ [Dot; Dot; Dot]); [apply in_or_app; right; left; reflexivity|left; reflexivity]).
  destruct b; [apply in_or_app; right; apply in_or_app; left; apply J|]. apply filter_In. split; [apply J|reflexivity].
Qed.
