(* The projectors of the one-dimensional bases write out the normalised symmetric states. *)
From Verif Require Import AuxN SpecC SpecOps SpecMaps SpecFermi SpecChain M_bits1d SpecChain1d SpecCheck1d SpecBlock1d SpecSpan1d M_check1d
  P_bits1d P_check1d P_check1d3 P_block1d P_block1d2 P_block1d3 P_block1d4 M_ops M_op1d P_op1d P_op1d2 P_op1d3 P_op1d4 P_op1d5 P_op1d6 P_op1d7 P_op1d8 P_semi1d P_semi1d2 P_semi1d3 P_semi1d4
  P_symop P_photon P_span1d P_span1d2 P_span1d3 P_span1d4 P_span1d5 M_symop M_proj1d P_proj1d P_proj1d2 P_proj1d3 P_proj1d4 C39_checks C52_matrix C52_complete.
From Coq Require Import Permutation.
Local Open Scope nat_scope.

Lemma cnt_lt (l : list N) s t : In s l -> (s < t)%N -> length (filter (fun x => (x <? s)%N) l) < length (filter (fun x => (x <? t)%N) l).
Proof.
  intros Hs Hlt. assert (Le : forall l, length (filter (fun x => (x <? s)%N) l) <= length (filter (fun x => (x <? t)%N) l)).
  { clear - Hlt. induction l as [|x l IH]; cbn [filter length]; [lia|]. destruct (N.ltb_spec x s), (N.ltb_spec x t); cbn [length]; lia. }
  induction l as [|x l IH]; [destruct Hs|]. cbn [filter]. destruct Hs as [->|Hs].
  - pose proof (Le l). destruct (N.ltb_spec s s), (N.ltb_spec s t); cbn [length]; lia.
  - specialize (IH Hs). destruct (N.ltb_spec x s), (N.ltb_spec x t); cbn [length]; lia.
Qed.
Lemma cnt_le (l : list N) t : In t l -> length (filter (fun x => (x <? t)%N) l) < length l.
Proof.
  assert (Le : forall l, length (filter (fun x => (x <? t)%N) l) <= length l) by (induction l0 as [|x l0 IH]; cbn [filter length]; [lia|]; destruct (x <? t)%N; cbn [length]; lia).
  induction l as [|x l IH]; intros H; [destruct H|]. cbn [filter length]. destruct H as [->|H]; [pose proof (Le l); destruct (N.ltb_spec t t); lia|]. specialize (IH H). destruct (x <? t)%N; cbn [length]; lia.
Qed.
Lemma nth_all {A} (l : list A) d : map (fun j => nth j l d) (seq 0 (length l)) = l.
Proof. induction l as [|x l IH]; [reflexivity|]. cbn [length seq map nth]. f_equal. rewrite <- seq_shift, map_map. exact IH. Qed.
Lemma nth_rows {A} (f : nat -> list A) c d : (forall r, length (f r) = c) -> 1 <= c -> forall n r j, j < n * c -> nth j (flat_map f (seq r n)) d = nth (j mod c) (f (r + j / c)) d.
Proof.
  intros Hc H1. induction n as [|n IH]; intros r j Hj; [lia|]. cbn [seq flat_map]. destruct (Nat.lt_ge_cases j c) as [H|H].
  - rewrite app_nth1 by (rewrite Hc; exact H). rewrite Nat.mod_small, Nat.div_small, Nat.add_0_r by exact H. reflexivity.
  - rewrite app_nth2 by (rewrite Hc; exact H). rewrite Hc, IH by lia. replace j with (j - c + 1 * c) at 3 4 by lia. rewrite Nat.mod_add, Nat.div_add by lia. f_equal. f_equal. lia.
Qed.
Lemma len_rows {A} (f : nat -> list A) c n r : (forall r, length (f r) = c) -> length (flat_map f (seq r n)) = n * c.
Proof. intros Hc. revert r. induction n as [|n IH]; intros r; [reflexivity|]. cbn [seq flat_map]. rewrite app_length, Hc, IH. reflexivity. Qed.
(* additions at distinct indices *)
Lemma add_at_nd v l s : NoDup (map fst l) -> add_at v l s = (v s + Csum l (fun p => if (fst p =? s)%N then snd p else C0))%C.
Proof.
  intros Nd. unfold add_at. assert (Nr : NoDup (map fst (rev l))) by (rewrite map_rev; apply NoDup_rev, Nd). rewrite (Csum_perm _ _ _ (Permutation_rev l)). revert Nr. generalize (rev l). clear. induction l as [|[u x] l IH]; intros Nd.
  - cbn [find]. rewrite Csum_nil. ring.
  - cbn [find fst]. rewrite Csum_cons. cbn [fst snd]. inversion_clear Nd as [|? ? Ni Nd']. destruct (N.eqb_spec u s) as [->|Ne].
    + rewrite Csum_zero; [ring|]. intros [u' x'] Hin. cbn [fst]. destruct (N.eqb_spec u' s) as [->|]; [|reflexivity]. destruct Ni. apply in_map_iff. exists (s, x'). auto.
    + rewrite (IH Nd'). ring.
Qed.

Section S.
Variables (w : btype) (k : kind) (L T kb : nat) (b : block) (states : list N) (es basis : list entry).
Hypothesis OK : block_ok w k L T b.
Hypothesis Hsh : translates b = false -> shift_fits w k L (Z.of_nat L).
Hypothesis F8 : fits8 L T kb b.
Hypothesis Hst : forall s, In s states -> is_state k L s.
Hypothesis Hnd : NoDup states.
Hypothesis Hcol : collect w k L T kb b states = Some es.
Hypothesis Harr : arranged es basis.
Notation Ns := (length basis).
Notation en i := (nth i basis entry0).
Notation M := (Mst k L).
Notation sym := (sym_state w k L T kb b basis).
Notation two := (two_of b).
Notation n := (n_of L T b).
Notation Hs := (heads b).
Notation To := (T_of T b).
Notation X := (X w k L To two n).
Notation G := (G w k L To two n).
Notation rows := (row_visits w k L T b).

Lemma en_lab i : i < Ns -> lab L b (en i) /\ is_state k L (e_s (en i)) /\ In (e_s (en i)) states.
Proof.
  intros Hi. assert (He : In (en i) es) by (apply (Permutation_in _ (Permutation_sym (proj1 Harr))), nth_In, Hi). destruct (stored_in w k L T kb b states es OK Hst Hcol _ He) as (l & Hs' & Ek & Hl).
  split; [apply (keep_lab w k L T kb b OK _ _ _ (Hst _ Hs') Ek Hl)|]. split; [apply Hst, Hs'|exact Hs'].
Qed.
Lemma lab_N e : lab L b e -> e_N e <> 0%Z.
Proof. clear. unfold lab. destruct b; intuition lia. Qed.
Lemma norm_eq i : i < Ns -> norm_of L T kb b (en i) = nn_of L T kb b basis i.
Proof.
  intros Hi. destruct (en_lab i Hi) as (Hl & _). unfold norm_of. rewrite (norm2_eq w k L T kb b OK _ F8 Hl). unfold nn_of, Kn, nr, nns, nnb. destruct (semi b); reflexivity.
Qed.
Lemma sym_V i t : i < Ns -> sym i t = (V n Hs (chi b) X G (cf L T kb b (e_N (en i))) (e_s (en i)) t * RtoC (/ norm_of L T kb b (en i)))%C.
Proof.
  intros Hi. rewrite (norm_eq i Hi). unfold sym_state. apply (norm_psi w k L T kb b OK basis (all_st w k L T kb b states es basis OK Hst Hcol Harr) (nn_of L T kb b basis) (all_nn w k L T kb b states es basis OK Hst Hcol Harr) i t Hi).
Qed.
Lemma all_visits pz : pz = [LP; LZ] \/ pz = [LZ; LP] -> all_some (map (fun e => visits w k L T b pz (e_s e)) basis) = Some (map (fun e => (flat_map (rows (e_s e)) (seq 0 n), e_s e)) basis).
Proof.
  intros Hpz. assert (H : forall e, In e basis -> is_state k L (e_s e)). { intros e He. destruct (In_nth _ _ entry0 He) as (i & Hi & <-). apply (en_lab i Hi). }
  clear Hcol Harr. induction basis as [|e l IH]; [reflexivity|]. cbn [map all_some]. rewrite (visits_ok w k L T b OK Hsh pz (e_s e) Hpz (H e (or_introl eq_refl))). rewrite IH by (intros x Hx; apply H; right; exact Hx). reflexivity.
Qed.
Lemma nth_visits i : i < Ns -> nth i (map (fun e => (flat_map (rows (e_s e)) (seq 0 n), e_s e)) basis) ([], 0%N) = (flat_map (rows (e_s (en i))) (seq 0 n), e_s (en i)).
Proof. intros Hi. rewrite (nth_indep _ ([], 0%N) ((fun e => (flat_map (rows (e_s e)) (seq 0 n), e_s e)) entry0)) by (rewrite map_length; exact Hi). exact (map_nth (fun e => (flat_map (rows (e_s e)) (seq 0 n), e_s e)) basis entry0 i). Qed.
Lemma spread_V i t : i < Ns -> is_state k L t -> spread L T kb b M None (en i) (flat_map (rows (e_s (en i))) (seq 0 n)) (M - 1 - N.to_nat t) =
  (V n Hs (chi b) X G (cf L T kb b (e_N (en i))) (e_s (en i)) t * RtoC (/ norm_of L T kb b (en i)))%C.
Proof.
  clear F8. intros Hi Ht. destruct (en_lab i Hi) as (Hl & Si & _). unfold spread, get_index.
  apply (sum_visits w k L T kb b OK Hsh (en i) (fun u => M - N.to_nat u - 1 =? M - 1 - N.to_nat t) t (lab_N _ Hl) Si Ht).
  intros r h Hh. pose proof (g_XD _ _ _ _ _ _ _ (block_grp w k L T b OK) r h (e_s (en i)) Hh (proj2 (M_st k L _) Si)) as D. pose proof (proj2 (M_st k L _) Ht) as D'. set (u := X r h (e_s (en i))) in *. cbv beta in D.
  destruct (N.eqb_spec u t) as [->|Ne]; [apply Nat.eqb_eq; lia|apply Nat.eqb_neq; lia].
Qed.
Lemma spread_plain i t : i < Ns -> is_state k L t -> spread L T kb b M None (en i) (flat_map (rows (e_s (en i))) (seq 0 n)) (M - 1 - N.to_nat t) = sym i t.
Proof. intros Hi Ht. rewrite (sym_V i t Hi). apply spread_V; assumption. Qed.
Lemma spread_sector sec i t : closed w k L T b states -> Permutation states sec -> i < Ns -> In t states ->
  spread L T kb b (length sec) (Some sec) (en i) (flat_map (rows (e_s (en i))) (seq 0 n)) (length sec - 1 - length (filter (fun x => (x <? t)%N) sec)) = sym i t.
Proof.
  intros Hcl Hp Hi Ht. destruct (en_lab i Hi) as (Hl & Si & Ii). rewrite (sym_V i t Hi). unfold spread, get_index.
  apply (sum_visits w k L T kb b OK Hsh (en i) (fun u => length sec - length (filter (fun x => (x <? u)%N) sec) - 1 =? length sec - 1 - length (filter (fun x => (x <? t)%N) sec)) t (lab_N _ Hl) Si (Hst t Ht)).
  intros r h Hh. pose proof (closed_X w k L T b OK states Hst Hcl r h (e_s (en i)) Hh Ii) as D. set (u := X r h (e_s (en i))) in *.
  assert (Du : In u sec) by (apply (Permutation_in _ Hp), D). assert (Dt : In t sec) by (apply (Permutation_in _ Hp), Ht). pose proof (cnt_le sec u Du). pose proof (cnt_le sec t Dt).
  destruct (N.eqb_spec u t) as [->|Ne]; [apply Nat.eqb_eq; lia|apply Nat.eqb_neq]. destruct (N.lt_gt_cases u t) as [Q _]. destruct (Q Ne) as [Hlt|Hlt]; [pose proof (cnt_lt sec u t Du Hlt)|pose proof (cnt_lt sec t u Dt Hlt)]; lia.
Qed.
(* additions of one step of the dense loop hit distinct states *)
Lemma rows_len s r : length (rows s r) = S (length (flip_heads b)). Proof. unfold row_visits. rewrite map_length. reflexivity. Qed.
Lemma flips_len : length (flips b [LP; LZ]) = length (flip_heads b).
Proof. clear. destruct b; reflexivity. Qed.
Notation c := (S (length (flip_heads b))).
Lemma nth_visit i j : j < n * c -> exists h, In h Hs /\ v_state (nth j (flat_map (rows (e_s (en i))) (seq 0 n)) (vis 0 0 0 0)) = X (- Z.of_nat (j / c)) h (e_s (en i)) /\ h = nth (j mod c) (h0 :: flip_heads b) h0.
Proof.
  intros Hj. rewrite (nth_rows (rows (e_s (en i))) c _ (rows_len _) ltac:(lia) n 0 j Hj). cbn [Nat.add]. exists (nth (j mod c) (h0 :: flip_heads b) h0). assert (Hm : j mod c < c) by (apply Nat.mod_upper_bound; lia).
  split; [apply heads_flip, nth_In; exact Hm|]. split; [|reflexivity]. unfold row_visits.
  rewrite (nth_indep _ _ ((fun h => vis (j / c) (chiZ b h) (X (- Z.of_nat (j / c)) h (e_s (en i))) (G (- Z.of_nat (j / c)) h (e_s (en i)))) h0)) by (rewrite map_length; exact Hm).
  rewrite (map_nth (fun h => vis (j / c) (chiZ b h) (X (- Z.of_nat (j / c)) h (e_s (en i))) (G (- Z.of_nat (j / c)) h (e_s (en i))))). reflexivity.
Qed.
Notation vlist := (map (fun e => (flat_map (rows (e_s e)) (seq 0 n), e_s e)) basis).
Lemma pairs_nd v0 sel j : j < n * c -> (forall i i', i < Ns -> i' < Ns -> sel i = true -> sel i' = true -> e_s (en i) = e_s (en i') -> i = i') -> NoDup (map fst (dense_pairs L T kb b basis vlist v0 sel j)).
Proof.
  intros Hj Inj. unfold dense_pairs. rewrite map_map. cbn [fst]. pose proof (block_grp w k L T b OK) as GR.
  assert (A : forall l, NoDup l -> (forall i, In i l -> i < Ns /\ sel i = true) -> NoDup (map (fun i => v_state (nth j (fst (nth i vlist ([], 0%N))) (vis 0 0 0 0))) l)).
  { induction l as [|i l IH]; intros Nd Hl; [constructor|]. inversion_clear Nd as [|? ? Ni Nd']. cbn [map]. constructor; [|apply IH; [exact Nd'|intros i' H'; apply Hl; right; exact H']].
    intros Q. apply in_map_iff in Q. destruct Q as (i' & E & Hi'). destruct (Hl i (or_introl eq_refl)) as [B1 S1]. destruct (Hl i' (or_intror Hi')) as [B2 S2]. rewrite (nth_visits i B1), (nth_visits i' B2) in E. cbn [fst] in E.
    destruct (nth_visit i j Hj) as (h & Hh & E1 & Eh). destruct (nth_visit i' j Hj) as (h' & Hh' & E2 & Eh'). rewrite E1, E2, Eh, Eh' in E. rewrite Eh in Hh.
    destruct (en_lab i B1) as (_ & D1 & _). destruct (en_lab i' B2) as (_ & D2 & _). apply M_st in D1. apply M_st in D2. apply (X_inj _ _ _ _ _ _ _ GR _ _ _ _ Hh D2 D1) in E. apply Ni. rewrite (Inj i i' B1 B2 S1 S2 (eq_sym E)). exact Hi'. }
  apply A; [apply NoDup_filter', seq_NoDup|]. intros i Hi. apply filter_In in Hi. destruct Hi as [Hi S]. apply in_seq in Hi. split; [lia|exact S].
Qed.
Lemma pos_inj i i' : i < Ns -> i' < Ns -> pos_ind b basis i = true -> pos_ind b basis i' = true -> e_s (en i) = e_s (en i') -> i = i'.
Proof.
  intros Hi Hi' P P' E. unfold pos_ind in *. destruct (semi b) eqn:Sm; [|apply (st_inj w k L T kb b OK Sm states es basis Hst Hnd Hcol Harr i i' Hi Hi' E)].
  apply (key_inj w k L T kb b OK Sm states es basis Hst Hnd Hcol Harr i i' Hi Hi' E). unfold sgn. rewrite P, P'. reflexivity.
Qed.
Lemma neg_inj i i' : i < Ns -> i' < Ns -> neg_ind b basis i = true -> neg_ind b basis i' = true -> e_s (en i) = e_s (en i') -> i = i'.
Proof.
  intros Hi Hi' P P' E. unfold neg_ind in *. destruct (semi b) eqn:Sm; [|discriminate].
  apply (key_inj w k L T kb b OK Sm states es basis Hst Hnd Hcol Harr i i' Hi Hi' E). apply Z.ltb_lt in P. apply Z.ltb_lt in P'. unfold sgn. destruct (Z.ltb_spec 0 (e_N (en i))), (Z.ltb_spec 0 (e_N (en i'))); lia.
Qed.
Lemma pos_neg i : i < Ns -> neg_ind b basis i = negb (pos_ind b basis i).
Proof.
  intros Hi. destruct (en_lab i Hi) as (Hl & _). pose proof (lab_N _ Hl) as HN. unfold pos_ind, neg_ind. destruct (semi b); [|reflexivity]. destruct (Z.ltb_spec 0 (e_N (en i))), (Z.ltb_spec (e_N (en i)) 0); try reflexivity; lia.
Qed.
Lemma pairs_sum v0 sel j t : Csum (dense_pairs L T kb b basis vlist v0 sel j) (fun p => if (fst p =? t)%N then snd p else C0) =
  Csum (seq 0 Ns) (fun i => if sel i then (let v := nth j (flat_map (rows (e_s (en i))) (seq 0 n)) (vis 0 0 0 0) in if (v_state v =? t)%N then v0 i * weight L T kb b (en i) v else C0)%C else C0).
Proof.
  unfold dense_pairs. rewrite Csum_map, Csum_filter. apply Csum_ext. intros i Hi. apply in_seq in Hi. destruct (sel i); [|reflexivity]. rewrite nth_visits by lia. reflexivity.
Qed.
Lemma dense_ok v0 t : is_state k L t -> fold_left (dense_step L T kb b basis vlist v0) (seq 0 (n * c)) (fun _ => C0) t = Csum (seq 0 Ns) (fun i => v0 i * sym i t)%C.
Proof.
  intros Ht. set (f := fun j i => let v := nth j (flat_map (rows (e_s (en i))) (seq 0 n)) (vis 0 0 0 0) in if (v_state v =? t)%N then (v0 i * weight L T kb b (en i) v)%C else C0).
  assert (A : forall m acc j0, j0 + m <= n * c -> fold_left (dense_step L T kb b basis vlist v0) (seq j0 m) acc t = (acc t + Csum (seq j0 m) (fun j => Csum (seq 0 Ns) (f j)))%C).
  { induction m as [|m IH]; intros acc j0 Hm; [cbn [seq fold_left]; rewrite Csum_nil; ring|]. cbn [seq fold_left]. rewrite IH by lia. rewrite Csum_cons. unfold dense_step.
    rewrite add_at_nd by (apply pairs_nd; [lia|apply neg_inj]). rewrite add_at_nd by (apply pairs_nd; [lia|apply pos_inj]). rewrite !pairs_sum. fold f.
    replace (Csum (seq 0 Ns) (f j0)) with (Csum (seq 0 Ns) (fun i => if pos_ind b basis i then f j0 i else C0) + Csum (seq 0 Ns) (fun i => if neg_ind b basis i then f j0 i else C0))%C; [unfold f; ring|].
    rewrite <- Csum_add. apply Csum_ext. intros i Hi. apply in_seq in Hi. rewrite (pos_neg i) by lia. destruct (pos_ind b basis i); cbn [negb]; ring. }
  rewrite A by lia. transitivity (Csum (seq 0 (n * c)) (fun j => Csum (seq 0 Ns) (f j))); [ring|]. rewrite Csum_swap. apply Csum_ext. intros i Hi. apply in_seq in Hi. assert (Hi' : i < Ns) by lia. destruct (en_lab i Hi') as (Hl & Si & _). rewrite (sym_V i t Hi').
  rewrite <- (sum_visits w k L T kb b OK Hsh (en i) (fun u => (u =? t)%N) t (lab_N _ Hl) Si Ht (fun _ _ _ => eq_refl)).
  rewrite <- (nth_all (flat_map (rows (e_s (en i))) (seq 0 n)) (vis 0 0 0 0)) at 1. rewrite (len_rows _ c) by apply rows_len. rewrite Csum_map, <- Csum_mul_l. apply Csum_ext. intros j _. unfold f. cbv zeta. destruct (_ =? t)%N; ring.
Qed.
End S.
