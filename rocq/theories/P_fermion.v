(* Proofs about fermion operator strings. *)
From Verif Require Import AuxN SpecC SpecBits SpecDigits SpecMaps SpecOps M_bitcount M_ops P_bitcount P_next P_boson P_maps P_ops.
Local Open Scope N_scope.

(* sign and amplitude of the elementary operators in terms of bit positions *)
Definition sgn (p : nat) (s : N) : C := if Nat.odd (particles s p) then RtoC (-1) else C1.
Definition famp (o : ascii) (p : nat) (s : N) : C :=
  match o with
  | "+" => if occupied s p then C0 else sgn p s
  | "-" => if occupied s p then sgn p s else C0
  | "n" => if occupied s p then C1 else C0
  | "z" => if occupied s p then (1/2, 0)%R else (-(1/2), 0)%R
  | _ => C1
  end%char.
Definition flipp (p : nat) (s : N) : N := N.lxor s (2 ^ N.of_nat p).
Definition fstate (o : ascii) (p : nat) (s : N) : N :=
  if ((o =? "+") || (o =? "-"))%char%bool then flipp p s else s.
Definition fermion_known (o : ascii) : Prop := In o ["I"; "n"; "z"; "+"; "-"]%char.

Lemma flipp_occ p s i : occupied (flipp p s) i = if (i =? p)%nat then negb (occupied s i) else occupied s i.
Proof.
  unfold occupied, flipp. rewrite N.lxor_spec, N.pow2_bits_eqb. destruct (Nat.eqb_spec i p) as [->|Ne].
  - rewrite N.eqb_refl. destruct (N.testbit s _); reflexivity.
  - destruct (N.eqb_spec (N.of_nat p) (N.of_nat i)); [lia|]. destruct (N.testbit s _); reflexivity.
Qed.
Lemma flipp_lt n p s : (p < n)%nat -> s < 2 ^ N.of_nat n -> flipp p s < 2 ^ N.of_nat n.
Proof.
  intros Hp Hs. apply lt_pow2_bits. intros i Hi. unfold flipp. rewrite N.lxor_spec, N.pow2_bits_eqb.
  rewrite (testbit_small s (N.of_nat n)) by assumption. destruct (N.eqb_spec (N.of_nat p) i); [lia|reflexivity].
Qed.
Lemma flipp_flipp p s : flipp p (flipp p s) = s.
Proof. unfold flipp. rewrite N.lxor_assoc, N.lxor_nilpotent, N.lxor_0_r. reflexivity. Qed.
Lemma flipp_comm p q s : flipp p (flipp q s) = flipp q (flipp p s).
Proof. unfold flipp. rewrite !N.lxor_assoc. f_equal. apply N.lxor_comm. Qed.

Lemma particles_flip p s l : Nat.odd (particles (flipp p s) l) = if (p <? l)%nat then negb (Nat.odd (particles s l)) else Nat.odd (particles s l).
Proof.
  unfold particles. induction l as [|l IH]; [reflexivity|]. cbn [count_upto]. rewrite !Nat.odd_add, IH, flipp_occ.
  destruct (Nat.eqb_spec l p) as [->|Ne].
  - rewrite Nat.ltb_irrefl. destruct (Nat.ltb_spec p (S p)); [|lia]. destruct (occupied s p), (Nat.odd (count_upto (occupied s) p)); reflexivity.
  - destruct (Nat.ltb_spec p l), (Nat.ltb_spec p (S l)); try lia; destruct (occupied s l), (Nat.odd (count_upto (occupied s) l)); reflexivity.
Qed.
Lemma sgn_flip p q s : sgn q (flipp p s) = if (p <? q)%nat then Copp (sgn q s) else sgn q s.
Proof.
  unfold sgn. rewrite particles_flip. destruct (p <? q)%nat; [|reflexivity]. destruct (Nat.odd (particles s q)); cbn [negb]; apply C_eq; cbn; ring.
Qed.
Lemma sgn_sq p s : (sgn p s * sgn p s)%C = C1.
Proof. unfold sgn. destruct (Nat.odd (particles s p)); apply C_eq; cbn; ring. Qed.
Lemma sgn_conj p s : Cconj (sgn p s) = sgn p s.
Proof. unfold sgn. destruct (Nat.odd (particles s p)); apply C_eq; cbn; ring. Qed.

Section Fermion.
Variables (bytes : N) (n : nat).
Hypothesis Hw : N.of_nat n <= 8 * bytes.
Hypothesis Hn : (n <= 256)%nat.
Let M := N.to_nat (2 ^ N.of_nat n).

Lemma fermion_local_eq o i r : fermion_known o -> (i < n)%nat ->
  fermion_local bytes n o i r = Some (fstate o (n - i - 1) r, famp o (n - i - 1) r).
Proof.
  intros Ho Hi. unfold fermion_local. cbv zeta. set (p := (n - i - 1)%nat).
  assert (Hp : (p < n)%nat) by (unfold p; lia).
  rewrite (bit_count_correct bytes r (N.of_nat p)); [|clear - Hp Hw; unfold bits_of; lia|pose proof (particles_le r (N.to_nat (N.of_nat p))); clear - H Hp Hn; lia].
  rewrite Nat2N.id. assert (O : N.odd (N.of_nat (particles r p)) = Nat.odd (particles r p)).
  { set (k := particles r p). clearbody k. clear. induction k as [|k IH]; [reflexivity|]. rewrite Nat2N.inj_succ, N.odd_succ, Nat.odd_succ, <- N.negb_odd, IH, Nat.negb_odd. reflexivity. }
  rewrite O. fold (sgn p r). fold (occupied r p). rewrite N.shiftl_1_l. fold (flipp p r).
  unfold fermion_known in Ho. cbn [In] in Ho. destruct Ho as [<-|[<-|[<-|[<-|[<-|[]]]]]]; reflexivity.
Qed.

Lemma fstate_lt o p r : (p < n)%nat -> r < 2 ^ N.of_nat n -> fstate o p r < 2 ^ N.of_nat n.
Proof. intros Hp Hr. unfold fstate. destruct ((o =? "+") || (o =? "-"))%char%bool; [apply flipp_lt; assumption|assumption]. Qed.

(* the matrix of a single letter *)
Definition cop (o : ascii) (i : nat) : cmat := op_matrix (fermion_op bytes n [(o, i)]).

Lemma cop_mono o i s : fermion_known o -> (i < n)%nat -> s < 2 ^ N.of_nat n ->
  mono M (cop o i) s (fstate o (n - i - 1) s) (famp o (n - i - 1) s).
Proof.
  intros Ho Hi Hs. unfold mono, M. rewrite N2Nat.id. split; [apply fstate_lt; [lia|assumption]|]. intros t Ht.
  unfold cop, op_matrix, fermion_op. cbn [rev app op_loop]. rewrite fermion_local_eq by assumption. cbv zeta.
  replace (C1 * famp o (n - i - 1) s)%C with (famp o (n - i - 1) s) by ring.
  destruct (Czero (famp o (n - i - 1) s)) eqn:Z; [|reflexivity].
  apply Czero_true in Z. rewrite Z. destruct (t =? s), (t =? fstate o (n - i - 1) s); reflexivity.
Qed.

Lemma fermion_string_acts l : Forall (fun oi => fermion_known (fst oi) /\ (snd oi < n)%nat) l ->
  acts_as M (fermion_op bytes n l) (string_matrix M cop l).
Proof.
  intros Hl. unfold fermion_op.
  apply (loop_acts M (fermion_local bytes n) cop (fun oi => fermion_known (fst oi) /\ (snd oi < n)%nat)); [|assumption].
  intros o i r [H1 H2] Hr. cbn [fst snd] in *. unfold M in Hr. rewrite N2Nat.id in Hr. eexists _, _. split; [apply fermion_local_eq; assumption|].
  apply cop_mono; assumption.
Qed.

Lemma mono_entry A s r a t : mono M A s r a -> t < 2 ^ N.of_nat n -> A t s = if t =? r then a else C0.
Proof. intros [_ H] Ht. apply H. unfold M. rewrite N2Nat.id. assumption. Qed.

Lemma pm_known o : o = "+"%char \/ o = "-"%char -> fermion_known o.
Proof. intros [-> | ->]; unfold fermion_known; cbn; tauto. Qed.
Lemma pm_fstate o p s : o = "+"%char \/ o = "-"%char -> fstate o p s = flipp p s.
Proof. intros [-> | ->]; reflexivity. Qed.

Lemma famp_other o p q s : o = "+"%char \/ o = "-"%char -> p <> q ->
  famp o q (flipp p s) = if (p <? q)%nat then Copp (famp o q s) else famp o q s.
Proof.
  intros Ho Ne. destruct Ho as [-> | ->]; unfold famp; rewrite flipp_occ, sgn_flip;
    (destruct (Nat.eqb_spec q p) as [E|_]; [lia|]); destruct (occupied s q), (p <? q)%nat; try reflexivity; apply C_eq; cbn; ring.
Qed.

Lemma prod_mono o o' i j s : (o = "+" \/ o = "-")%char -> (o' = "+" \/ o' = "-")%char -> (i < n)%nat -> (j < n)%nat -> s < 2 ^ N.of_nat n ->
  mono M (mmul M (cop o i) (cop o' j)) s (flipp (n - i - 1) (flipp (n - j - 1) s)) (famp o (n - i - 1) (flipp (n - j - 1) s) * famp o' (n - j - 1) s)%C.
Proof.
  intros Ho Ho' Hi Hj Hs. pose proof (cop_mono o' j s (pm_known _ Ho') Hj Hs) as M1. rewrite (pm_fstate o') in M1 by assumption.
  pose proof (cop_mono o i (flipp (n - j - 1) s) (pm_known _ Ho) Hi) as M2. rewrite (pm_fstate o) in M2 by assumption.
  eapply mono_mul; [exact M1|apply M2; apply flipp_lt; [lia|assumption]].
Qed.

(* different sites: everything anticommutes *)
Lemma car_different o o' i j : (o = "+" \/ o = "-")%char -> (o' = "+" \/ o' = "-")%char -> (i < n)%nat -> (j < n)%nat -> i <> j ->
  meq M (madd (mmul M (cop o i) (cop o' j)) (mmul M (cop o' j) (cop o i))) (fun _ _ => C0).
Proof.
  intros Ho Ho' Hi Hj Ne r s Hr Hs. unfold M in Hr, Hs. rewrite N2Nat.id in Hr, Hs. unfold madd.
  rewrite (mono_entry _ _ _ _ r (prod_mono o o' i j s Ho Ho' Hi Hj Hs) Hr), (mono_entry _ _ _ _ r (prod_mono o' o j i s Ho' Ho Hj Hi Hs) Hr).
  rewrite (flipp_comm (n - j - 1) (n - i - 1)). destruct (r =? flipp (n - i - 1) (flipp (n - j - 1) s)); [|ring].
  rewrite !famp_other by (assumption || lia).
  destruct (Nat.ltb_spec (n - j - 1) (n - i - 1)), (Nat.ltb_spec (n - i - 1) (n - j - 1)); try lia; ring.
Qed.

(* same site *)
Lemma car_same_cc i o : (o = "+" \/ o = "-")%char -> (i < n)%nat -> meq M (mmul M (cop o i) (cop o i)) (fun _ _ => C0).
Proof.
  intros Ho Hi r s Hr Hs. unfold M in Hr, Hs. rewrite N2Nat.id in Hr, Hs.
  rewrite (mono_entry _ _ _ _ r (prod_mono o o i i s Ho Ho Hi Hi Hs) Hr).
  destruct (r =? _); [|reflexivity]. destruct Ho as [-> | ->]; unfold famp; rewrite flipp_occ, Nat.eqb_refl; destruct (occupied s (n - i - 1)); cbn [negb]; ring.
Qed.
Lemma car_same i : (i < n)%nat -> meq M (madd (mmul M (cop "-" i) (cop "+" i)) (mmul M (cop "+" i) (cop "-" i))) mident.
Proof.
  intros Hi r s Hr Hs. unfold M in Hr, Hs. rewrite N2Nat.id in Hr, Hs. unfold madd.
  rewrite (mono_entry _ _ _ _ r (prod_mono "-" "+" i i s (or_intror eq_refl) (or_introl eq_refl) Hi Hi Hs) Hr),
    (mono_entry _ _ _ _ r (prod_mono "+" "-" i i s (or_introl eq_refl) (or_intror eq_refl) Hi Hi Hs) Hr).
  rewrite flipp_flipp. unfold mident. destruct (r =? s); [|ring].
  unfold famp. rewrite flipp_occ, Nat.eqb_refl, sgn_flip, Nat.ltb_irrefl. destruct (occupied s (n - i - 1)); cbn [negb].
  - rewrite <- (sgn_sq (n - i - 1) s). ring.
  - rewrite <- (sgn_sq (n - i - 1) s). ring.
Qed.
Lemma number_op i : (i < n)%nat -> meq M (mmul M (cop "+" i) (cop "-" i)) (cop "n" i).
Proof.
  intros Hi r s Hr Hs. unfold M in Hr, Hs. rewrite N2Nat.id in Hr, Hs.
  rewrite (mono_entry _ _ _ _ r (prod_mono "+" "-" i i s (or_introl eq_refl) (or_intror eq_refl) Hi Hi Hs) Hr).
  rewrite (mono_entry _ _ _ _ r (cop_mono "n" i s ltac:(unfold fermion_known; cbn; tauto) Hi Hs) Hr).
  rewrite flipp_flipp. change (fstate "n" (n - i - 1) s) with s. destruct (r =? s); [|reflexivity].
  unfold famp. rewrite flipp_occ, Nat.eqb_refl, sgn_flip, Nat.ltb_irrefl. destruct (occupied s (n - i - 1)); cbn [negb]; [apply sgn_sq|ring].
Qed.
Lemma z_op i : (i < n)%nat -> meq M (cop "z" i) (madd (cop "n" i) (mscale (RtoC (- (1 / 2))) mident)).
Proof.
  intros Hi r s Hr Hs. unfold M in Hr, Hs. rewrite N2Nat.id in Hr, Hs. unfold madd, mscale, mident.
  rewrite (mono_entry _ _ _ _ r (cop_mono "z" i s ltac:(unfold fermion_known; cbn; tauto) Hi Hs) Hr).
  rewrite (mono_entry _ _ _ _ r (cop_mono "n" i s ltac:(unfold fermion_known; cbn; tauto) Hi Hs) Hr).
  change (fstate "n" (n - i - 1) s) with s. change (fstate "z" (n - i - 1) s) with s. destruct (r =? s); [|ring].
  unfold famp. destruct (occupied s (n - i - 1)); apply C_eq; cbn; lra.
Qed.
Lemma adjoint_op i : (i < n)%nat -> meq M (cop "+" i) (madj (cop "-" i)).
Proof.
  intros Hi r s Hr Hs. unfold M in Hr, Hs. rewrite N2Nat.id in Hr, Hs. unfold madj.
  rewrite (mono_entry _ _ _ _ r (cop_mono "+" i s ltac:(unfold fermion_known; cbn; tauto) Hi Hs) Hr).
  rewrite (mono_entry _ _ _ _ s (cop_mono "-" i r ltac:(unfold fermion_known; cbn; tauto) Hi Hr) Hs).
  change (fstate "+" (n - i - 1) s) with (flipp (n - i - 1) s). change (fstate "-" (n - i - 1) r) with (flipp (n - i - 1) r).
  destruct (N.eqb_spec r (flipp (n - i - 1) s)) as [->|Ne].
  - rewrite flipp_flipp, N.eqb_refl. unfold famp. rewrite flipp_occ, Nat.eqb_refl, sgn_flip, Nat.ltb_irrefl.
    destruct (occupied s (n - i - 1)); cbn [negb]; [apply C_eq; cbn; ring|symmetry; apply sgn_conj].
  - destruct (N.eqb_spec s (flipp (n - i - 1) r)) as [->|_]; [destruct Ne; symmetry; apply flipp_flipp|apply C_eq; cbn; ring].
Qed.
Lemma identity_op i : (i < n)%nat -> meq M (cop "I" i) mident.
Proof.
  intros Hi r s Hr Hs. unfold M in Hr, Hs. rewrite N2Nat.id in Hr, Hs.
  rewrite (mono_entry _ _ _ _ r (cop_mono "I" i s ltac:(unfold fermion_known; cbn; tauto) Hi Hs) Hr). reflexivity.
Qed.
(* n is diagonal with the occupation as entry *)
Lemma number_diag i : (i < n)%nat -> meq M (cop "n" i) (fun r s => if r =? s then (if site_val 2 n s i =? 1 then C1 else C0) else C0).
Proof.
  intros Hi r s Hr Hs. unfold M in Hr, Hs. rewrite N2Nat.id in Hr, Hs.
  rewrite (mono_entry _ _ _ _ r (cop_mono "n" i s ltac:(unfold fermion_known; cbn; tauto) Hi Hs) Hr).
  change (fstate "n" (n - i - 1) s) with s. destruct (r =? s); [|reflexivity]. rewrite site_val2 by assumption. unfold famp, occupied.
  destruct (N.testbit s (N.of_nat (n - i - 1))); reflexivity.
Qed.
End Fermion.

Lemma split_bar_spec a b : Forall (fun o => o <> "|"%char) a -> split_bar (a ++ "|"%char :: b) = Some (a, b).
Proof.
  induction 1 as [|o a Ho Ha IH]; [reflexivity|]. cbn [app split_bar]. destruct (Ascii.eqb_spec o "|"%char) as [E|_]; [contradiction|]. rewrite IH. reflexivity.
Qed.
Lemma combine_split {A B} (l : list (A * B)) : combine (map fst l) (map snd l) = l.
Proof. induction l as [|[x y] l IH]; cbn; [reflexivity|]. rewrite IH. reflexivity. Qed.

Lemma simple_to_adv_spec half up down : Forall (fun oi => fst oi <> "|"%char) up ->
  simple_to_adv half (map fst up ++ "|"%char :: map fst down) (map snd up ++ map snd down) =
  Some (up ++ map (fun oi => (fst oi, (snd oi + half)%nat)) down).
Proof.
  intros H. unfold simple_to_adv. rewrite split_bar_spec by (rewrite Forall_map; exact H). cbv zeta. rewrite map_length.
  replace (length up) with (length (map (@snd ascii nat) up)) by apply map_length.
  rewrite firstn_app, Nat.sub_diag, firstn_O, firstn_all, app_nil_r, skipn_app, Nat.sub_diag, skipn_all, skipn_O. cbn [app].
  f_equal. rewrite <- (combine_split (up ++ map (fun oi => (fst oi, (snd oi + half)%nat)) down)). rewrite !map_app, !map_map. cbn [fst snd].
  reflexivity.
Qed.
