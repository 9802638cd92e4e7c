(* C45: expectation values, variances and matrix elements. *)
From Verif Require Import AuxN SpecC SpecExpm SpecLanczos SpecExpect M_expect P_expect.
Local Open Scope nat_scope.

(* the numbers a result consists of; None: an exception *)
Definition values (r : result) : option (list C) := match r with Num z => Some [z] | Nums l => Some l | _ => None end.
(* the arrays that are handled: see the counterexamples below for the others *)
Definition handled (n : nat) (tm : time) (pure : bool) (V : array) : Prop :=
  match tm, V with
  | At _, V1 r _ => r = n
  | At _, V2 r k _ => r = n
  | At _, Sp r k _ => r = n /\ (k = 1 \/ (k = n /\ pure = false))
  | Times ts, V2 r k _ => r = n /\ k = length ts
  | Times ts, V3 r m k _ => r = n /\ m = n /\ k = length ts
  | _, _ => False
  end.
Definition times_of (tm : time) (t : R) : Prop := match tm with At u => t = u | Times ts => In t ts end.

Lemma vdot_vec n f g : vdot (V1 n f) (V1 n g) = Num (inner n f g). Proof. unfold vdot. cbn [flat]. rewrite Nat.eqb_refl. reflexivity. Qed.
Lemma vdot_col n f g : vdot (V2 n 1 f) (V1 n g) = Num (inner n (column f 0) g).
Proof.
  unfold vdot. cbn [flat]. rewrite Nat.mul_1_r, Nat.eqb_refl. f_equal. unfold inner. apply Csum_ext. intros i _. rewrite Nat.div_1_r, Nat.mod_1_r. reflexivity.
Qed.
(* the core function applied to the array V and an array of the same shape *)
Definition like (V : array) (g1 : vec) (g2 : mat) (g3 : nat -> nat -> nat -> C) : array :=
  match V with V1 r _ => V1 r g1 | V2 r k _ => V2 r k g2 | V3 r m k _ => V3 r m k g3 | Sp r k _ => Sp r k g2 end.
Lemma eqb_ne a b : a <> b -> (a =? b) = false. Proof. intros. apply Nat.eqb_neq. assumption. Qed.

(* one number for a matrix with one column or a density matrix, a list otherwise; F is given the number of a column *)
Definition shaped (r k : nat) (pure : bool) (l : list C) : result :=
  if k =? 1 then match l with z :: _ => Num z | [] => Raises end else if (r =? k) && negb pure then match l with z :: _ => Num z | [] => Raises end else Nums l.
Lemma core_dense n k f g pure : 2 <= n -> core_one (V2 n k f) (V2 n k g) pure =
  shaped n k pure (if (n =? k) && negb pure then [tr n g] else map (fun m => inner n (column f m) (column g m)) (seq 0 k)).
Proof.
  intros Hn. unfold core_one, squeeze, shaped. rewrite (eqb_ne n 1) by lia. destruct (Nat.eqb_spec k 1) as [->|N1].
  - rewrite (eqb_ne n 1) by lia. cbn [andb seq map]. apply vdot_col.
  - destruct (Nat.eqb_spec n k) as [<-|N2]; destruct pure; cbn [negb orb andb]; rewrite ?Nat.eqb_refl; reflexivity.
Qed.
Lemma dev (a a' b b' : C) : a = a' -> b = b' -> (a - b * b)%C = (a' - b' * b')%C. Proof. intros -> ->. reflexivity. Qed.
Lemma one (a b : C) : a = b -> Some [a] = Some [b]. Proof. intros ->. reflexivity. Qed.
Lemma core_vec n f g pure : 2 <= n -> core_one (V1 n f) (V1 n g) pure = Num (inner n f g).
Proof. intros Hn. unfold core_one, squeeze. rewrite (eqb_ne n 1) by lia. apply vdot_vec. Qed.
Lemma dot_value H tm V W : dot H tm V = Some W -> rows V = Ns H.
Proof. unfold dot. destruct (Nat.eqb_spec (rows V) (Ns H)); [auto|discriminate]. Qed.

Lemma map_seq_ext {X} (F G : nat -> X) k : (forall m, m < k -> F m = G m) -> map F (seq 0 k) = map G (seq 0 k).
Proof. intros H. apply map_ext_in. intros m Hm. apply in_seq in Hm. apply H. lia. Qed.
Lemma values_shaped r k pure l : (k = 1 \/ ((r =? k) && negb pure = true) -> length l = 1) -> values (shaped r k pure l) = Some l.
Proof.
  intros Hl. unfold shaped. destruct (Nat.eqb_spec k 1).
  - destruct l as [|z [|y l]]; try reflexivity; specialize (Hl (or_introl e)); cbn in Hl; lia.
  - destruct ((r =? k) && negb pure); [|reflexivity]. destruct l as [|z [|y l]]; try reflexivity; specialize (Hl (or_intror eq_refl)); cbn in Hl; lia.
Qed.

(* expt_value returns the mean of H(t) in every state the array stands for, in order; the Hilbert space has at least two states *)
Theorem C45_expt_value : forall H tm pure V, 2 <= Ns H -> handled (Ns H) tm pure V ->
  values (expt_value H tm pure V) = Some (map (fun p => mean (Ns H) (at_time H (fst p)) (snd p)) (interpret tm pure V)).
Proof.
  intros H tm pure V Hn HV. unfold expt_value. rewrite (eqb_ne (Ns H) 0) by lia. set (n := Ns H) in *.
  destruct tm as [t|ts], V as [r f|r k f|r m k f|r k f]; cbn [handled] in HV; try contradiction; unfold dot; cbn [rows]; fold n.
  - subst r. rewrite Nat.eqb_refl. cbn [negb core]. unfold core_one, squeeze. rewrite (eqb_ne n 1) by lia. rewrite vdot_vec. cbn [values interpret map fst snd mean]. do 2 f_equal.
    apply inner_ext; [reflexivity|]. intros i _. apply product_apply.
  - subst r. rewrite Nat.eqb_refl. cbn [negb core]. rewrite core_dense by exact Hn. rewrite values_shaped.
    + f_equal. cbn [interpret]. destruct ((n =? k) && negb pure); cbn [map fst snd mean].
      * f_equal. apply tr_ext. intros i _. apply product_apply.
      * rewrite map_map. apply map_seq_ext. intros m _. cbn [fst snd mean]. apply inner_ext; [reflexivity|]. intros i _. apply product_apply.
    + intros [->|E]; [|rewrite E; reflexivity]. destruct ((n =? 1) && negb pure); reflexivity.
  - destruct HV as [-> HV]. rewrite Nat.eqb_refl. cbn [negb core core_one interpret]. destruct HV as [->|[-> ->]].
    + rewrite (eqb_ne n 1) by lia. cbn [negb orb andb Nat.mul Nat.add Nat.eqb values map seq fst snd mean]. do 2 f_equal. apply Csum_ext. intros i _. rewrite product_apply. reflexivity.
    + rewrite Nat.eqb_refl. cbn [negb orb andb values map fst snd mean]. do 2 f_equal. apply Csum_ext. intros i _. apply product_apply.
  - destruct HV as [-> ->]. rewrite !Nat.eqb_refl. cbn [negb core core_times]. rewrite !Nat.eqb_refl. cbn [andb values interpret]. f_equal. unfold columns_dot. rewrite map_map.
    apply map_ext. intros m. cbn [fst snd mean]. apply inner_ext; [reflexivity|]. intros i _. apply product_apply.
  - destruct HV as (-> & -> & ->). rewrite !Nat.eqb_refl. cbn [negb core core_times andb]. rewrite !Nat.eqb_refl. cbn [values interpret]. f_equal. rewrite map_map.
    apply map_ext. intros c. cbn [fst snd mean]. apply Csum_ext. intros i _. apply product_apply.
Qed.
Print Assumptions C45_expt_value.

(* Expectation values of Hermitian operators are real; density matrices are to be Hermitian. *)
Theorem C45_expt_real : forall H tm pure V, 2 <= Ns H -> handled (Ns H) tm pure V ->
  (forall p, In p (interpret tm pure V) -> hermitian (Ns H) (at_time H (fst p)) /\ hermitian_state (Ns H) (snd p)) ->
  exists l, values (expt_value H tm pure V) = Some l /\ forall z, In z l -> snd z = 0%R.
Proof.
  intros H tm pure V Hn HV HH. eexists. split; [apply C45_expt_value; assumption|]. intros z Hz. apply in_map_iff in Hz. destruct Hz as (p & <- & Hp).
  destruct (HH p Hp). apply mean_real; assumption.
Qed.
Print Assumptions C45_expt_real.

Lemma minus_values l l' : length l = length l' -> forall k pure r, (k = 1 \/ ((r =? k) && negb pure = true) -> length l = 1) ->
  values (minus (shaped r k pure l) (square (shaped r k pure l'))) = Some (map (fun p => fst p - snd p * snd p)%C (combine l l')).
Proof.
  intros E k pure r Hl.
  assert (N : minus (Nums l) (square (Nums l')) = Nums (map (fun p => fst p - snd p * snd p)%C (combine l l'))).
  { cbn [square minus]. rewrite map_length, E, Nat.eqb_refl. f_equal. clear. revert l'. induction l as [|x l IH]; intros [|y l']; try reflexivity. cbn [map combine fst snd]. rewrite IH. reflexivity. }
  unfold shaped. destruct (Nat.eqb_spec k 1) as [K|K].
  - specialize (Hl (or_introl K)). destruct l as [|x [|? ?]], l' as [|y [|? ?]]; cbn in *; try lia. reflexivity.
  - destruct ((r =? k) && negb pure) eqn:B; [|rewrite N; reflexivity].
    specialize (Hl (or_intror eq_refl)). destruct l as [|x [|? ?]], l' as [|y [|? ?]]; cbn in *; try lia. reflexivity.
Qed.
Lemma combine_maps {X} (F G : X -> C) l : combine (map F l) (map G l) = map (fun x => (F x, G x)) l.
Proof. induction l as [|x l IH]; [reflexivity|]. cbn [map combine]. rewrite IH. reflexivity. Qed.
Lemma twice H t u v : (forall i, u i = product H t v i) -> hermitian (Ns H) (at_time H t) -> inner (Ns H) u u = inner (Ns H) v (apply (Ns H) (mul (Ns H) (at_time H t) (at_time H t)) v).
Proof.
  intros E HA. set (n := Ns H). set (A := at_time H t) in *. rewrite (inner_ext n v v _ (apply n A (apply n A v))) by (intros; try reflexivity; apply apply_mul).
  rewrite self_adjoint by exact HA. apply inner_ext; intros i _; rewrite E, product_apply; reflexivity.
Qed.
Lemma twice_right H t f i : product H t (fun j => product H t f j) i = apply (Ns H) (mul (Ns H) (at_time H t) (at_time H t)) f i.
Proof. rewrite product_apply, apply_mul. unfold apply at 1 3. apply Csum_ext. intros j _. rewrite product_apply. reflexivity. Qed.

(* quant_fluct returns <H^2> - <H>^2 in every state; a three-dimensional array must not be used with enforce_pure *)
Theorem C45_quant_fluct : forall H tm pure V, 2 <= Ns H -> handled (Ns H) tm pure V -> (match V with V3 _ _ _ _ => pure = false | _ => True end) ->
  (forall p, In p (interpret tm pure V) -> hermitian (Ns H) (at_time H (fst p))) ->
  values (quant_fluct H tm pure V) = Some (map (fun p => variance (Ns H) (at_time H (fst p)) (snd p)) (interpret tm pure V)).
Proof.
  intros H tm pure V Hn HV HP HH. unfold quant_fluct. rewrite (eqb_ne (Ns H) 0) by lia. set (n := Ns H) in *.
  destruct tm as [t|ts], V as [r f|r k f|r m k f|r k f]; cbn [handled] in HV; try contradiction; unfold dot; cbn [rows]; fold n.
  - subst r. rewrite Nat.eqb_refl. cbn [negb core oblong orb]. assert (HA : hermitian n (at_time H t)) by (apply (HH (t, Ket f)); left; reflexivity).
    cbn [rows]. rewrite Nat.eqb_refl. cbn [negb]. rewrite !core_vec by exact Hn. cbn [interpret map fst snd].
    assert (E1 : inner n f (product H t f) = mean n (at_time H t) (Ket f)) by (apply inner_ext; [reflexivity|]; intros i _; apply product_apply).
    assert (E2 : inner n (product H t f) (product H t f) = mean n (mul n (at_time H t) (at_time H t)) (Ket f)) by (apply (twice H t); [reflexivity|exact HA]).
    assert (E3 : inner n f (product H t (product H t f)) = mean n (mul n (at_time H t) (at_time H t)) (Ket f)) by (apply inner_ext; [reflexivity|]; intros i _; apply (twice_right H t f)).
    destruct pure; cbn [square minus values]; rewrite E1, ?E2, ?E3; reflexivity.
  - subst r. rewrite Nat.eqb_refl. cbn [negb core oblong rows]. rewrite !core_dense by exact Hn. cbn [interpret] in *.
    destruct ((n =? k) && negb pure) eqn:B.
    + apply andb_prop in B. destruct B as [B1 B2]. apply Nat.eqb_eq in B1. subst k. destruct pure; [discriminate|]. cbn [negb orb]. rewrite !Nat.eqb_refl. cbn [negb orb andb].
      rewrite !core_dense by exact Hn. rewrite Nat.eqb_refl. cbn [negb andb]. rewrite minus_values by reflexivity. cbn [combine map fst snd]. unfold variance. cbn [mean]. apply one, dev.
      * apply tr_ext. intros i _. apply (twice_right H t (fun j => f j i)).
      * apply tr_ext. intros i _. apply product_apply.
    + assert (OB : negb (n =? k) || pure = true) by (destruct (n =? k), pure; try reflexivity; discriminate). rewrite OB. rewrite ?B. rewrite ?core_dense by exact Hn. rewrite ?B.
      rewrite minus_values; [|rewrite !map_length; reflexivity|intros [->|X]; [reflexivity|rewrite X in B; discriminate]].
      rewrite combine_maps, !map_map. f_equal. apply map_seq_ext. intros m Hm. cbn [fst snd]. unfold variance. cbn [mean].
      assert (HA : hermitian n (at_time H t)) by (apply (HH (t, Ket (column f m))); apply (in_map (fun m => (t, Ket (column f m)))), in_seq; lia).
      assert (E1 : inner n (column f m) (column (fun i m0 => product H t (column f m0) i) m) = inner n (column f m) (apply n (at_time H t) (column f m))) by (apply inner_ext; [reflexivity|]; intros i _; apply product_apply).
      rewrite E1. f_equal. apply (twice H t); [reflexivity|exact HA].
  - destruct HV as [-> HV]. rewrite Nat.eqb_refl. cbn [negb core oblong]. destruct HV as [->|[-> ->]].
    + rewrite (eqb_ne n 1) by lia. cbn [negb orb core_one]. rewrite (eqb_ne n 1) by lia. cbn [negb orb Nat.mul Nat.add Nat.eqb square minus values interpret]. rewrite (eqb_ne n 1) by lia. cbn [andb map seq fst snd]. unfold variance. cbn [mean].
      cbn [interpret] in HH. rewrite (eqb_ne n 1) in HH by lia.
      assert (HA : hermitian n (at_time H t)) by (apply (HH (t, Ket (column f 0))); left; reflexivity).
      assert (E1 : Csum (seq 0 n) (fun i => Cconj (f i 0) * product H t (column f 0) i)%C = inner n (column f 0) (apply n (at_time H t) (column f 0))).
      { unfold inner. apply Csum_ext. intros i _. rewrite product_apply. reflexivity. }
      rewrite E1. apply one, dev; [|reflexivity]. apply (twice H t (product H t (column f 0))); [reflexivity|exact HA].
    + rewrite Nat.eqb_refl. cbn [negb orb rows core_one]. rewrite !Nat.eqb_refl. cbn [negb orb core_one]. rewrite !Nat.eqb_refl. cbn [negb orb core_one square minus values interpret]. rewrite Nat.eqb_refl. cbn [negb andb map fst snd]. unfold variance. cbn [mean].
      apply one, dev.
      * apply Csum_ext. intros i _. apply (twice_right H t (fun j => f j i)).
      * apply Csum_ext. intros i _. apply product_apply.
  - destruct HV as [-> ->]. rewrite !Nat.eqb_refl. cbn [negb core oblong rows]. cbn [interpret] in *. rewrite !Nat.eqb_refl. cbn [negb core_times andb]. rewrite !Nat.eqb_refl. cbn [andb].
    set (F := fun m => product H (nth m ts 0%R) (column f m)).
    assert (E1 : columns_dot n (length ts) f (fun i m => F m i) = map (fun m => mean n (at_time H (nth m ts 0%R)) (Ket (column f m))) (seq 0 (length ts))).
    { apply map_ext. intros m. cbn [mean]. apply inner_ext; [reflexivity|]. intros i _. apply product_apply. }
    assert (HA : forall m, m < length ts -> hermitian n (at_time H (nth m ts 0%R))).
    { intros m Hm. apply (HH (nth m ts 0%R, Ket (column f m))). apply (in_map (fun m => (nth m ts 0%R, Ket (column f m)))), in_seq. lia. }
    assert (E2 : columns_dot n (length ts) (fun i m => F m i) (fun i m => F m i) = map (fun m => mean n (mul n (at_time H (nth m ts 0%R)) (at_time H (nth m ts 0%R))) (Ket (column f m))) (seq 0 (length ts))).
    { apply map_seq_ext. intros m Hm. cbn [mean]. apply (twice H (nth m ts 0%R) (F m)); [reflexivity|apply HA, Hm]. }
    assert (E3 : columns_dot n (length ts) f (fun i m => product H (nth m ts 0%R) (column (fun i0 m0 => F m0 i0) m) i) = map (fun m => mean n (mul n (at_time H (nth m ts 0%R)) (at_time H (nth m ts 0%R))) (Ket (column f m))) (seq 0 (length ts))).
    { apply map_seq_ext. intros m Hm. cbn [mean]. apply inner_ext; [reflexivity|]. intros i _. apply (twice_right H (nth m ts 0%R) (column f m)). }
    assert (D : forall l l', l = map (fun m => mean n (mul n (at_time H (nth m ts 0%R)) (at_time H (nth m ts 0%R))) (Ket (column f m))) (seq 0 (length ts)) -> l' = map (fun m => mean n (at_time H (nth m ts 0%R)) (Ket (column f m))) (seq 0 (length ts)) ->
      values (minus (Nums l) (square (Nums l'))) = Some (map (fun p => variance n (at_time H (fst p)) (snd p)) (map (fun m => (nth m ts 0%R, Ket (column f m))) (seq 0 (length ts))))).
    { intros l l' -> ->. cbn [square minus]. rewrite !map_length, Nat.eqb_refl. cbn [values]. rewrite !map_map, combine_maps, map_map. reflexivity. }
    destruct (negb (n =? length ts) || pure).
    + apply D; [exact E2|exact E1].
    + cbn [core_times]. rewrite ?Nat.eqb_refl. cbn [andb]. apply D; [exact E3|exact E1].
  - destruct HV as (-> & -> & ->). subst pure. rewrite ?Nat.eqb_refl. cbn [negb core core_times andb oblong orb rows]. rewrite ?Nat.eqb_refl. cbn [negb core_times andb orb rows]. rewrite ?Nat.eqb_refl. cbn [negb core_times andb square minus]. rewrite ?Nat.eqb_refl. cbn [square minus]. rewrite !map_length, Nat.eqb_refl. cbn [values interpret].
    rewrite !map_map, combine_maps, map_map. f_equal. apply map_ext. intros c. cbn [fst snd]. unfold variance. cbn [mean]. apply dev.
    + apply Csum_ext. intros i _. apply (twice_right H (nth c ts 0%R) (fun j => f j i c)).
    + apply Csum_ext; intros i _; apply product_apply.
Qed.
Print Assumptions C45_quant_fluct.

(* Quantum fluctuations of Hermitian operators in normalised states are real and not negative. *)
Theorem C45_quant_fluct_positive : forall H tm pure V, 2 <= Ns H -> handled (Ns H) tm pure V -> (match V with V3 _ _ _ _ => pure = false | _ => True end) ->
  (forall p, In p (interpret tm pure V) -> hermitian (Ns H) (at_time H (fst p)) /\ normalised_state (Ns H) (snd p)) ->
  exists l, values (quant_fluct H tm pure V) = Some l /\ forall z, In z l -> snd z = 0%R /\ (0 <= fst z)%R.
Proof.
  intros H tm pure V Hn HV HP HH. eexists. split; [apply C45_quant_fluct; try assumption; intros p Hp; apply HH, Hp|]. intros z Hz. apply in_map_iff in Hz. destruct Hz as (p & <- & Hp).
  destruct (HH p Hp) as [HA HS]. assert (HS' : hermitian_state (Ns H) (snd p)) by (destruct (snd p); [exact I|apply HS]).
  split; [apply variance_real|apply variance_pos]; assumption.
Qed.
Print Assumptions C45_quant_fluct_positive.

(* the vectors an array consists of, and the times at which the operator acts on them *)
Definition kets (V : array) : list vec := match V with V1 _ f => [f] | V2 _ k f | Sp _ k f => map (column f) (seq 0 k) | V3 _ _ _ _ => [] end.
Definition kets_at (tm : time) (V : array) : list (R * vec) :=
  match tm with At t => map (pair t) (kets V) | Times ts => combine ts (kets V) end.
Definition bracket (H : operator) (l : vec) (p : R * vec) : C := inner (Ns H) l (apply (Ns H) (at_time H (fst p)) (snd p)).
(* all the numbers of a result, row by row *)
Definition entries (r : result) : option (list C) := match r with Num z => Some [z] | Nums l => Some l | Tab ll => Some (concat ll) | Raises => None end.
(* a scipy matrix on the right needs one on the left; with a list of times the right array is a dense matrix with one column for each *)
Definition pairable (n : nat) (tm : time) (Vl Vr : array) : Prop :=
  rows Vl = n /\ rows Vr = n /\ match Vl with V3 _ _ _ _ => False | _ => True end /\
  match tm, Vr with
  | At _, (V1 _ _ | V2 _ _ _) => True
  | At _, Sp _ _ _ => match Vl with Sp _ _ _ => True | _ => False end
  | Times ts, V2 _ k _ => k = length ts
  | _, _ => False
  end.
Lemma combine_columns ts (g : nat -> vec) : forall s, combine ts (map g (seq s (length ts))) = map (fun m => (nth (m - s) ts 0%R, g m)) (seq s (length ts)).
Proof.
  induction ts as [|t ts IH]; intros s; [reflexivity|]. cbn [length seq map combine]. rewrite Nat.sub_diag. cbn [nth]. f_equal. rewrite IH. apply map_ext_in.
  intros m Hm. apply in_seq in Hm. replace (m - s) with (S (m - S s)) by lia. reflexivity.
Qed.
Lemma concat_table k k' F : concat (table k k' F) = flat_map (fun a => map (F a) (seq 0 k')) (seq 0 k).
Proof. unfold table. rewrite flat_map_concat_map. reflexivity. Qed.
Lemma flat_map_map {X Y Z} (F : Y -> list Z) (g : X -> Y) l : flat_map F (map g l) = flat_map (fun x => F (g x)) l.
Proof. induction l as [|x l IH]; [reflexivity|]. cbn [map flat_map]. rewrite IH. reflexivity. Qed.
Lemma flat_map_single {X Y} (F : X -> Y) l : flat_map (fun x => [F x]) l = map F l.
Proof. induction l as [|x l IH]; [reflexivity|]. cbn [map flat_map app]. rewrite IH. reflexivity. Qed.
Lemma flat_map_eq {X Y} (F G : X -> list Y) l : (forall x, F x = G x) -> flat_map F l = flat_map G l.
Proof. intros H. induction l as [|x l IH]; [reflexivity|]. cbn [flat_map]. rewrite IH, H. reflexivity. Qed.
(* the array the operator produces: its columns are the images, in order *)
Lemma dot_kets H tm Vl Vr : pairable (Ns H) tm Vl Vr ->
  exists W, dot H tm Vr = Some W /\ rows W = Ns H /\ match W, Vr with V1 _ _, V1 _ _ | V2 _ _ _, V2 _ _ _ | Sp _ _ _, Sp _ _ _ => True | _, _ => False end /\
  length (kets W) = length (kets_at tm Vr) /\ forall l, map (inner (Ns H) l) (kets W) = map (bracket H l) (kets_at tm Vr).
Proof.
  intros (Hl & Hr & H3 & HP). unfold dot. rewrite Hr, Nat.eqb_refl. cbn [negb].
  destruct tm as [t|ts], Vr as [r f|r k f|r m k f|r k f]; try contradiction; cbn [rows] in Hr.
  - eexists; split; [reflexivity|]. split; [exact Hr|]. split; [exact I|]. split; [reflexivity|]. intros l. cbn [kets kets_at map]. f_equal. unfold bracket. cbn [fst snd]. apply inner_ext; [reflexivity|]. intros i _. apply product_apply.
  - eexists; split; [reflexivity|]. split; [exact Hr|]. split; [exact I|]. split; [cbn [kets kets_at]; rewrite !map_length; reflexivity|]. intros l. cbn [kets kets_at]. rewrite !map_map. apply map_ext. intros m. unfold bracket. cbn [fst snd]. apply inner_ext; [reflexivity|]. intros i _. apply product_apply.
  - eexists; split; [reflexivity|]. split; [exact Hr|]. split; [exact I|]. split; [cbn [kets kets_at]; rewrite !map_length; reflexivity|]. intros l. cbn [kets kets_at]. rewrite !map_map. apply map_ext. intros m. unfold bracket. cbn [fst snd]. apply inner_ext; [reflexivity|]. intros i _. apply product_apply.
  - subst k. rewrite Nat.eqb_refl. eexists; split; [reflexivity|]. split; [exact Hr|]. split; [exact I|]. cbn [kets kets_at]. rewrite combine_columns. split; [rewrite !map_length; reflexivity|].
    intros l. rewrite !map_map. apply map_ext. intros m. rewrite Nat.sub_0_r. unfold bracket. cbn [fst snd]. apply inner_ext; [reflexivity|]. intros i _. apply product_apply.
Qed.

(* matrix_ele returns <l|H(t)|r> for every pair: the first index belongs to the left argument *)
Theorem C45_matrix_ele : forall H tm Vl Vr, pairable (Ns H) tm Vl Vr ->
  entries (matrix_ele H tm false Vl Vr) = Some (flat_map (fun l => map (bracket H l) (kets_at tm Vr)) (kets Vl)).
Proof.
  intros H tm Vl Vr HP. destruct (dot_kets H tm Vl Vr HP) as (W & HW & HR & HS & _ & HB). unfold matrix_ele. rewrite HW.
  destruct HP as (Hl & Hr & H3 & HP). rewrite Hl, Nat.eqb_refl. cbn [negb].
  rewrite (flat_map_eq _ (fun l => map (inner (Ns H) l) (kets W))) by (intros; rewrite HB; reflexivity).
  destruct Vl as [rl f|rl k f|rl m k f|rl k f]; try contradiction; destruct W as [rw g|rw k' g|rw m' k' g|rw k' g]; try contradiction; cbn [kets map flat_map entries app];
    rewrite ?concat_table, ?flat_map_map, ?app_nil_r, ?map_map; try reflexivity.
  all: first [solve [destruct Vr; try contradiction; destruct tm; contradiction] | f_equal; symmetry; apply flat_map_single | f_equal; apply flat_map_eq; intros a; rewrite map_map; reflexivity].
Qed.
Print Assumptions C45_matrix_ele.

(* with diagonal=True, the elements of corresponding columns *)
Theorem C45_matrix_ele_diagonal : forall H tm Vl Vr, pairable (Ns H) tm Vl Vr -> (match Vl, Vr with V1 _ _, _ | _, V1 _ _ => False | _, _ => True end) ->
  length (kets Vl) = length (kets_at tm Vr) ->
  entries (matrix_ele H tm true Vl Vr) = Some (map (fun p => bracket H (fst p) (snd p)) (combine (kets Vl) (kets_at tm Vr))).
Proof.
  intros H tm Vl Vr HP HV HL. destruct (dot_kets H tm Vl Vr HP) as (W & HW & HR & HS & HK & HB). unfold matrix_ele. rewrite HW.
  destruct HP as (Hl & Hr & H3 & HP). rewrite Hl, Nat.eqb_refl. cbn [negb].
  assert (E : map (fun p => bracket H (fst p) (snd p)) (combine (kets Vl) (kets_at tm Vr)) = map (fun p => inner (Ns H) (fst p) (snd p)) (combine (kets Vl) (kets W))).
  { apply (nth_ext _ _ C0 C0); [rewrite !map_length, !combine_length; lia|]. intros i Hi. rewrite map_length, combine_length in Hi.
    assert (Z : forall l, nth i (map (inner (Ns H) l) (kets W)) C0 = nth i (map (bracket H l) (kets_at tm Vr)) C0) by (intros; rewrite HB; reflexivity).
    rewrite (nth_indep _ C0 (bracket H (fst (fun _ : nat => C0, (0%R, fun _ : nat => C0))) (snd (fun _ : nat => C0, (0%R, fun _ : nat => C0))))) by (rewrite map_length, combine_length; lia).
    rewrite (map_nth (fun p => bracket H (fst p) (snd p))).
    rewrite (nth_indep _ C0 (inner (Ns H) (fst (fun _ : nat => C0, fun _ : nat => C0)) (snd (fun _ : nat => C0, fun _ : nat => C0)))) by (rewrite map_length, combine_length; lia).
    rewrite (map_nth (fun p => inner (Ns H) (fst p) (snd p))). rewrite (combine_nth (kets Vl) (kets_at tm Vr)) by exact HL. rewrite (combine_nth (kets Vl) (kets W)) by (rewrite HL; symmetry; exact HK). cbn [fst snd]. specialize (Z (nth i (kets Vl) (fun _ => C0))).
    rewrite (nth_indep (map (inner _ _) _) C0 (inner (Ns H) (nth i (kets Vl) (fun _ => C0)) (fun _ => C0))) in Z by (rewrite map_length; lia).
    rewrite (nth_indep (map (bracket _ _) _) C0 (bracket H (nth i (kets Vl) (fun _ => C0)) (0%R, fun _ => C0))) in Z by (rewrite map_length; lia).
    rewrite !map_nth in Z. symmetry. exact Z. }
  rewrite E. rewrite <- HK in HL.
  destruct Vl as [rl f|rl k f|rl m k f|rl k f]; try contradiction; destruct W as [rw g|rw k' g|rw m' k' g|rw k' g], Vr; try contradiction; cbn [kets] in *; rewrite !map_length, !seq_length in HL; subst.
  all: try (destruct tm; contradiction).
  all: rewrite Nat.eqb_refl; cbn [entries]; f_equal; clear; generalize (seq 0 k') as s; intros s; induction s as [|a s IH]; [reflexivity|]; cbn [map combine fst snd]; f_equal; exact IH.
Qed.
Print Assumptions C45_matrix_ele_diagonal.

Definition lin (a : C) (u : vec) (b : C) (v : vec) : vec := fun i => (a * u i + b * v i)%C.
Lemma inner_lin_r n l a u b v : inner n l (lin a u b v) = (a * inner n l u + b * inner n l v)%C.
Proof. unfold inner, lin. rewrite <- !Csum_mul_l, <- Csum_add. apply Csum_ext. intros i _. ring. Qed.
Lemma inner_lin_l n a u b v r : inner n (lin a u b v) r = (Cconj a * inner n u r + Cconj b * inner n v r)%C.
Proof. rewrite <- inner_conj, inner_lin_r, Cconj_add, !Cconj_mul, !inner_conj. reflexivity. Qed.
Lemma apply_lin n A a u b v i : apply n A (lin a u b v) i = lin a (apply n A u) b (apply n A v) i.
Proof. unfold apply, lin. rewrite <- !Csum_mul_l, <- Csum_add. apply Csum_ext. intros j _. ring. Qed.
(* conjugate-linear on the left, linear on the right, and symmetric up to conjugation for Hermitian operators *)
Theorem C45_matrix_ele_sesquilinear : forall H t l l' r r' a b, let n := Ns H in let me l r := matrix_ele H (At t) false (V1 n l) (V1 n r) in
  exists x x' y y', me l r = Num x /\ me l' r = Num x' /\ me l r' = Num y /\ me r l = Num y' /\
  me (lin a l b l') r = Num (Cconj a * x + Cconj b * x')%C /\ me l (lin a r b r') = Num (a * x + b * y)%C /\
  (hermitian n (at_time H t) -> y' = Cconj x).
Proof.
  intros H t l l' r r' a b n me.
  assert (E : forall f g, me f g = Num (inner n f (apply n (at_time H t) g))).
  { intros f g. unfold me, matrix_ele, dot. cbn [rows]. rewrite Nat.eqb_refl. cbn [negb]. f_equal. apply inner_ext; [reflexivity|]. intros i _. apply product_apply. }
  do 4 eexists. split; [apply E|]. split; [apply E|]. split; [apply E|]. split; [apply E|]. split; [|split].
  - rewrite E. f_equal. apply inner_lin_l.
  - rewrite E. f_equal. rewrite <- inner_lin_r. apply inner_ext; [reflexivity|]. intros i _. apply apply_lin.
  - intros HA. rewrite inner_conj. apply self_adjoint, HA.
Qed.
Print Assumptions C45_matrix_ele_sesquilinear.

(* the expectation value is the matrix element between equal states *)
Theorem C45_expt_value_matrix_ele : forall H t pure v, 2 <= Ns H ->
  expt_value H (At t) pure (V1 (Ns H) v) = matrix_ele H (At t) false (V1 (Ns H) v) (V1 (Ns H) v).
Proof.
  intros H t pure v Hn. unfold expt_value, matrix_ele, dot. rewrite (eqb_ne (Ns H) 0) by lia. cbn [rows]. rewrite Nat.eqb_refl. cbn [negb core]. rewrite core_vec by exact Hn. reflexivity.
Qed.
Print Assumptions C45_expt_value_matrix_ele.

(* quantum_operator.expt_value, for the matrix A of the given parameters: the same meaning *)
Theorem C45_quantum_operator : forall n A pure V, 2 <= n -> handled n (At 0%R) pure V ->
  values (q_expt_value n A pure V) = Some (map (fun p => mean n A (snd p)) (interpret (At 0%R) pure V)).
Proof.
  intros n A pure V Hn HV. set (H := {| Ns := n; fixed := A; driven := [] |}).
  assert (P : forall v i, product H 0%R v i = apply n A v i) by reflexivity.
  assert (Q : forall u v, (forall i, i < n -> u i = v i) -> forall i, apply n A u i = apply n A v i).
  { intros u v E i. apply Csum_ext. intros j Hj. apply in_seq in Hj. rewrite E by lia. reflexivity. }
  assert (AT : forall i j, at_time H 0%R i j = A i j) by (intros; unfold at_time, H; cbn; ring).
  assert (M : forall s, mean n (at_time H 0%R) s = mean n A s).
  { intros [v|rho]; cbn [mean].
    - apply inner_ext; [reflexivity|]. intros i _. apply Csum_ext. intros j _. rewrite AT. reflexivity.
    - apply tr_ext. intros i _. apply Csum_ext. intros j _. rewrite AT. reflexivity. }
  assert (E : q_expt_value n A pure V = expt_value H (At 0%R) pure V).
  { unfold q_expt_value, expt_value. cbn [Ns H]. rewrite (eqb_ne n 0) by lia. destruct V; reflexivity. }
  rewrite E, (C45_expt_value H) by assumption. f_equal. apply map_ext_in. intros [t s] Hp. cbn [fst snd Ns H].
  assert (t = 0%R). { destruct V as [r f|r k f|r m k f|r k f]; cbn [interpret] in Hp; try contradiction; try destruct ((r =? k) && negb pure); cbn [In] in Hp; try (destruct Hp as [Hp|[]]; inversion Hp; reflexivity); apply in_map_iff in Hp; destruct Hp as (? & Hp & _); inversion Hp; reflexivity. }
  subst t. apply M.
Qed.
Print Assumptions C45_quantum_operator.

(* --- what goes wrong --- *)
(* A Hilbert space with one state: no expectation value of one state, and one number, the sum, instead of one for each column. *)
Theorem C45_one_state_refuted :
  (forall H t pure v f, Ns H = 1 -> expt_value H (At t) pure (V1 1 v) = Raises /\ expt_value H (At t) pure (V2 1 1 f) = Raises) /\
  (exists H f, Ns H = 1 /\ values (expt_value H (At 0%R) false (V2 1 2 f)) = Some [C1] /\
    map (fun p => mean 1 (at_time H (fst p)) (snd p)) (interpret (At 0%R) false (V2 1 2 f)) = [C1; C0]).
Proof.
  split.
  - intros H t pure v f HN. unfold expt_value, dot. rewrite HN. cbn. auto.
  - exists {| Ns := 1; fixed := fun _ _ => C1; driven := [] |}, (fun _ m => if m =? 0 then C1 else C0). split; [reflexivity|]. split.
    + cbn. do 2 f_equal. apply C_eq; cbn; lra.
    + cbn. f_equal; [|f_equal]; apply C_eq; cbn; lra.
Qed.
Print Assumptions C45_one_state_refuted.

(* Several sparse pure states, and sparse states with a list of times, always raise. *)
Theorem C45_sparse_refuted :
  (forall H t r k f pure, 2 <= k -> (k <> r \/ pure = true) -> expt_value H (At t) pure (Sp r k f) = if Ns H =? 0 then Nums [] else Raises) /\
  (forall H ts r k f pure, expt_value H (Times ts) pure (Sp r k f) = if Ns H =? 0 then Nums [] else Raises).
Proof.
  split; intros; unfold expt_value, dot; destruct (Ns H =? 0); try reflexivity; cbn [rows]; destruct (negb (r =? Ns H)); try reflexivity.
  cbn [core core_one]. replace (negb (r =? k) || pure) with true.
  - rewrite (eqb_ne (k * k) 1) by nia. reflexivity.
  - destruct H1 as [N| ->]; [rewrite (eqb_ne r k) by lia; reflexivity|destruct (r =? k); reflexivity].
Qed.
Print Assumptions C45_sparse_refuted.

(* quant_fluct of quantum_operator raises for every vector and every density matrix, and that of quantum_LinearOperator always. *)
Theorem C45_fluct_refuted : forall n A, n <> 0 ->
  (forall pure r f, q_quant_fluct n A pure (V1 r f) = Raises) /\ (forall f, q_quant_fluct n A false (V2 n n f) = Raises) /\ (forall pure V, l_quant_fluct n A pure V = Raises).
Proof.
  intros n A Hn. unfold q_quant_fluct, l_quant_fluct. rewrite (eqb_ne n 0) by exact Hn. split; [|split].
  - intros pure r f. destruct (q_dot n A (V1 r f)); [|reflexivity]. destruct (square _); reflexivity.
  - intros f. unfold q_dot. cbn [rows]. rewrite Nat.eqb_refl. cbn [negb oblong orb]. rewrite Nat.eqb_refl. cbn [negb orb]. destruct (square _); reflexivity.
  - reflexivity.
Qed.
Print Assumptions C45_fluct_refuted.

(* --- hypotheses: a two-level system with a real drive, and a normalised vector and density matrix --- *)
Definition flip_drive : operator :=
  {| Ns := 2; fixed := fun i j => if i =? j then if i =? 0 then C1 else (-C1)%C else C0; driven := [((fun t => (t, 0%R)), fun i j => if i =? j then C0 else C1)] |}.
Definition up : vec := fun i => if i =? 0 then C1 else C0.
Definition half : mat := fun i j => if i =? j then ((1 / 2)%R, 0%R) else C0.
Example C45_hyps :
  handled 2 (Times [0%R; 2%R]) false (V2 2 2 (fun i m => up i)) /\ handled 2 (Times [3%R]) false (V3 2 2 1 (fun i j _ => half i j)) /\
  (forall t, hermitian 2 (at_time flip_drive t)) /\ normalised_state 2 (Ket up) /\ normalised_state 2 (Density half) /\
  values (quant_fluct flip_drive (Times [0%R; 2%R]) false (V2 2 2 (fun i m => up i))) = Some [C0; (4%R, 0%R)].
Proof.
  split; [cbn; lia|]. split; [cbn; lia|]. split; [|split; [|split]].
  - intros t i j Hi Hj. destruct i as [|[|]], j as [|[|]]; try lia; unfold at_time; cbn; apply C_eq; cbn; lra.
  - cbn. apply C_eq; cbn; lra.
  - cbn [normalised_state]. split; [|split].
    + intros i j Hi Hj. destruct i as [|[|]], j as [|[|]]; try lia; cbn; apply C_eq; cbn; lra.
    + unfold tr. cbn. apply C_eq; cbn; lra.
    + intros x. unfold inner, apply. cbn. nra.
  - rewrite C45_quant_fluct; [|cbn; lia|cbn; lia|exact I|].
    + cbn [interpret seq map fst snd]. f_equal. f_equal; [|f_equal]; unfold variance, mean, inner, apply, mul, at_time; cbn; apply C_eq; cbn; lra.
    + intros p _. intros i j Hi Hj. destruct i as [|[|]], j as [|[|]]; cbn [Ns flip_drive] in *; try lia; unfold at_time; cbn; apply C_eq; cbn; lra.
Qed.
