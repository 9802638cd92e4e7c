(* Proofs about the oscillator and the conserving photon basis. *)
From Verif Require Import AuxN SpecC SpecSector SpecTensor SpecPhoton M_ops M_opstr M_symop M_tensor M_photon P_tensor P_tensor2.
Local Open Scope nat_scope.

(* the index type of the oscillator with levels 0..Np holds Np + k *)
Definition room (Np k : nat) : Prop := match index_bits (S Np) with Some b => (Z.of_nat (Np + k) < 2 ^ (b - 1))%Z | None => True end.
Lemma store_small b x : (match b with Some b => 0 < b /\ - 2 ^ (b - 1) <= x < 2 ^ (b - 1) | None => True end)%Z -> store b x = x.
Proof.
  destruct b as [b|]; [|reflexivity]. intros (H & H1 & H2). cbn [store]. rewrite Z.mod_small; [lia|].
  assert (E : (2 ^ b = 2 * 2 ^ (b - 1))%Z) by (rewrite <- Z.pow_succ_r by lia; f_equal; lia). lia.
Qed.
Lemma index_bits_pos Ns b : index_bits Ns = Some b -> (0 < b)%Z.
Proof. unfold index_bits. repeat match goal with |- context [if ?c then _ else _] => destruct c end; intros E; inversion E; subst; lia. Qed.
Lemma room_store Np k x : room Np k -> (- Z.of_nat k <= x <= Z.of_nat (Np + k))%Z -> store (index_bits (S Np)) x = x.
Proof.
  unfold room. intros H Hx. apply store_small. destruct (index_bits (S Np)) as [b|] eqn:E; [|exact I]. split; [exact (index_bits_pos _ _ E)|]. lia.
Qed.
Lemma room_le Np k k' : k' <= k -> room Np k -> room Np k'.
Proof. unfold room. destruct (index_bits (S Np)); [lia|auto]. Qed.

Lemma ho_loop_app real b rw o s : ho_loop real b (rw ++ [o]) s = match ho_loop real b rw s with Some s' => ho_step real b o s' | None => None end.
Proof.
  revert s. induction rw as [|o' rw IH]; intros s; cbn [app ho_loop]; [destruct (ho_step real b o s); reflexivity|].
  destruct (ho_step real b o' s); [apply IH|reflexivity].
Qed.
Lemma letters_cons c o w : letters c (o :: w) = (if (o =? c)%char then 1 else 0) + letters c w.
Proof. unfold letters. cbn [filter]. destruct (o =? c)%char; reflexivity. Qed.
Lemma letters_len c w : letters c w <= length w.
Proof. induction w as [|o w IH]; [cbn; lia|]. rewrite letters_cons. cbn [length]. destruct (o =? c)%char; lia. Qed.
Lemma osc_cons o w n : osc_word (o :: w) n = let '(a, m) := osc_word w n in let '(f, m') := osc o m in ((f * a)%R, m').
Proof. reflexivity. Qed.
Lemma root_nn real x : (0 <= x)%Z -> root real x = Some (RtoC (sqrt (IZR x))).
Proof. intros H. unfold root. rewrite (proj2 (Z.ltb_ge x 0)) by lia. reflexivity. Qed.

Lemma ho_loop_spec real Np w n : Forall (fun o => In o osc_letters) w -> n <= Np -> room Np (length w) ->
  let a := fst (osc_word w n) in let m := snd (osc_word w n) in
  let row := (Z.of_nat n + Z.of_nat (letters "+" w) - Z.of_nat (letters "-" w))%Z in
  ho_loop real (index_bits (S Np)) (rev w) (Some C1, Z.of_nat n) = Some (Some (RtoC a), row) /\ (a <> 0%R -> Z.of_nat m = row).
Proof.
  intros HF Hn. induction HF as [|o w Ho HF IH]; intros HR.
  - cbn zeta. change (osc_word [] n) with (1%R, n). change (letters "+" []) with 0. change (letters "-" []) with 0. cbn [fst snd rev ho_loop]. split; [|intros _; lia].
    f_equal. f_equal. lia.
  - cbn [length] in HR. destruct (IH (room_le Np (S (length w)) (length w) ltac:(lia) HR)) as (E & Em). clear IH. cbn zeta. cbn [rev]. rewrite ho_loop_app, E. rewrite osc_cons, !letters_cons.
    pose proof (letters_len "+" w) as L1. pose proof (letters_len "-" w) as L2.
    assert (L3 : letters "+" w + letters "-" w <= length w).
    { clear. induction w as [|o w IH]; [cbn; lia|]. rewrite !letters_cons. cbn [length]. destruct (Ascii.eqb_spec o "+"); destruct (Ascii.eqb_spec o "-"); subst; try discriminate; lia. }
    destruct (osc_word w n) as [a m]. cbn [fst snd] in Em |- *.
    set (row := (Z.of_nat n + Z.of_nat (letters "+" w) - Z.of_nat (letters "-" w))%Z) in *.
    assert (Hst : forall x, (- Z.of_nat (S (length w)) <= x <= Z.of_nat (Np + S (length w)))%Z -> store (index_bits (S Np)) x = x) by (intros x Hx; exact (room_store _ _ _ HR Hx)).
    assert (G : forall r x f, (a <> 0 -> IZR x = f)%R -> times (Some (RtoC a)) (Some (RtoC (r (IZR x)))) = Some (RtoC (r f * a))).
    { intros r x f H. cbn [times]. f_equal. rewrite <- RtoC_mul. f_equal. destruct (Req_EM_T a 0) as [->|Na]; [ring|]. rewrite (H Na). ring. }
    unfold osc_letters in Ho. cbn [In] in Ho. destruct Ho as [<-|[<-|[<-|[<-|[]]]]]; cbn [ho_step osc Ascii.eqb Bool.eqb fst snd].
    + split; [|intros H; rewrite Em by lra; lia]. f_equal. f_equal. f_equal. f_equal. ring.
    + unfold absi. rewrite Hst by lia. split; [|intros H; rewrite Em by nra; lia]. f_equal. f_equal.
      apply (G (fun x => x)). intros Na. rewrite INR_IZR_INZ. f_equal. specialize (Em Na). lia.
    + unfold absi. rewrite (Hst (row + 1)%Z) by lia. rewrite Hst by lia. rewrite root_nn by lia. split; [|intros H; rewrite Nat2Z.inj_succ, Em by nra; lia]. f_equal. f_equal; [|lia].
      apply (G sqrt). intros Na. rewrite INR_IZR_INZ. f_equal. specialize (Em Na). lia.
    + unfold absi. rewrite (Hst (Z.abs row)) by lia. rewrite Hst by lia. rewrite root_nn by lia.
      assert (E0 : a <> 0%R -> IZR (Z.abs row) = INR m) by (intros Na; rewrite INR_IZR_INZ; f_equal; specialize (Em Na); lia).
      split; [f_equal; f_equal; [apply (G sqrt); exact E0|lia]|].
      intros H. assert (Na : a <> 0%R) by (intros ->; apply H; ring). specialize (Em Na). destruct m as [|m]; [exfalso; apply H; cbn [INR]; rewrite sqrt_0; ring|]. cbn [pred]. lia.
Qed.

(* the cell of a column *)
Lemma ho_cell_spec real Np w J n : Forall (fun o => In o osc_letters) w -> n <= Np -> room Np (length w) ->
  exists v r, ho_cell real Np w J n = Some (Some v, r, Z.of_nat n) /\ (0 <= r < Z.of_nat (S Np))%Z /\ (r = Z.of_nat n + Z.of_nat (letters "+" w) - Z.of_nat (letters "-" w) \/ v = C0)%Z /\
    forall i, i <= Np -> (if (r =? Z.of_nat i)%Z then v else C0) = (J * RtoC (osc_element w i n))%C.
Proof.
  intros HF Hn HR. destruct (ho_loop_spec real Np w n HF Hn HR) as (E & Em). cbv zeta in E, Em. unfold ho_cell.
  rewrite (store_id (S Np) (Z.of_nat n)) by lia. rewrite E. clear E. unfold osc_element. destruct (osc_word w n) as [a m]. cbn [fst snd] in *.
  set (row := (Z.of_nat n + Z.of_nat (letters "+" w) - Z.of_nat (letters "-" w))%Z) in *.
  destruct ((row <? 0) || (Z.of_nat (S Np) <=? row))%Z%bool eqn:B.
  - exists (C0 * J)%C, (Z.of_nat n). split; [reflexivity|]. split; [lia|]. split; [right; ring|]. intros i Hi.
    assert (Z0 : (if m =? i then a else 0%R) = 0%R).
    { destruct (Nat.eqb_spec m i) as [->|]; [|reflexivity]. destruct (Req_EM_T a 0) as [->|Na]; [reflexivity|]. exfalso. specialize (Em Na).
      apply Bool.orb_true_iff in B. rewrite Z.ltb_lt, Z.leb_le in B. lia. }
    rewrite Z0. change (RtoC 0) with C0. destruct (_ =? _)%Z; ring.
  - apply Bool.orb_false_iff in B. rewrite Z.ltb_ge, Z.leb_gt in B. exists (RtoC a * J)%C, row. split; [reflexivity|]. split; [lia|]. split; [left; reflexivity|]. intros i Hi.
    destruct (Req_EM_T a 0) as [->|Na].
    + replace (if m =? i then 0%R else 0%R) with 0%R by (destruct (m =? i); reflexivity). change (RtoC 0) with C0. destruct (_ =? _)%Z; ring.
    + specialize (Em Na). rewrite <- Em. replace (Z.of_nat m =? Z.of_nat i)%Z with (m =? i) by (apply eq_true_iff_eq; rewrite Nat.eqb_eq, Z.eqb_eq; lia).
      destruct (m =? i); [ring|]. change (RtoC 0) with C0. ring.
Qed.
Lemma all_some_map {X Y} (f : X -> option Y) (g : X -> Y) l : (forall x, In x l -> f x = Some (g x)) -> all_some (map f l) = Some (map g l).
Proof. intros H. induction l as [|x l IH]; [reflexivity|]. cbn [map all_some]. rewrite (H x) by (left; reflexivity). rewrite IH by (intros y Hy; apply H; right; exact Hy). reflexivity. Qed.
Definition some_value (t : C * Z * Z) : option C * Z * Z := (Some (fst (fst t)), snd (fst t), snd t).
Lemma cells_list real Np w J : Forall (fun o => In o osc_letters) w -> room Np (length w) -> forall k, k <= S Np ->
  exists l : triples, all_some (map (ho_cell real Np w J) (seq 0 k)) = Some (map some_value l) /\ length l = k /\
    forall n, n < k -> exists v r, nth n l (C0, 0%Z, 0%Z) = (v, r, Z.of_nat n) /\ (0 <= r < Z.of_nat (S Np))%Z /\ (r = Z.of_nat n + Z.of_nat (letters "+" w) - Z.of_nat (letters "-" w) \/ v = C0)%Z /\ forall i, i <= Np -> (if (r =? Z.of_nat i)%Z then v else C0) = (J * RtoC (osc_element w i n))%C.
Proof.
  intros HF HR. induction k as [|k IH]; intros Hk.
  - exists []. split; [reflexivity|]. split; [reflexivity|]. intros n Hn. lia.
  - destruct IH as (l & E & Len & H); [lia|]. destruct (ho_cell_spec real Np w J k HF ltac:(lia) HR) as (v & r & Ec & Hr & Hs & Hv).
    exists (l ++ [(v, r, Z.of_nat k)]). split.
    + rewrite seq_S, map_app, map_app. cbn [map Nat.add]. rewrite Ec.
      assert (G : forall {X} (a : list (option X)) b x, all_some a = Some b -> all_some (a ++ [Some x]) = Some (b ++ [x])).
      { clear. intros X a. induction a as [|[y|] a IH]; intros b x E; cbn [app all_some] in *; [injection E as <-; reflexivity| |discriminate].
        destruct (all_some a) as [b'|]; [|discriminate]. injection E as <-. rewrite (IH b' x eq_refl). reflexivity. }
      apply G. exact E.
    + split; [rewrite app_length; cbn; lia|]. intros n Hn. destruct (Nat.eq_dec n k) as [->|Nk].
      * exists v, r. rewrite app_nth2 by lia. rewrite Len, Nat.sub_diag. cbn [nth]. auto.
      * destruct (H n) as (v' & r' & A1 & A2); [lia|]. exists v', r'. rewrite app_nth1 by lia. auto.
Qed.
Lemma ho_entry real Np w J : Forall (fun o => In o osc_letters) w -> room Np (length w) ->
  exists l : triples, ho_Op real Np w (repeat 0 (length w)) J = Some (map some_value l) /\ in_range (S Np) l /\ length l = S Np /\
    (forall i j, i <= Np -> j <= Np -> entry l i j = (J * RtoC (osc_element w i j))%C) /\
    (forall n, n <= Np -> exists v r, nth n l (C0, 0%Z, 0%Z) = (v, r, Z.of_nat n) /\ (r = Z.of_nat n + Z.of_nat (letters "+" w) - Z.of_nat (letters "-" w) \/ v = C0)%Z /\ forall i, i <= Np -> (if (r =? Z.of_nat i)%Z then v else C0) = (J * RtoC (osc_element w i n))%C).
Proof.
  intros HF HR. destruct (cells_list real Np w J HF HR (S Np) ltac:(lia)) as (l & E & Len & H). exists l.
  split; [unfold ho_Op; rewrite repeat_length, Nat.eqb_refl; exact E|]. split; [|split; [exact Len|split]].
  - apply Forall_forall. intros t Ht. destruct (In_nth _ _ (C0, 0%Z, 0%Z) Ht) as (n & Hn & En). destruct (H n ltac:(lia)) as (v & r & A1 & A2 & _ & _). rewrite A1 in En. subst t. split; [exact A2|lia].
  - intros i j Hi Hj. unfold entry.
    assert (X : Csum l (fun t => let '(v, r, c) := t in if ((r =? Z.of_nat i) && (c =? Z.of_nat j))%Z%bool then v else C0) =
                Csum (seq 0 (length l)) (fun n => let '(v, r, c) := nth n l (C0, 0%Z, 0%Z) in if ((r =? Z.of_nat i) && (c =? Z.of_nat j))%Z%bool then v else C0)).
    { clear. set (f := fun t : C * Z * Z => let '(v, r, c) := t in if ((r =? Z.of_nat i) && (c =? Z.of_nat j))%Z%bool then v else C0).
      change (Csum l f = Csum (seq 0 (length l)) (fun n => f (nth n l (C0, 0%Z, 0%Z)))). rewrite <- (Csum_map (fun n => nth n l (C0, 0%Z, 0%Z))).
      f_equal. clear. induction l as [|t l IH]; [reflexivity|]. cbn [length seq map nth]. f_equal. rewrite <- seq_shift, map_map. exact IH. }
    rewrite X, Len. rewrite (Csum_single _ _ j (seq_NoDup _ _)).
    + destruct (H j ltac:(lia)) as (v & r & A1 & A2 & _ & A3). rewrite A1, Z.eqb_refl, Bool.andb_true_r. apply A3. exact Hi.
    + apply in_seq. lia.
    + intros n Hn Nj. apply in_seq in Hn. destruct (H n ltac:(lia)) as (v & r & A1 & A2 & _ & A3). rewrite A1. rewrite (proj2 (Z.eqb_neq (Z.of_nat n) (Z.of_nat j))) by lia. rewrite Bool.andb_false_r. reflexivity.
  - intros n Hn. destruct (H n ltac:(lia)) as (v & r & A1 & _ & A4 & A3). exists v, r. auto.
Qed.

(* ---- the conserving basis ---- *)
Lemma photon_n_ok Ntot Np : Ntot <= 127 -> Np <= Ntot -> photon_n Ntot Np = Z.of_nat (Ntot - Np).
Proof. intros H1 H2. unfold photon_n. rewrite (store_small (Some 8%Z) (Z.of_nat Np)) by lia. rewrite (store_small (Some 8%Z) (Z.of_nat Np - _)) by lia. rewrite store_small by lia. lia. Qed.
Lemma np_index_ok len k : k < len -> np_index len (Z.of_nat k) = Some k.
Proof. intros H. unfold np_index. rewrite (proj2 (Z.leb_le 0 _)), (proj2 (Z.ltb_lt _ _)) by lia. cbn. rewrite Nat2Z.id. reflexivity. Qed.
Lemma split_join l r : count_bar l = 0 -> split_bar (l ++ bar :: r) = Some (l, r).
Proof.
  induction l as [|c l IH]; intros H; cbn [app split_bar]; [rewrite Ascii.eqb_refl; reflexivity|].
  unfold count_bar in H. cbn [filter] in H. destruct (c =? bar)%char; [discriminate|]. rewrite IH by exact H. reflexivity.
Qed.
Lemma count_app l r : count_bar (l ++ r) = count_bar l + count_bar r.
Proof. unfold count_bar. rewrite filter_app, app_length. reflexivity. Qed.
Lemma known_no_bar w : Forall (fun o => In o osc_letters) w -> count_bar w = 0.
Proof. induction 1 as [|o w Ho _ IH]; [reflexivity|]. unfold count_bar in *. cbn [filter]. unfold osc_letters in Ho. cbn [In] in Ho. destruct Ho as [<-|[<-|[<-|[<-|[]]]]]; exact IH. Qed.
Definition nonzero (t : C * Z * Z) : bool := negb (Czero (fst (fst t))).
Lemma filter_map_some (l : triples) : filter (fun e => negb (is_zero (fst (fst e)))) (map some_value l) = map some_value (filter nonzero l).
Proof. induction l as [|t l IH]; [reflexivity|]. cbn [map filter]. rewrite IH. unfold nonzero. cbn [some_value fst is_zero]. destruct (Czero _); reflexivity. Qed.
Lemma entry_filter l i j : entry (filter nonzero l) i j = entry l i j.
Proof.
  unfold entry. induction l as [|[[v r] c] l IH]; [reflexivity|]. cbn [filter]. unfold nonzero at 1. cbn [fst]. rewrite Csum_cons. destruct (Czero v) eqn:E; cbn [negb]; [|rewrite Csum_cons, IH; reflexivity].
  apply Czero_spec in E. subst v. rewrite IH. destruct (_ && _)%bool; ring.
Qed.
Lemma photon_entry real L nums Ntot opl w indx J l0 :
  b_Op L opl indx J = Some l0 -> in_range (b_Ns L) l0 -> 0 < b_Ns L -> length nums = b_Ns L -> Forall (fun k => k <= Ntot) nums -> Ntot <= 127 ->
  room Ntot (length w) -> Forall (fun o => In o osc_letters) w -> count_bar opl = 0 -> length opl = length indx ->
  exists l, photon_Op real L nums Ntot (opl ++ bar :: w) indx J = Some (map some_value l) /\ in_range (b_Ns L) l /\
    forall r c, r < b_Ns L -> c < b_Ns L -> exists v,
      entry l r c = (entry l0 r c * v)%C /\
      (forall i, i <= Ntot -> i + letters "-" w = Ntot - nth c nums 0 + letters "+" w -> v = RtoC (osc_element w i (Ntot - nth c nums 0))).
Proof.
  intros E HR Hpos Hlen Hnum HN Hroom HF HB HL. unfold photon_Op. rewrite (proj2 (Nat.eqb_neq _ 0)) by lia.
  rewrite count_app. change (bar :: w) with ([bar] ++ w). rewrite count_app, HB, (known_no_bar w HF). change (count_bar [bar]) with 1. cbn [Nat.add Nat.eqb negb app].
  rewrite split_join by exact HB. rewrite HL, Nat.eqb_refl. cbn [negb].
  destruct (ho_entry real Ntot w C1 HF Hroom) as (ph & Eph & _ & Lph & _ & Hph). rewrite Eph, E.
  assert (Hn : forall c, c < b_Ns L -> nth c nums 0 <= Ntot) by (intros c Hc; rewrite Forall_forall in Hnum; apply Hnum; apply nth_In; lia).
  set (V := fun k => fst (fst (nth (Ntot - nth k nums 0) ph (C0, 0%Z, 0%Z)))).
  assert (EM : all_some (map (fun t : C * Z * Z => let '(v, r, c) := t in
                        match np_index (length nums) c with
                        | None => None
                        | Some k => match np_index (length (map some_value ph)) (photon_n Ntot (nth k nums 0)) with
                                    | None => None
                                    | Some m => Some (times (Some v) (fst (fst (nth m (map some_value ph) (Some C0, 0%Z, 0%Z)))), r, c)
                                    end
                        end) l0) = Some (map some_value (map (fun t => let '(v, r, c) := t in ((v * V (Z.to_nat c))%C, r, c)) l0))).
  { rewrite map_map. apply all_some_map. intros [[v r] c] Ht. unfold in_range in HR. rewrite Forall_forall in HR. specialize (HR _ Ht). cbn in HR. destruct HR as [_ Hc].
    replace c with (Z.of_nat (Z.to_nat c)) at 1 by lia. rewrite np_index_ok by lia. rewrite photon_n_ok by (try apply Hn; lia).
    rewrite map_length, np_index_ok by lia. change (Some C0, 0%Z, 0%Z) with (some_value (C0, 0%Z, 0%Z)). rewrite map_nth. reflexivity. }
  rewrite EM. rewrite filter_map_some. eexists. split; [reflexivity|]. split.
  - unfold in_range in *. apply Forall_forall. intros t Ht. apply filter_In in Ht. destruct Ht as [Ht _]. apply in_map_iff in Ht. destruct Ht as ([[v r] c] & <- & Ht). rewrite Forall_forall in HR. exact (HR _ Ht).
  - intros r c Hr Hc. exists (V c). split.
    + rewrite entry_filter. unfold entry. rewrite Csum_map. rewrite <- Csum_mul_r. apply Csum_ext. intros [[v r'] c'] _. destruct (Z.eqb_spec c' (Z.of_nat c)) as [->|]; [rewrite Nat2Z.id|rewrite Bool.andb_false_r; ring].
      destruct (_ && _)%bool; ring.
    + intros i Hi Hcons. specialize (Hn c Hc) as Hnc. destruct (Hph (Ntot - nth c nums 0) ltac:(lia)) as (v & row & A1 & A2 & A3).
      unfold V. rewrite A1. cbn [fst]. specialize (A3 i Hi). assert (X : forall z, (C1 * z)%C = z) by (intros; ring). rewrite X in A3. rewrite <- A3.
      destruct A2 as [A2|A2]; [|subst v; destruct (_ =? _)%Z; reflexivity]. rewrite (proj2 (Z.eqb_eq _ _)); [reflexivity|]. lia.
Qed.
