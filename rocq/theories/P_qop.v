From Verif Require Import AuxN SpecC SpecExpm SpecHam SpecPars M_qop P_ham.
Local Open Scope nat_scope.

Lemma has_true {V} (d : list (key * V)) k : has d k = true <-> In k (map fst d).
Proof. unfold has. destruct (in_dec key_dec k (map fst d)); split; intros; auto; discriminate. Qed.
Lemma has_false {V} (d : list (key * V)) k : has d k = false <-> ~ In k (map fst d).
Proof. unfold has. destruct (in_dec key_dec k (map fst d)); split; intros; auto; try discriminate. contradiction. Qed.

Lemma dget_in d k v : dget d k = Some v -> In (k, v) d.
Proof. induction d as [|[k' v'] d IH]; cbn; [discriminate|]. destruct (key_dec k' k) as [->|]; [injection 1 as ->; auto|auto]. Qed.
Lemma dget_none d k : dget d k = None <-> ~ In k (map fst d).
Proof.
  induction d as [|[k' v'] d IH]; cbn; [tauto|]. destruct (key_dec k' k) as [->|N]; [split; [discriminate|tauto]|]. rewrite IH. tauto.
Qed.
Lemma in_dget d k v : NoDup (map fst d) -> In (k, v) d -> dget d k = Some v.
Proof.
  induction d as [|[k' v'] d IH]; cbn; [intros _ []|]. intros ND [E|I]; inversion ND; subst.
  - injection E as -> ->. destruct (key_dec k k); congruence.
  - destruct (key_dec k' k) as [->|]; [|auto]. exfalso. apply H1. apply (in_map fst) in I. exact I.
Qed.
Lemma coupling_dget d k : coupling d k = match dget d k with Some v => v | None => C1 end.
Proof. induction d as [|[k' v'] d IH]; cbn; [reflexivity|]. destruct (key_dec k' k); auto. Qed.
Lemma coupling_absent d k : ~ In k (map fst d) -> coupling d k = C1.
Proof. intros H. rewrite coupling_dget. apply dget_none in H. rewrite H. reflexivity. Qed.
Lemma dget_dset d k v k' : dget (dset d k v) k' = if key_dec k k' then Some v else dget d k'.
Proof.
  induction d as [|[k0 v0] d IH]; cbn.
  - destruct (key_dec k k'); reflexivity.
  - destruct (key_dec k0 k) as [->|N]; cbn; [destruct (key_dec k k'); reflexivity|]. rewrite IH.
    destruct (key_dec k0 k') as [->|]; [|reflexivity]. destruct (key_dec k k'); [congruence|reflexivity].
Qed.
Lemma dset_keys d k v k' : In k' (map fst (dset d k v)) <-> k' = k \/ In k' (map fst d).
Proof.
  induction d as [|[k0 v0] d IH]; cbn; [intuition|]. destruct (key_dec k0 k) as [->|N]; cbn; [intuition|]. rewrite IH. intuition.
Qed.
Lemma dset_nodup d k v : NoDup (map fst d) -> NoDup (map fst (dset d k v)).
Proof.
  induction d as [|[k0 v0] d IH]; cbn; intros H; [repeat constructor; tauto|]. inversion H; subst.
  destruct (key_dec k0 k) as [->|N]; cbn; [constructor; auto|]. constructor; [|auto]. rewrite dset_keys. intros [E|I]; [congruence|auto].
Qed.

(* the dictionary d holds what was written into u, and nothing else but ones *)
Definition shadows (u d : pydict) : Prop :=
  NoDup (map fst d) /\ (forall k v, dget d k = Some v -> v = coupling u k) /\ incl (map fst u) (map fst d).
Lemma shadows_coupling u d k : shadows u d -> coupling d k = coupling u k.
Proof.
  intros (ND & H & I). rewrite (coupling_dget d k). destruct (dget d k) as [v|] eqn:E; [apply H, E|].
  apply dget_none in E. rewrite coupling_absent; [reflexivity|]. intros J. apply E, I, J.
Qed.
Lemma shadows_refl u : NoDup (map fst u) -> shadows u u.
Proof. intros ND. split; [assumption|]. split; [|apply incl_refl]. intros k v E. rewrite coupling_dget, E. reflexivity. Qed.
Lemma shadows_set u d k v : shadows u d -> shadows ((k, v) :: u) (dset d k v).
Proof.
  intros (ND & H & I). split; [apply dset_nodup, ND|]. split.
  - intros k' v'. rewrite dget_dset. cbn. destruct (key_dec k k'); [congruence|apply H].
  - intros k' [<-|J]; apply dset_keys; [left; reflexivity|right; apply I, J].
Qed.
Lemma shadows_fill ks : forall u d, shadows u d -> (forall k, In k ks -> ~ In k (map fst u)) ->
  let d' := fold_left (fun d k => dset d k C1) ks d in
  shadows u d' /\ (forall k, In k (map fst d') <-> In k ks \/ In k (map fst d)).
Proof.
  induction ks as [|k ks IH]; intros u d S N; cbn; [split; [assumption|intuition]|].
  destruct (IH u (dset d k C1)) as [A B].
  - destruct S as (ND & H & I). split; [apply dset_nodup, ND|]. split.
    + intros k' v'. rewrite dget_dset. destruct (key_dec k k') as [<-|]; [|apply H]. injection 1 as <-.
      rewrite coupling_absent; [reflexivity|]. apply N. left; reflexivity.
    + intros k' J. apply dset_keys. right. apply I, J.
  - intros k' J. apply N. right; assumption.
  - split; [exact A|]. intros k'. rewrite B, dset_keys. intuition.
Qed.

Section Laws.
Variable n : nat.
Variable eps : R.
Variable order : list key -> list key.
Hypothesis order_perm : forall l, Permutation (order l) l.
Hypothesis eps_lo : (0 <= eps)%R.
Hypothesis eps_hi : (eps < 1)%R.

Lemma check_some o u d d' : shadows u d -> check_scalar_pars order o d = Some d' ->
  shadows u d' /\ (forall k, In k (map fst d') <-> In k (map fst o)) /\ expected_names o u.
Proof.
  unfold check_scalar_pars. intros H. destruct (existsb _ d) eqn:X; [discriminate|]. injection 1 as <-.
  assert (Sub : forall k, In k (map fst d) -> In k (map fst o)).
  { intros k I. apply in_map_iff in I. destruct I as ([k' v] & <- & I). cbn. destruct (has o k') eqn:Ho; [apply has_true in Ho; exact Ho|].
    exfalso. assert (existsb (fun e => negb (has o (fst e))) d = true); [|congruence]. apply existsb_exists. exists (k', v). cbn. rewrite Ho. auto. }
  assert (M : forall k, In k (order (filter (fun k => negb (has d k)) (map fst o))) <-> In k (map fst o) /\ ~ In k (map fst d)).
  { intros k. rewrite (Permutation_in' eq_refl (order_perm _)), filter_In, negb_true_iff, has_false. tauto. }
  destruct (shadows_fill (order (filter (fun k => negb (has d k)) (map fst o))) u d) as [A B].
  - assumption.
  - intros k I J. apply M in I. destruct I as [_ I]. apply I. destruct H as (_ & _ & I'). apply I', J.
  - split; [exact A|]. split.
    + intros k. rewrite B, M. destruct (in_dec key_dec k (map fst d)); intuition.
    + intros k I. destruct H as (_ & _ & I'). apply Sub, I', I.
Qed.
Lemma check_none o d : check_scalar_pars order o d = None <-> ~ (forall k, In k (map fst d) -> In k (map fst o)).
Proof.
  unfold check_scalar_pars. destruct (existsb _ d) eqn:X; split; intros H; try discriminate; try reflexivity.
  - apply existsb_exists in X. destruct X as ([k v] & I & N). cbn in N. rewrite negb_true_iff, has_false in N. intros G. apply N, G.
    apply (in_map fst) in I. exact I.
  - exfalso. apply H. intros k I. apply in_map_iff in I. destruct I as ([k' v] & <- & I). cbn.
    destruct (has o k') eqn:Ho; [apply has_true in Ho; exact Ho|]. exfalso.
    assert (existsb (fun e => negb (has o (fst e))) d = true); [|congruence]. apply existsb_exists. exists (k', v). cbn. rewrite Ho. auto.
Qed.

Definition mget (o : qop) (k : key) : cmat := match matrix_of o k with Some m => m | None => fun _ _ => C0 end.
Lemma matrix_of_in o k : In k (map fst o) -> matrix_of o k = Some (mget o k).
Proof.
  unfold mget. intros I. destruct (matrix_of o k) eqn:E; [reflexivity|]. exfalso. induction o as [|[k' m] o IH]; cbn in *; [assumption|].
  destruct (key_dec k' k); [discriminate|]. destruct I as [|I]; [congruence|auto].
Qed.
Lemma mget_in (o : qop) e : NoDup (map fst o) -> In e o -> mget o (fst e) = snd e.
Proof.
  destruct e as [k m]. unfold mget. cbn. induction o as [|[k' m'] o IH]; cbn; [intros _ []|]. intros ND [E|I]; inversion ND; subst.
  - injection E as -> ->. destruct (key_dec k k); congruence.
  - destruct (key_dec k' k) as [->|]; [|auto]. exfalso. apply H1. apply (in_map fst) in I. exact I.
Qed.
(* a sum over the dictionary is a sum over the operator *)
Lemma over_dict (o : qop) (d : pydict) (g : C -> cmat -> C) : NoDup (map fst o) -> NoDup (map fst d) -> (forall k, In k (map fst d) <-> In k (map fst o)) ->
  Csum d (fun e => g (snd e) (mget o (fst e))) = Csum o (fun e => g (coupling d (fst e)) (snd e)).
Proof.
  intros No Nd E. transitivity (Csum (map fst d) (fun k => g (coupling d k) (mget o k))).
  - rewrite Csum_map. apply Csum_ext. intros [k v] I. cbn. rewrite coupling_dget, (in_dget d k v Nd I). reflexivity.
  - transitivity (Csum (map fst o) (fun k => g (coupling d k) (mget o k))).
    + apply Csum_perm. apply NoDup_Permutation; assumption.
    + rewrite Csum_map. apply Csum_ext. intros e I. rewrite (mget_in o e No I). reflexivity.
Qed.

Lemma nth_tab {A} (f : nat -> A) i x : i < n -> nth i (map f (seq 0 n)) x = f i.
Proof. intros H. rewrite (nth_indep _ x (f 0)) by (rewrite map_length, seq_length; assumption). rewrite map_nth. rewrite seq_nth by assumption. reflexivity. Qed.
Lemma tab_ext {A} (f g : nat -> A) : (forall i, i < n -> f i = g i) -> map f (seq 0 n) = map g (seq 0 n).
Proof. intros H. apply map_ext_in. intros i I. apply in_seq in I. apply H. lia. Qed.

Definition kept (J : C) : C := if Rlt_dec eps (Cabs J) then J else C0.
Lemma dot_fold o a V d : (forall k, In k (map fst d) -> In k (map fst o)) -> forall c,
  fold_left (fun acc e => match acc, matrix_of o (fst e) with
                          | Some out, Some M => Some (if Rlt_dec eps (Cabs (snd e)) then add_matvec n (a * snd e)%C M V out else out)
                          | _, _ => None end) d (Some (map c (seq 0 n)))
  = Some (map (fun i => (c i + Csum d (fun e => a * (kept (snd e) * Csum (seq 0 n) (fun j => mget o (fst e) i j * nth j V C0))))%C) (seq 0 n)).
Proof.
  induction d as [|[k J] d IH]; intros I c; cbn [fold_left].
  - f_equal. apply tab_ext. intros i _. rewrite Csum_nil. ring.
  - cbn [fst snd]. rewrite (matrix_of_in o k) by (apply I; left; reflexivity).
    transitivity (fold_left (fun acc e => match acc, matrix_of o (fst e) with
                          | Some out, Some M => Some (if Rlt_dec eps (Cabs (snd e)) then add_matvec n (a * snd e)%C M V out else out)
                          | _, _ => None end) d
        (Some (map (fun i => (c i + a * (kept J * Csum (seq 0 n) (fun j => mget o k i j * nth j V C0)))%C) (seq 0 n)))).
    + f_equal. f_equal. unfold kept. destruct (Rlt_dec eps (Cabs J)); unfold add_matvec; apply tab_ext; intros i Hi; [rewrite nth_tab by assumption|]; ring.
    + rewrite IH by (intros k' I'; apply I; right; assumption). f_equal. apply tab_ext. intros i _. rewrite Csum_cons. cbn [fst snd]. ring.
Qed.
Lemma arr_fold o d : (forall k, In k (map fst d) -> In k (map fst o)) -> forall c,
  fold_left (fun acc e => match acc, matrix_of o (fst e) with
                          | Some out, Some M => Some (map (fun i => map (fun j => (nth j (nth i out []) C0 + snd e * M i j)%C) (seq 0 n)) (seq 0 n))
                          | _, _ => None end) d (Some (map (fun i => map (c i) (seq 0 n)) (seq 0 n)))
  = Some (map (fun i => map (fun j => (c i j + Csum d (fun e => snd e * mget o (fst e) i j))%C) (seq 0 n)) (seq 0 n)).
Proof.
  induction d as [|[k J] d IH]; intros I c; cbn [fold_left].
  - f_equal. apply tab_ext. intros i _. apply tab_ext. intros j _. rewrite Csum_nil. ring.
  - cbn [fst snd]. rewrite (matrix_of_in o k) by (apply I; left; reflexivity).
    transitivity (fold_left (fun acc e => match acc, matrix_of o (fst e) with
                          | Some out, Some M => Some (map (fun i => map (fun j => (nth j (nth i out []) C0 + snd e * M i j)%C) (seq 0 n)) (seq 0 n))
                          | _, _ => None end) d (Some (map (fun i => map (fun j => (c i j + J * mget o k i j)%C) (seq 0 n)) (seq 0 n)))).
    + f_equal. f_equal. apply tab_ext. intros i Hi. apply tab_ext. intros j Hj. rewrite nth_tab by assumption. rewrite nth_tab by assumption. reflexivity.
    + rewrite (IH (fun k' I' => I k' (or_intror I')) (fun i j => (c i j + J * mget o k i j)%C)). f_equal. apply tab_ext. intros i _. apply tab_ext. intros j _.
      rewrite Csum_cons. cbn [fst snd]. ring.
Qed.
Lemma diag_fold (d : pydict) (o : qop) : (forall k, In k (map fst o) -> In k (map fst d)) -> forall c,
  fold_left (fun acc e => match acc, dget d (fst e) with
                          | Some out, Some J => Some (map (fun i => (nth i out C0 + J * snd e i i)%C) (seq 0 n))
                          | _, _ => None end) o (Some (map c (seq 0 n)))
  = Some (map (fun i => (c i + Csum o (fun e => coupling d (fst e) * snd e i i))%C) (seq 0 n)).
Proof.
  induction o as [|[k m] o IH]; intros I c; cbn [fold_left].
  - f_equal. apply tab_ext. intros i _. rewrite Csum_nil. ring.
  - cbn [fst snd]. assert (E : dget d k = Some (coupling d k)).
    { rewrite coupling_dget. destruct (dget d k) eqn:E; [reflexivity|]. apply dget_none in E. exfalso. apply E, I. left; reflexivity. }
    rewrite E. transitivity (fold_left (fun acc e => match acc, dget d (fst e) with
                          | Some out, Some J => Some (map (fun i => (nth i out C0 + J * snd e i i)%C) (seq 0 n))
                          | _, _ => None end) o (Some (map (fun i => (c i + coupling d k * m i i)%C) (seq 0 n)))).
    + f_equal. f_equal. apply tab_ext. intros i Hi. rewrite nth_tab by assumption. reflexivity.
    + rewrite IH by (intros k' I'; apply I; right; assumption). f_equal. apply tab_ext. intros i _. rewrite Csum_cons. cbn [fst snd]. ring.
Qed.
Lemma trace_fold (d : pydict) (o : qop) : (forall k, In k (map fst o) -> In k (map fst d)) -> forall c,
  fold_left (fun acc e => match acc, dget d (fst e) with
                          | Some tr, Some J => Some (tr + J * Csum (seq 0 n) (fun i => snd e i i))%C
                          | _, _ => None end) o (Some c)
  = Some (c + Csum o (fun e => coupling d (fst e) * Csum (seq 0 n) (fun i => snd e i i)))%C.
Proof.
  induction o as [|[k m] o IH]; intros I c; cbn [fold_left].
  - f_equal. rewrite Csum_nil. ring.
  - cbn [fst snd]. assert (E : dget d k = Some (coupling d k)).
    { rewrite coupling_dget. destruct (dget d k) eqn:E; [reflexivity|]. apply dget_none in E. exfalso. apply E, I. left; reflexivity. }
    rewrite E. rewrite IH by (intros k' I'; apply I; right; assumption). f_equal. rewrite Csum_cons. cbn [fst snd]. ring.
Qed.

(* parameters that dot does not drop *)
Definition sizeable (v : C) : Prop := v = C0 \/ (eps < Cabs v)%R.
Lemma kept_eq v : sizeable v -> kept v = v.
Proof. unfold kept. intros [->|H]; destruct (Rlt_dec eps _); auto; try contradiction. Qed.
Lemma sizeable_one : sizeable C1.
Proof. right. unfold Cabs, C1. cbn [fst snd]. replace (1 * 1 + 0 * 0)%R with 1%R by ring. rewrite sqrt_1. exact eps_hi. Qed.

Section Filled.
Variables (o : qop) (d : pydict).
Hypothesis No : NoDup (map fst o).
Hypothesis Nd : NoDup (map fst d).
Hypothesis Keys : forall k, In k (map fst d) <-> In k (map fst o).
Hypothesis Size : forall k, sizeable (coupling d k).

Lemma size_in e : In e d -> sizeable (snd e).
Proof. destruct e as [k v]. intros I. cbn. specialize (Size k). rewrite coupling_dget, (in_dget d k v Nd I) in Size. exact Size. Qed.
Lemma dot_value a V : dot_core n eps o d a V = Some (map (Cmul a) (mat_vec n (at_couplings o d) V)).
Proof.
  unfold dot_core. rewrite dot_fold by (intros k; apply Keys). f_equal. unfold mat_vec. rewrite map_map. apply tab_ext. intros i _.
  rewrite (Csum_ext d _ (fun e => a * (snd e * Csum (seq 0 n) (fun j => mget o (fst e) i j * nth j V C0)))%C).
  2:{ intros e I. rewrite kept_eq by (apply size_in, I). reflexivity. }
  rewrite (over_dict o d (fun J M => a * (J * Csum (seq 0 n) (fun j => M i j * nth j V C0)))%C No Nd Keys).
  rewrite Csum_mul_l. unfold at_couplings.
  transitivity (a * Csum o (fun e => coupling d (fst e) * Csum (seq 0 n) (fun j => snd e i j * nth j V C0)))%C; [ring|]. f_equal.
  rewrite (Csum_ext o _ (fun e => Csum (seq 0 n) (fun j => coupling d (fst e) * snd e i j * nth j V C0)%C)).
  2:{ intros e _. rewrite <- Csum_mul_l. apply Csum_ext. intros j _. ring. }
  rewrite Csum_swap. apply Csum_ext. intros j _. rewrite Csum_mul_r. reflexivity.
Qed.
Lemma array_value : toarray_core n o d = Some (map (fun i => map (at_couplings o d i) (seq 0 n)) (seq 0 n)).
Proof.
  unfold toarray_core. etransitivity; [exact (arr_fold o d (fun k => proj1 (Keys k)) (fun _ _ => C0))|]. f_equal. apply tab_ext. intros i _. apply tab_ext. intros j _.
  rewrite (over_dict o d (fun J M => J * M i j)%C No Nd Keys). unfold at_couplings. ring.
Qed.
Lemma diagonal_value : diagonal_core n o d = Some (map (fun i => at_couplings o d i i) (seq 0 n)).
Proof.
  unfold diagonal_core. rewrite (diag_fold d o (fun k => proj2 (Keys k)) (fun _ => C0)). f_equal. apply tab_ext. intros i _. unfold at_couplings. ring.
Qed.
Lemma trace_value : trace_core n o d = Some (Csum (seq 0 n) (fun i => at_couplings o d i i)).
Proof.
  unfold trace_core. rewrite (trace_fold d o (fun k => proj2 (Keys k)) C0). f_equal. unfold at_couplings.
  rewrite (Csum_swap (seq 0 n) o (fun i e => coupling d (fst e) * snd e i i)%C).
  transitivity (Csum o (fun e => coupling d (fst e) * Csum (seq 0 n) (fun i => snd e i i)))%C; [ring|]. apply Csum_ext. intros e _. rewrite Csum_mul_l. reflexivity.
Qed.
End Filled.

Lemma transposed_keys o : map fst (transposed o) = map fst o.
Proof. unfold transposed. rewrite map_map. reflexivity. Qed.
Lemma transposed_at o d i j : at_couplings (transposed o) d i j = mat_T (at_couplings o d) i j.
Proof. unfold at_couplings, transposed, mat_T. rewrite Csum_map. reflexivity. Qed.
Lemma mat_vec_ext A B V : (forall i j, A i j = B i j) -> mat_vec n A V = mat_vec n B V.
Proof. intros H. unfold mat_vec. apply tab_ext. intros i _. apply Csum_ext. intros j _. rewrite H. reflexivity. Qed.
Lemma answer_ext A B r : (forall i j, A i j = B i j) -> answer n A r = answer n B r.
Proof.
  intros H. destruct r; cbn [answer]; rewrite ?(mat_vec_ext A B) by assumption; try reflexivity.
  - rewrite (mat_vec_ext (mat_T A) (mat_T B)); [reflexivity|]. intros i j. apply H.
  - f_equal. apply tab_ext. intros i _. apply tab_ext. intros j _. apply H.
  - f_equal. apply tab_ext. intros i _. apply H.
  - f_equal. apply Csum_ext. intros i _. apply H.
Qed.
Lemma map_C1 l : map (Cmul C1) l = l.
Proof. induction l as [|x l IH]; cbn; [reflexivity|]. rewrite IH. f_equal. ring. Qed.
Lemma method_value o d r : NoDup (map fst o) -> NoDup (map fst d) -> (forall k, In k (map fst d) <-> In k (map fst o)) ->
  (forall k, sizeable (coupling d k)) -> checks r = true -> method n eps o d r = Some (answer n (at_couplings o d) r).
Proof.
  intros No Nd K S Ch. destruct r; cbn [method answer]; rewrite ?(dot_value o d No Nd K S), ?map_C1; cbn [ofV ofN]; try reflexivity.
  - cbn in Ch. rewrite Ch. rewrite dot_value; cbn [ofV]; rewrite ?transposed_keys; auto. do 3 f_equal. apply mat_vec_ext. intros. apply transposed_at.
  - rewrite (array_value o d No Nd K). reflexivity.
  - rewrite diagonal_value by assumption. reflexivity.
  - rewrite trace_value by assumption. reflexivity.
Qed.

Lemma at_shadow o u d i j : shadows u d -> at_couplings o d i j = at_couplings o u i j.
Proof. intros S. unfold at_couplings. apply Csum_ext. intros e _. rewrite (shadows_coupling u d _ S). reflexivity. Qed.

(* well-formed user programs *)
Definition good_items (items : bindings) : Prop := NoDup (map fst items) /\ Forall (fun e => sizeable (snd e)) items.
Definition good_step (s : step) : Prop :=
  match s with Bind _ items => good_items items | SetItem _ _ v => sizeable v | Ask o _ _ => NoDup (map fst o) | Named o items => NoDup (map fst o) /\ good_items items end.
Lemma good_coupling items k : Forall (fun e => sizeable (snd e)) items -> sizeable (coupling items k).
Proof. induction 1 as [|[k' v] l H F IH]; cbn; [apply sizeable_one|]. destruct (key_dec k' k); auto. Qed.

Definition relates (u : nat -> bindings) (w : world) : Prop :=
  (forall s, shadows [] (defaults w s)) /\ (forall i, shadows (u i) (users w i)) /\ (forall i k, sizeable (coupling (u i) k)).
Lemma relates_fetch u w r p : relates u w -> shadows (passed u p) (fetch w r p) /\ forall k, sizeable (coupling (passed u p) k).
Proof. intros (A & B & D). destruct p; cbn; split; auto. intros k. apply sizeable_one. Qed.
Lemma relates_put u w r p d : relates u w -> shadows (passed u p) d -> relates u (put_back w r p d).
Proof.
  intros (A & B & D) S. destruct p as [i|]; unfold put_back, relates; cbn [defaults users]; (split; [|split]); auto; unfold upd; intros j.
  - destruct (Nat.eqb_spec j i) as [->|]; auto.
  - destruct (Nat.eqb_spec j (slot r)) as [->|]; auto.
Qed.
Lemma relates_write u w s : relates u w -> good_step s ->
  match s with
  | Bind d items => relates (write_user u s) {| defaults := defaults w; users := upd (users w) d items |}
  | SetItem d k v => relates (write_user u s) {| defaults := defaults w; users := upd (users w) d (dset (users w d) k v) |}
  | _ => True end.
Proof.
  intros (A & B & D) G. destruct s as [d items|d k v| |]; auto; unfold relates; cbn [defaults users write_user]; (split; [|split]); auto; unfold upd; intros j.
  - destruct (Nat.eqb_spec j d) as [->|]; auto. apply shadows_refl, G.
  - destruct (Nat.eqb_spec j d) as [->|]; auto. intros k. apply good_coupling, G.
  - destruct (Nat.eqb_spec j d) as [->|]; auto. apply shadows_set. auto.
  - destruct (Nat.eqb_spec j d) as [->|]; auto. intros k'. cbn. destruct (key_dec k k'); auto.
Qed.

Lemma ask_value u w o r p : relates u w -> NoDup (map fst o) ->
  relates u (fst (ask n eps order w o r p)) /\
  (snd (ask n eps order w o r p) = Raises \/
   expected_names o (passed u p) /\ snd (ask n eps order w o r p) = Answer (answer n (at_couplings o (passed u p)) r)).
Proof.
  intros R No. unfold ask. destruct (checks r) eqn:Ch; [|cbn; auto]. destruct (relates_fetch u w r p R) as [S Z].
  destruct (check_scalar_pars order o (fetch w r p)) as [d|] eqn:E; [|cbn; auto]. cbn [fst snd].
  destruct (check_some o _ _ _ S E) as (S' & K & X). split; [apply relates_put; assumption|]. right. split; [exact X|].
  rewrite method_value; auto.
  - cbn [reply]. f_equal. apply answer_ext. intros i j. apply at_shadow, S'.
  - apply S'.
  - intros k. rewrite (shadows_coupling _ _ k S'). apply Z.
Qed.
Lemma named_value o items : NoDup (map fst o) -> good_items items -> expected_names o items ->
  named n eps order o items = Answer (answer n (at_couplings o items) Array).
Proof.
  intros No [Nd G] X. unfold named. pose proof (shadows_refl items Nd) as S.
  destruct (check_scalar_pars order o items) as [d|] eqn:E; [|apply check_none in E; contradiction].
  destruct (check_some o _ _ _ S E) as (S' & K & _).
  destruct (check_scalar_pars order o d) as [d'|] eqn:E'; [|apply check_none in E'; exfalso; apply E'; intros k; apply K].
  destruct (check_some o _ _ _ S' E') as (S2 & K2 & _). rewrite method_value; auto.
  - cbn [reply]. f_equal. apply answer_ext. intros i j. apply at_shadow, S2.
  - apply S2.
  - intros k. rewrite (shadows_coupling _ _ k S2). apply good_coupling, G.
Qed.
Lemma named_bad o items : ~ expected_names o items -> named n eps order o items = Raises.
Proof. intros X. unfold named. apply check_none in X. rewrite X. reflexivity. Qed.

Lemma run_safe h : forall u w out, relates u w -> Forall good_step h -> expected n u h out ->
  Forall2 (fun got want => got = Raises \/ got = want) (snd (run n eps order w h)) out.
Proof.
  induction h as [|s h IH]; intros u w out R G X; inversion X; subst; inversion G as [|? ? G1 G2]; subst; cbn [run snd].
  - constructor.
  - eapply IH; [|exact G2|eassumption]. apply (relates_write u w (Bind d items)); assumption.
  - eapply IH; [|exact G2|eassumption]. apply (relates_write u w (SetItem d k v)); assumption.
  - pose proof (ask_value u w o r p R G1) as [R' Q]. destruct (ask n eps order w o r p) as [w1 a]. cbn [fst snd] in *.
    match goal with E : expected _ _ h _ |- _ => specialize (IH u w1 _ R' G2 E) end. destruct (run n eps order w1 h) as [w2 l]. cbn [snd] in *. constructor; [|exact IH].
    destruct Q as [->|[_ ->]]; auto.
  - pose proof (ask_value u w o r p R G1) as [R' Q]. destruct (ask n eps order w o r p) as [w1 a]. cbn [fst snd] in *.
    match goal with E : expected _ _ h _ |- _ => specialize (IH u w1 _ R' G2 E) end. destruct (run n eps order w1 h) as [w2 l]. cbn [snd] in *. constructor; [|exact IH].
    destruct Q as [->|[E _]]; [auto|contradiction].
  - match goal with E : expected _ _ h _ |- _ => specialize (IH u w _ R G2 E) end. destruct (run n eps order w h) as [w2 l]. cbn [snd] in *. constructor; [|exact IH].
    right. apply named_value; try assumption; apply G1.
  - match goal with E : expected _ _ h _ |- _ => specialize (IH u w _ R G2 E) end. destruct (run n eps order w h) as [w2 l]. cbn [snd] in *. constructor; [|exact IH].
    left. apply named_bad; assumption.
Qed.

(* all operators of the program have the names K *)
Variable K : list key.
Definition names_K (s : step) : Prop :=
  match s with Ask o r _ => checks r = true /\ (forall k, In k (map fst o) <-> In k K) | _ => True end.
Definition confined (u : nat -> bindings) (w : world) : Prop :=
  (forall s k, In k (map fst (defaults w s)) -> In k K) /\ (forall i k, In k (map fst (users w i)) -> In k (map fst (u i)) \/ In k K).
Lemma confined_fetch u w r p k : confined u w -> In k (map fst (fetch w r p)) -> In k (map fst (passed u p)) \/ In k K.
Proof. intros [A B]. destruct p; cbn; [apply B|]. intros I. right. eapply A, I. Qed.
Lemma ask_exact u w o r p : relates u w -> confined u w -> NoDup (map fst o) -> checks r = true -> (forall k, In k (map fst o) <-> In k K) ->
  confined u (fst (ask n eps order w o r p)) /\ (expected_names o (passed u p) -> snd (ask n eps order w o r p) <> Raises).
Proof.
  intros R Cf No Ch HK. unfold ask. rewrite Ch. destruct (relates_fetch u w r p R) as [S Z].
  destruct (check_scalar_pars order o (fetch w r p)) as [d|] eqn:E; cbn [fst snd].
  - destruct (check_some o _ _ _ S E) as (S' & Kd & X). split.
    + destruct Cf as [A B]. destruct p as [i|]; split; cbn [put_back defaults users]; auto; unfold upd; intros j k.
      * destruct (Nat.eqb_spec j i) as [->|]; [|apply B]. intros I. right. apply HK, Kd, I.
      * destruct (Nat.eqb_spec j (slot r)) as [->|]; [|apply A]. intros I. apply HK, Kd, I.
    + intros _. rewrite method_value; auto; [discriminate|apply S'|]. intros k. rewrite (shadows_coupling _ _ k S'). apply Z.
  - split; [assumption|]. intros X. apply check_none in E. exfalso. apply E. intros k I.
    destruct (confined_fetch u w r p k Cf I) as [J|J]; [apply X, J|apply HK, J].
Qed.
Lemma confined_write u w s : confined u w ->
  match s with
  | Bind d items => confined (write_user u s) {| defaults := defaults w; users := upd (users w) d items |}
  | SetItem d k v => confined (write_user u s) {| defaults := defaults w; users := upd (users w) d (dset (users w d) k v) |}
  | _ => True end.
Proof.
  intros [A B]. destruct s as [d items|d k v| |]; auto; split; cbn [defaults users write_user]; auto; unfold upd; intros j k' I.
  - destruct (Nat.eqb_spec j d) as [->|]; auto.
  - destruct (Nat.eqb_spec j d) as [->|]; auto. apply dset_keys in I. cbn. destruct I as [->|I]; [auto|]. apply B in I. intuition.
Qed.
Lemma run_exact h : forall u w out, relates u w -> confined u w -> Forall good_step h -> Forall names_K h -> expected n u h out ->
  snd (run n eps order w h) = out.
Proof.
  induction h as [|s h IH]; intros u w out R Cf G NK X; inversion X; subst; inversion G as [|? ? G1 G2]; subst; inversion NK as [|? ? N1 N2]; subst; cbn [run snd].
  - reflexivity.
  - eapply IH; [| |exact G2|exact N2|eassumption].
    + apply (relates_write u w (Bind d items)); assumption.
    + apply (confined_write u w (Bind d items)); assumption.
  - eapply IH; [| |exact G2|exact N2|eassumption].
    + apply (relates_write u w (SetItem d k v)); assumption.
    + apply (confined_write u w (SetItem d k v)); assumption.
  - cbn in N1. destruct N1 as [Ch HK]. pose proof (ask_value u w o r p R G1) as [R' Q]. pose proof (ask_exact u w o r p R Cf G1 Ch HK) as [C' NR].
    destruct (ask n eps order w o r p) as [w1 a]. cbn [fst snd] in *.
    match goal with E : expected _ _ h _ |- _ => specialize (IH u w1 _ R' C' G2 N2 E) end. destruct (run n eps order w1 h) as [w2 l]. cbn [snd] in *. rewrite IH. f_equal.
    destruct Q as [->|[_ ->]]; [|reflexivity]. exfalso. apply NR; auto.
  - cbn in N1. destruct N1 as [Ch HK]. pose proof (ask_value u w o r p R G1) as [R' Q]. pose proof (ask_exact u w o r p R Cf G1 Ch HK) as [C' NR].
    destruct (ask n eps order w o r p) as [w1 a]. cbn [fst snd] in *.
    match goal with E : expected _ _ h _ |- _ => specialize (IH u w1 _ R' C' G2 N2 E) end. destruct (run n eps order w1 h) as [w2 l]. cbn [snd] in *. rewrite IH. f_equal.
    destruct Q as [->|[E _]]; [reflexivity|contradiction].
  - match goal with E : expected _ _ h _ |- _ => specialize (IH u w _ R Cf G2 N2 E) end. destruct (run n eps order w h) as [w2 l]. cbn [snd] in *. rewrite IH. f_equal.
    apply named_value; try assumption; apply G1.
  - match goal with E : expected _ _ h _ |- _ => specialize (IH u w _ R Cf G2 N2 E) end. destruct (run n eps order w h) as [w2 l]. cbn [snd] in *. rewrite IH. f_equal.
    apply named_bad; assumption.
Qed.
Lemma relates_start : relates (fun _ => []) start.
Proof. split; [|split]; cbn; intros; [apply shadows_refl; constructor|apply shadows_refl; constructor|apply sizeable_one]. Qed.
Lemma confined_start : confined (fun _ => []) start.
Proof. split; cbn; tauto. Qed.
End Laws.
