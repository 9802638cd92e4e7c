(* C57: the evolution operator over one period (class Floquet, attribute UF). *)
From Verif Require Import AuxN SpecC SpecExpm SpecLanczos SpecExpect SpecFloquet M_symop M_floquet P_expect P_floquet P_tvec.
Local Open Scope nat_scope.

(* the protocol a dictionary describes, its dimension and its period *)
Definition asked (e : evo_dict) : protocol :=
  match e with
  | Continuous H T => [(at_time H, T)]
  | Steps2 H ts dts _ => steps (combine (map (at_time H) ts) dts)
  | Steps3 _ Hs dts _ => steps (combine Hs dts)
  end.
Definition dim (e : evo_dict) : nat := match e with Continuous H _ => Ns H | Steps2 H _ _ _ => Ns H | Steps3 n _ _ _ => n end.
Definition drive_period (e : evo_dict) : R :=
  match e with
  | Continuous _ T => T
  | Steps2 _ _ dts T | Steps3 _ _ dts T => match T with Some x => x | None => fold_right Rplus 0%R dts end
  end.
Definition same_lengths (e : evo_dict) : Prop :=
  match e with Continuous _ _ => True | Steps2 _ ts dts _ => length ts = length dts | Steps3 _ Hs dts _ => length Hs = length dts end.
(* what is assumed of expm_multiply and H.evolve, for the Hamiltonians of the dictionary: they solve the Schroedinger equation *)
Definition solvers_right (ext : external) (e : evo_dict) : Prop :=
  match e with
  | Continuous H T => forall ts v w, evolve ext H ts v = Some w -> last ts 0%R = T -> evolves (Ns H) (at_time H) T v w
  | Steps2 H ts dts _ => forall t dt v, In t ts -> In dt dts -> evolves (Ns H) (fun _ => at_time H t) dt v (expm_multiply ext (Ns H) (at_time H t) dt v)
  | Steps3 n Hs dts _ => forall H dt v, In H Hs -> In dt dts -> evolves n (fun _ => H) dt v (expm_multiply ext n H dt v)
  end.

Lemma fold_drives ext n l : (forall H dt v, In (H, dt) l -> evolves n (fun _ => H) dt v (expm_multiply ext n H dt v)) ->
  forall v, drives n (steps l) v (fold_left (fun psi s => expm_multiply ext n (fst s) (snd s) psi) l v).
Proof.
  induction l as [|[H dt] l IH]; intros HE v; cbn [steps map drives fold_left fst snd].
  - reflexivity.
  - exists (expm_multiply ext n H dt v). split; [apply HE; now left|]. apply IH. intros. apply HE. now right.
Qed.

Lemma combine_map {X Y Z} (f : X -> Y) (l : list X) (k : list Z) : combine (map f l) k = map (fun s => (f (fst s), snd s)) (combine l k).
Proof. revert k. induction l as [|x l IH]; intros [|z k]; cbn; try reflexivity. now rewrite IH. Qed.
Lemma fold_left_map {X Y Z} (h : X -> Y) (f : Z -> Y -> Z) l : forall z, fold_left f (map h l) z = fold_left (fun a x => f a (h x)) l z.
Proof. induction l as [|x l IH]; intro z; cbn; [reflexivity|]. apply IH. Qed.

Lemma times_last T a : last (times T a) 0%R = T.
Proof.
  unfold times. destruct (Nat.eqb_spec a 0); [reflexivity|].
  rewrite Nat.add_1_r, seq_S, map_app. cbn [map]. rewrite last_last. cbn [Nat.add].
  field. apply not_0_INR. apply Nat.pow_nonzero. lia.
Qed.
Lemma attempts_some ext H T v l w : attempts ext H T v l = Some w -> exists a, In a l /\ evolve ext H (times T a) v = Some w.
Proof.
  induction l as [|a l IH]; cbn; [discriminate|]. destruct (evolve ext H (times T a) v) eqn:E.
  - intro HE. injection HE as <-. exists a. auto.
  - intro HE. destruct (IH HE) as (b & Hb & Eb). exists b. auto.
Qed.
Lemma all_some_nth {X} (f : nat -> option X) d m : forall a r, all_some (map f (seq a m)) = Some r -> forall i, i < m -> f (a + i) = Some (nth i r d).
Proof.
  induction m as [|m IH]; intros a r H i Hi; [lia|]. cbn in H. destruct (f a) eqn:E; [|discriminate].
  destruct (all_some (map f (seq (S a) m))) eqn:E2; [|discriminate]. injection H as <-.
  destruct i as [|i]; cbn [nth]; [now rewrite Nat.add_0_r|].
  rewrite <- (IH (S a) l E2 i) by lia. f_equal. lia.
Qed.
Lemma vstack_map (f : nat -> vec) n i : i < n -> vstack (map f (seq 0 n)) i = f i.
Proof. intro Hi. unfold vstack. rewrite (nth_indep _ _ (f 0)) by (rewrite map_length, seq_length; exact Hi). now rewrite map_nth, seq_nth by exact Hi. Qed.

(* the rows of UF are the evolved basis states *)
Lemma rows ext e n T UF : solvers_right ext e -> make_UF ext e = Made n T UF ->
  n = dim e /\ T = drive_period e /\ forall i, i < n -> drives n (asked e) (unit_vec i) (UF i).
Proof.
  intros HS H. destruct e as [Hm T0|Hm ts dts T0|n0 Hs dts T0]; cbn [make_UF] in H.
  - destruct (periodic_at_check ext Hm T0); [|discriminate].
    destruct (get_U_cont ext Hm T0) as [U|] eqn:E; [|discriminate]. injection H as <- <- <-.
    split; [reflexivity|]. split; [reflexivity|]. intros i Hi. unfold get_U_cont in E.
    destruct (all_some _) as [r|] eqn:E2; [|discriminate]. cbn [option_map] in E. injection E as <-.
    pose proof (all_some_nth _ (fun _ => C0) _ _ _ E2 i Hi) as Hr. cbn [Nat.add] in Hr. unfold evolve_cont in Hr.
    destruct (attempts_some _ _ _ _ _ _ Hr) as (a & _ & Ha).
    cbn [asked drives]. exists (nth i r (fun _ => C0)). split; [|reflexivity].
    apply (HS _ _ _ Ha). apply times_last.
  - injection H as <- <- <-. split; [reflexivity|]. split; [reflexivity|]. intros i Hi.
    unfold get_U_step_2. rewrite vstack_map by exact Hi. unfold evolve_step_2. cbn [asked].
    rewrite combine_map.
    pose proof (fold_drives ext (Ns Hm) (map (fun s => (at_time Hm (fst s), snd s)) (combine ts dts))) as HF.
    specialize (HF ltac:(intros H dt v Hin; apply in_map_iff in Hin; destruct Hin as ([t d] & E & Hin); cbn in E; injection E as <- <-;
       apply HS; [exact (in_combine_l _ _ _ _ Hin)|exact (in_combine_r _ _ _ _ Hin)]) (unit_vec i)).
    rewrite fold_left_map in HF. exact HF.
  - destruct (negb _); [discriminate|]. destruct Hs as [|H0 Hs]; [discriminate|]. injection H as <- <- <-.
    split; [reflexivity|]. split; [reflexivity|]. intros i Hi.
    unfold get_U_step_3. rewrite vstack_map by exact Hi. unfold evolve_step_3. cbn [asked].
    apply fold_drives. intros H dt v Hin. apply HS; [exact (in_combine_l _ _ _ _ Hin)|exact (in_combine_r _ _ _ _ Hin)].
Qed.

(* The transpose of UF is the evolution operator over one period, and T is the period.  For the dictionary with t_list the
   lists have to have the same length (the dictionary with H_list is rejected otherwise). *)
Theorem C57_propagator_partial : forall ext e n T UF, solvers_right ext e -> same_lengths e -> make_UF ext e = Made n T UF ->
  n = dim e /\ T = drive_period e /\ evolution_operator n (asked e) (transpose UF).
Proof.
  intros ext e n T UF HS _ H. destruct (rows ext e n T UF HS H) as (Hn & HT & HR).
  split; [exact Hn|]. split; [exact HT|]. apply rows_operator. exact HR.
Qed.
Print Assumptions C57_propagator_partial.

(* lists of different lengths: H_list is rejected *)
Theorem C57_lengths : forall ext n Hs dts T, length Hs <> length dts -> make_UF ext (Steps3 n Hs dts T) = Raises ValueErr.
Proof. intros. cbn [make_UF]. destruct (Nat.eqb_spec (length dts) (length Hs)); [congruence|reflexivity]. Qed.
Print Assumptions C57_lengths.

Lemma asked_herm e : (forall t, match e with Continuous H _ | Steps2 H _ _ _ => hermitian (dim e) (at_time H t) | Steps3 _ Hs _ _ => forall H, In H Hs -> hermitian (dim e) H end) ->
  hermitian_protocol (dim e) (asked e).
Proof.
  intros HH H T t Hi. destruct e as [Hm T0|Hm ts dts T0|n0 Hs dts T0]; cbn [asked dim] in *.
  - destruct Hi as [E|[]]. injection E as <- <-. apply HH.
  - unfold steps in Hi. rewrite combine_map, map_map in Hi. apply in_map_iff in Hi. destruct Hi as ([u d] & E & _). cbn in E. injection E as <- <-. apply HH.
  - unfold steps in Hi. apply in_map_iff in Hi. destruct Hi as ([u d] & E & Hi). cbn in E. injection E as <- <-. apply (HH 0%R). exact (in_combine_l _ _ _ _ Hi).
Qed.

(* UF is unitary if the Hamiltonians of the protocol are Hermitian *)
Theorem C57_unitary : forall ext e n T UF, solvers_right ext e -> make_UF ext e = Made n T UF -> hermitian_protocol n (asked e) -> unitary n UF.
Proof.
  intros ext e n T UF HS H HH. destruct (rows ext e n T UF HS H) as (Hn & HT & HR).
  assert (O : orthonormal n n (fun i k => UF i k)).
  { intros i j Hi Hj. change (inner n (UF i) (UF j) = delta i j). rewrite (drives_inner n (asked e) (unit_vec i) (UF i) (unit_vec j) (UF j) HH (HR i Hi) (HR j Hj)). now apply inner_unit. }
  split; [now apply rows_columns|exact O].
Qed.
Print Assumptions C57_unitary.

(* UF itself is the evolution operator exactly when it is a symmetric matrix *)
Theorem C57_symmetric : forall ext e n T UF, solvers_right ext e -> make_UF ext e = Made n T UF -> hermitian_protocol n (asked e) ->
  (evolution_operator n (asked e) UF <-> symmetric n UF).
Proof.
  intros ext e n T UF HS H HH. destruct (rows ext e n T UF HS H) as (Hn & HT & HR).
  pose proof (rows_operator n (asked e) UF HR) as HO. split.
  - intros HU i j Hi Hj.
    pose proof (drives_unique n (asked e) (unit_vec j) _ _ HH (HU (unit_vec j)) (HR j Hj) i Hi) as E.
    rewrite <- E. unfold apply. rewrite (Csum_single _ _ j); [|apply seq_NoDup|apply in_seq; lia|].
    + unfold unit_vec, delta. rewrite Nat.eqb_refl. ring.
    + intros k _ Hk. unfold unit_vec, delta. destruct (Nat.eqb_spec j k); [congruence|ring].
  - intros HSym v. apply (drives_ext n (asked e) v (apply n (transpose UF) v)); [reflexivity| |apply HO].
    intros k Hk. unfold apply. apply Csum_ext. intros j Hj. apply in_seq in Hj. unfold transpose. rewrite (HSym k j) by lia. reflexivity.
Qed.
Print Assumptions C57_symmetric.

(* --- two steps: sigma^z and then sigma^x, each for the time pi/2 --- *)
Definition sz : mat := fun i j => if i =? j then (if i =? 0 then C1 else - C1)%C else C0.
Definition sx : mat := fun i j => if i =? j then C0 else C1.
(* exp(-i t H) v for a matrix with H^2 = 1 *)
Definition rotation (H : mat) (t : R) (v : vec) : vec := fun k => (RtoC (cos t) * v k + (- Ci) * RtoC (sin t) * apply 2 H v k)%C.

Lemma hd_real f t d : derivable_pt_lim f t d -> has_derivative (fun s => RtoC (f s)) t (RtoC d).
Proof. intro H. split; cbn [fst snd RtoC]; [exact H|apply derivable_pt_lim_const]. Qed.
Lemma rotation_solves H dt v : (forall u k, k < 2 -> apply 2 H (apply 2 H u) k = u k) -> evolves 2 (fun _ => H) dt v (rotation H dt v).
Proof.
  intro HH. exists (fun t => rotation H t v). split; [|split].
  - intros t k Hk. unfold rotation at 1.
    eapply hd_val; [|apply hd_add; [apply hd_mul; [apply hd_real; apply derivable_pt_lim_cos|apply hd_const]|
                                    apply hd_mul; [apply hd_scale; apply hd_real; apply derivable_pt_lim_sin|apply hd_const]]].
    assert (E : apply 2 H (rotation H t v) k = (RtoC (cos t) * apply 2 H v k + (- Ci) * RtoC (sin t) * v k)%C).
    { transitivity (apply 2 H (fun j => (- Ci * RtoC (sin t)) * apply 2 H v j + (fun j => RtoC (cos t) * v j + C0)%C j)%C k).
      - apply apply_ext. intros j _. unfold rotation. ring.
      - rewrite apply_axpy, HH by exact Hk. rewrite (apply_axpy 2 H (RtoC (cos t)) v (fun _ => C0)).
        replace (apply 2 H (fun _ => C0) k) with C0 by (symmetry; unfold apply; apply Csum_zero; intros; ring). ring. }
    rewrite E. rewrite RtoC_opp. replace (- Ci * (RtoC (cos t) * apply 2 H v k + - Ci * RtoC (sin t) * v k))%C
      with ((Ci * Ci) * RtoC (sin t) * v k + - Ci * RtoC (cos t) * apply 2 H v k)%C by ring.
    replace (Ci * Ci)%C with (- C1)%C by (apply C_eq; cbn; ring). ring.
  - intros k _. unfold rotation. rewrite cos_0, sin_0. apply C_eq; cbn; ring.
  - reflexivity.
Qed.
Lemma sz_square u k : k < 2 -> apply 2 sz (apply 2 sz u) k = u k.
Proof. intro Hk. destruct k as [|[|k]]; [| |lia]; apply C_eq; cbn; ring. Qed.
Lemma sx_square u k : k < 2 -> apply 2 sx (apply 2 sx u) k = u k.
Proof. intro Hk. destruct k as [|[|k]]; [| |lia]; apply C_eq; cbn; ring. Qed.

Definition example_ext : external :=
  {| expm_multiply := fun _ H t v => rotation H t v; evolve := fun _ _ _ => None; eig := fun _ _ => []; qr := fun _ V => V;
     np_sort := fun l => l; arg := fun _ => 0%R; argsort := fun _ => []; t_check := 0%R |}.
Definition two_steps : evo_dict := Steps3 2 [sz; sx] [(PI / 2)%R; (PI / 2)%R] None.
Lemma example_right : solvers_right example_ext two_steps.
Proof.
  intros H dt v HH _. cbn [expm_multiply example_ext]. apply rotation_solves. intros u k Hk.
  destruct HH as [<-|[<-|[]]]; [now apply sz_square|now apply sx_square].
Qed.
Lemma example_herm : hermitian_protocol 2 (asked two_steps).
Proof.
  apply (asked_herm two_steps). intros _ H HH i j Hi Hj. cbn [dim two_steps] in *.
  destruct HH as [<-|[<-|[]]]; destruct i as [|[|i]]; try lia; destruct j as [|[|j]]; try lia; apply C_eq; cbn; ring.
Qed.
Definition example_UF : mat := get_U_step_3 example_ext 2 [sz; sx] [(PI / 2)%R; (PI / 2)%R].
Lemma example_made : exists T, make_UF example_ext two_steps = Made 2 T example_UF.
Proof. eexists. reflexivity. Qed.
(* UF = ((0, -1), (1, 0)) *)
Lemma example_entries : example_UF 0 0 = C0 /\ example_UF 0 1 = (- C1)%C /\ example_UF 1 0 = C1 /\ example_UF 1 1 = C0.
Proof.
  unfold example_UF, get_U_step_3, vstack, evolve_step_3. cbn [map seq nth combine fold_left fst snd expm_multiply example_ext].
  unfold rotation. rewrite cos_PI2, sin_PI2. repeat split; apply C_eq; cbn; ring.
Qed.

(* UF is not the evolution operator: its rows, instead of its columns, are the evolved basis states (vstack of the
   evolved states), so it is the transpose.  For sigma^z for the time pi/2 followed by sigma^x for the time pi/2 the state
   (1, 0) evolves into (0, -1), but UF (1, 0) = (0, 1).  The eigenvectors of UF, which are returned as Floquet states VF, are
   not Floquet states either: (1, -i)/sqrt(2) has the eigenvalue i in UF and gets the factor -i over one period. *)
Theorem C57_UF_refuted :
  exists ext e n T UF, solvers_right ext e /\ hermitian_protocol n (asked e) /\ make_UF ext e = Made n T UF /\
    ~ evolution_operator n (asked e) UF /\
    exists v, eigenvector n UF Ci v /\ ~ floquet_state n (asked e) Ci v /\ floquet_state n (asked e) (- Ci)%C v.
Proof.
  destruct example_made as [T HM]. exists example_ext, two_steps, 2, T, example_UF.
  split; [apply example_right|]. split; [apply example_herm|]. split; [exact HM|].
  destruct example_entries as (E00 & E01 & E10 & E11).
  split.
  - rewrite (C57_symmetric example_ext two_steps 2 T example_UF example_right HM example_herm).
    intro HSym. specialize (HSym 0 1 ltac:(lia) ltac:(lia)). rewrite E01, E10 in HSym. apply (f_equal fst) in HSym. cbn in HSym. lra.
  - set (v := (fun k => if k =? 0 then RtoC (/ sqrt 2) else - Ci * RtoC (/ sqrt 2))%C : vec).
    assert (Hs : (/ sqrt 2 * / sqrt 2 = / 2)%R) by (rewrite <- Rinv_mult, sqrt_sqrt by lra; reflexivity).
    assert (Hv : inner 2 v v = C1).
    { unfold inner, v. apply C_eq; cbn; [|ring]. transitivity (2 * (/ sqrt 2 * / sqrt 2))%R; [ring|lra]. }
    pose proof (rows_operator 2 (asked two_steps) example_UF (proj2 (proj2 (rows example_ext two_steps 2 T example_UF example_right HM)))) as HO.
    assert (Hf : floquet_state 2 (asked two_steps) (- Ci)%C v).
    { split; [exact Hv|]. apply (drives_ext 2 (asked two_steps) v (apply 2 (transpose example_UF) v)); [reflexivity| |apply HO].
      intros k Hk. unfold apply, transpose. cbn [seq]. rewrite !Csum_cons, Csum_nil.
      destruct k as [|[|k]]; [rewrite E00, E10|rewrite E01, E11|lia]; unfold v; apply C_eq; cbn; ring. }
    exists v. split; [|split].
    + split; [exact Hv|]. intros k Hk. unfold apply. cbn [seq]. rewrite !Csum_cons, Csum_nil.
      destruct k as [|[|k]]; [rewrite E00, E01|rewrite E10, E11|lia]; unfold v; apply C_eq; cbn; ring.
    + intros [_ HB]. destruct Hf as [_ HA].
      pose proof (drives_unique 2 (asked two_steps) v _ _ example_herm HA HB 0 ltac:(lia)) as E.
      unfold v in E. cbn in E. apply (f_equal snd) in E. cbn in E.
      assert (0 < / sqrt 2)%R by (apply Rinv_0_lt_compat; apply sqrt_lt_R0; lra). lra.
    + exact Hf.
Qed.
Print Assumptions C57_UF_refuted.

(* A protocol with more durations than times is accepted: the extra durations are left out of the evolution, but counted in
   the period T used for the quasi-energies.  (The other kind of step protocol is rejected, C57_lengths.) *)
Theorem C57_mismatch_refuted : forall ext H t dt dt', exists n UF,
  make_UF ext (Steps2 H [t] [dt; dt'] None) = Made n (dt + (dt' + 0))%R UF /\
  make_UF ext (Steps2 H [t] [dt] None) = Made n (dt + 0)%R UF.
Proof. intros. exists (Ns H), (get_U_step_2 ext H [t] [dt]). split; reflexivity. Qed.
Print Assumptions C57_mismatch_refuted.

(* A continuous protocol that is not periodic passes the check, which compares the drive at two times only: whatever the time
   t_check is, there is a drive function with f(t) <> f(t+T) for almost all t that is accepted. *)
Theorem C57_periodicity_refuted : forall ext T M n, (0 < T)%R -> (forall ts v, exists w, forall H, evolve ext H ts v = Some w) ->
  exists f : R -> C, (forall t, t <> t_check ext -> f t <> f (t + T)%R) /\
    exists UF, make_UF ext (Continuous {| Ns := n; fixed := M; driven := [(f, M)] |} T) = Made n T UF.
Proof.
  intros ext T M n HT HE. set (t0 := t_check ext).
  exists (fun t => RtoC ((t - t0) * (t - t0 - T)))%R. split.
  - intros t Ht E. apply RtoC_inj in E.
    assert (2 * T * (t - t0) = 0)%R by nra. apply Rmult_integral in H. destruct H; [lra|]. apply Ht. lra.
  - cbn [make_UF]. set (H := {| Ns := n; fixed := M; driven := _ |}).
    assert (P : periodic_at_check ext H T = true).
    { unfold periodic_at_check, H. cbn [driven forallb fst]. fold t0.
      replace (RtoC ((t0 - t0) * (t0 - t0 - T)) - RtoC ((t0 + T - t0) * (t0 + T - t0 - T)))%C with C0 by (apply C_eq; cbn; ring).
      unfold Cabs, Rltb. cbn [fst snd C0]. replace (0 * 0 + 0 * 0)%R with 0%R by ring. rewrite sqrt_0.
      destruct (Rlt_dec _ _) as [Hl|]; [|reflexivity]. exfalso. unfold macheps in Hl.
      assert (0 < / 2 ^ 52)%R by (apply Rinv_0_lt_compat; apply pow_lt; lra). lra. }
    rewrite P. unfold get_U_cont. cbn [Ns H].
    assert (A : forall l, exists r, all_some (map (evolve_cont ext H T) l) = Some r).
    { induction l as [|i l [r Hr]]; [eexists; reflexivity|]. cbn [map all_some].
      destruct (HE (times T 0) (psi0 i)) as [w Hw].
      unfold evolve_cont at 1. cbn [seq attempts]. rewrite (Hw H). rewrite Hr. eexists. reflexivity. }
    destruct (A (seq 0 n)) as [r Hr]. rewrite Hr. eexists. reflexivity.
Qed.
Print Assumptions C57_periodicity_refuted.

(* When a continuous protocol is refused.  f(t_check) and f(t_check+T) differ in one of the drives: TypeError.  Otherwise
   RuntimeError exactly if for some basis state each of the seven attempts (the solver stops at T, then at 10, 100, ..., 10^6
   equal parts of the period) raises an exception, whatever the exception is. *)
Lemma attempts_none ext H T v l : attempts ext H T v l = None <-> forall a, In a l -> evolve ext H (times T a) v = None.
Proof.
  induction l as [|a l IH]; cbn [attempts]; [split; [intros _ a []|reflexivity]|].
  destruct (evolve ext H (times T a) v) eqn:E.
  - split; [discriminate|]. intro HA. rewrite (HA a) in E by now left. discriminate.
  - rewrite IH. split; [intros HA b [<-|Hb]; auto|]. intros HA b Hb. apply HA. now right.
Qed.
Lemma all_some_none {X} (l : list (option X)) : all_some l = None <-> In None l.
Proof.
  induction l as [|[x|] l IH]; cbn [all_some].
  - split; [discriminate|intros []].
  - destruct (all_some l) as [r|].
    + split; [discriminate|]. intros [H|H]; [discriminate|]. apply IH in H. discriminate.
    + split; [intros _; right; now apply IH|reflexivity].
  - split; [intros _; now left|reflexivity].
Qed.
Definition nearly_equal (z w : C) : Prop := (Cabs (z - w)%C <= 10 ^ 5 * / 2 ^ 52)%R.
Theorem C57_refused : forall ext H T,
  let periodic := forall f A, In (f, A) (driven H) -> nearly_equal (f (t_check ext)) (f (t_check ext + T)%R) in
  (make_UF ext (Continuous H T) = Raises TypeErr <-> ~ periodic) /\
  (make_UF ext (Continuous H T) = Raises RuntimeErr <->
     periodic /\ exists i, i < Ns H /\ forall a, a <= 6 -> evolve ext H (times T a) (unit_vec i) = None).
Proof.
  intros ext H T. cbv zeta.
  assert (P : periodic_at_check ext H T = true <-> forall f A, In (f, A) (driven H) -> nearly_equal (f (t_check ext)) (f (t_check ext + T)%R)).
  { unfold periodic_at_check. rewrite forallb_forall. unfold nearly_equal. split.
    - intros HA f A Hi. specialize (HA (f, A) Hi). cbn [fst] in HA. unfold Rltb, macheps in HA.
      destruct (Rlt_dec _ _) as [|Hn] in HA; [discriminate|]. now apply Rnot_lt_le in Hn.
    - intros HA [f A] Hi. cbn [fst]. specialize (HA f A Hi). unfold Rltb, macheps. destruct (Rlt_dec _ _) as [Hl|]; [|reflexivity].
      exfalso. apply (Rlt_not_le _ _ Hl). exact HA. }
  assert (Q : get_U_cont ext H T = None <-> exists i, i < Ns H /\ forall a, a <= 6 -> evolve ext H (times T a) (unit_vec i) = None).
  { unfold get_U_cont. destruct (all_some (map (evolve_cont ext H T) (seq 0 (Ns H)))) as [r|] eqn:E; cbn [option_map].
    - split; [discriminate|]. intros (i & Hi & HA). exfalso.
      assert (N : all_some (map (evolve_cont ext H T) (seq 0 (Ns H))) = None); [|congruence].
      apply all_some_none. apply in_map_iff. exists i. split; [|apply in_seq; lia].
      unfold evolve_cont. apply attempts_none. intros a Ha. apply in_seq in Ha. apply HA. lia.
    - split; [intros _|reflexivity]. apply all_some_none in E. apply in_map_iff in E. destruct E as (i & E & Hi). apply in_seq in Hi.
      exists i. split; [lia|]. intros a Ha. unfold evolve_cont in E. rewrite attempts_none in E. apply E. apply in_seq. lia. }
  cbn [make_UF]. destruct (periodic_at_check ext H T) eqn:EP.
  - assert (PP := proj1 P eq_refl). destruct (get_U_cont ext H T) as [U|].
    + split; [split; [discriminate|intro HN; contradiction]|]. split; [discriminate|]. intros [_ HX]. apply Q in HX. discriminate.
    + split; [split; [discriminate|intro HN; contradiction]|]. split; [intros _; split; [exact PP|now apply Q]|reflexivity].
  - split.
    + split; [intros _ HP; apply P in HP; discriminate|reflexivity].
    + split; [discriminate|]. intros [HP _]. apply P in HP. discriminate.
Qed.
Print Assumptions C57_refused.
