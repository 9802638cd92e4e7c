(* C35 (second part): evolve.  psi is the solution of the equation with psi t0 the initial state; the integrator is taken to be exact, in
   any order of the times: from an array that stores psi r it reaches one that stores psi t. *)
From Verif Require Import AuxN SpecC SpecExpm SpecEvolve M_ode P_ode.
Local Open Scope nat_scope.

(* real time: for every list of times, repeated, unsorted or equal to the initial time, every result is the solution at its time; vectors in
   all three storages, matrices in two *)
Theorem C35_evolve_times flow m s (psi : R -> list C) t0 ts :
  (forall t, length (psi t) = rows s * cols s) -> (m = Stack -> exists n, s = Vec n) -> (m = Real -> forall t z, In z (psi t) -> snd z = 0%R) ->
  (forall r t y, stores m (psi r) y -> stores m (psi t) (flow r t y)) ->
  evolve flow m false s (psi t0) t0 ts = Some (map psi ts).
Proof.
  intros L S Rl F. unfold evolve. replace (match m with Stack | _ => evolve_list flow m false (vnorm (psi t0)) s t0 {| v0 := pack m (psi t0); y := pack m (psi t0); now := t0; fresh := true |} ts end)
    with (evolve_list flow m false (vnorm (psi t0)) s t0 {| v0 := pack m (psi t0); y := pack m (psi t0); now := t0; fresh := true |} ts) by (destruct m; reflexivity).
  apply plain_list; auto; try reflexivity.
  - intros E. destruct (S E) as [n ->]. reflexivity.
  - intros r t. apply stores_eq. apply F. apply stores_pack. intros E. apply Rl. exact E.
Qed.
Print Assumptions C35_evolve_times.

(* imaginary time, vectors: every result is the solution scaled to the norm of the initial state *)
Theorem C35_evolve_imaginary flow m n (psi : R -> list C) t0 ts :
  m <> Stack -> (forall t, length (psi t) = n) -> (forall t, vnorm (psi t) <> 0%R) -> (m = Real -> forall t z, In z (psi t) -> snd z = 0%R) ->
  (forall c r t y, (0 < c)%R -> stores m (vscale c (psi r)) y -> stores m (vscale c (psi t)) (flow r t y)) ->
  evolve flow m true (Vec n) (psi t0) t0 ts = Some (map (fun t => vscale (vnorm (psi t0) / vnorm (psi t)) (psi t)) ts)
  /\ forall t, vnorm (vscale (vnorm (psi t0) / vnorm (psi t)) (psi t)) = vnorm (psi t0).
Proof.
  intros Hm L Nz Rl F. split.
  - unfold evolve. destruct m; [congruence| |];
      (apply (imag_list flow _ n t0 psi Hm L Rl Nz) with (c := 1%R); [|lra|reflexivity|cbn [y now]; rewrite vscale_1; reflexivity|reflexivity];
       intros c r t Hc; apply stores_eq; apply F; [exact Hc|]; apply stores_pack; intros E; exact (vscale_real _ c (psi r) (fun E' => Rl E' r) E)).
  - intros t. pose proof (vnorm_pos _ (Nz t)). pose proof (vnorm_pos _ (Nz t0)). rewrite vnorm_scale by (apply Rdiv_lt_0_compat; lra). field. lra.
Qed.
Print Assumptions C35_evolve_imaginary.

(* matrices of several columns cannot be evolved with a stacked state: the output cannot be formatted *)
Theorem C35_stacked_matrix_refuted flow n k (psi : R -> list C) t0 ts :
  1 <= n -> 2 <= k -> (forall t, length (psi t) = n * k) -> (forall r t y, stores Stack (psi r) y -> stores Stack (psi t) (flow r t y)) -> ts <> [] ->
  evolve flow Stack false (Mat n k) (psi t0) t0 ts = None.
Proof.
  intros Hn Hk L F T. destruct ts as [|t ts]; [congruence|].
  assert (B : forall u, format Stack false (vnorm (psi t0)) (Mat n k) (pack Stack (psi u)) = None).
  { intros u. unfold format. cbn [rows cols]. unfold reshape. cbn [rows cols]. rewrite firstn_length, pack_length, L.
    replace (Nat.min n (2 * (n * k)) =? n * k) with false; [reflexivity|]. symmetry. apply Nat.eqb_neq. nia. }
  cbn [evolve evolve_list v0 y now]. destruct (Req_EM_T t t0); [rewrite B; reflexivity|].
  rewrite (stores_eq Stack (psi t) (flow t0 t (pack Stack (psi t0)))) by (apply F, stores_pack; discriminate). rewrite B. reflexivity.
Qed.
Print Assumptions C35_stacked_matrix_refuted.

(* imaginary time, matrices: each column is scaled to the norm of the whole initial matrix: even the initial state is not returned *)
Theorem C35_imaginary_columns_refuted : exists (v : list C) out, length v = 4 /\
  (forall flow t0, evolve flow Complex true (Mat 2 2) v t0 [t0] = Some [out]) /\ out <> v /\ vnorm out <> vnorm v.
Proof.
  set (v := [C1; C0; C0; C1] : list C). exists v, (normalised (Mat 2 2) (vnorm v) v). split; [reflexivity|].
  assert (N : vnorm v = sqrt 2). { unfold vnorm, norm2, Rsum, v, C1, C0. cbn [fold_right fst snd]. f_equal. ring. }
  assert (S2 : (0 < sqrt 2)%R) by (apply sqrt_lt_R0; lra). assert (SS : (sqrt 2 * sqrt 2 = 2)%R) by (apply sqrt_sqrt; lra).
  assert (Q : normalised (Mat 2 2) (vnorm v) v = [(sqrt 2, 0%R); C0; C0; (sqrt 2, 0%R)]).
  { rewrite N. assert (CN : forall c, c < 2 -> column_norm (Mat 2 2) v c = 1%R).
    { intros c Hc. unfold column_norm. cbn [rows cols]. destruct c as [|[|c]]; [| |lia]; unfold Rsum, v, C1, C0; cbn -[Rmult Rplus sqrt]; rewrite <- sqrt_1 at 3; f_equal; ring. }
    unfold normalised. replace (seq 0 (length v)) with [0; 1; 2; 3] by reflexivity. cbn [map cols]. 
    rewrite !CN by (apply Nat.mod_upper_bound; lia).
    replace (/ (1 / sqrt 2))%R with (sqrt 2) by (field; lra). unfold v, Cmul, RtoC, C1, C0. cbn [nth fst snd]. repeat f_equal; ring. }
  split; [|split].
  - intros flow t0. cbn [evolve evolve_list v0]. destruct (Req_EM_T t0 t0); [|congruence]. unfold format. cbn [pack]. rewrite pairs_pack. unfold reshape.
    replace (length v =? rows (Mat 2 2) * cols (Mat 2 2)) with true by reflexivity. reflexivity.
  - rewrite Q. unfold v, C1. intros E. injection E as E. rewrite E in SS. lra.
  - rewrite Q, N. unfold vnorm, norm2, Rsum, C0. cbn [fold_right fst snd]. intros E. apply (f_equal (fun x => (x * x)%R)) in E. rewrite SS in E.
    rewrite sqrt_sqrt in E by nra. nra.
Qed.
Print Assumptions C35_imaginary_columns_refuted.

(* the hypotheses hold for the two energies 1 and 0, in real time and in imaginary time *)
Definition ex_psi (t : R) : list C := [(cos t, - sin t)%R; C1].
Definition ex_flow (r t : R) (y : list R) : list R :=
  match y with [a; b; c; d] => let u := (t - r)%R in [a * cos u + b * sin u; b * cos u - a * sin u; c; d]%R | _ => y end.
Definition ex_psi' (t : R) : list C := [RtoC (exp (- t)); C1].
Definition ex_flow' (r t : R) (y : list R) : list R := match y with [a; b; c; d] => [a * exp (- (t - r)); b * exp (- (t - r)); c; d]%R | _ => y end.
Lemma stores4 v w y : stores Complex [v; w] y <-> y = [fst v; snd v; fst w; snd w].
Proof. split; [exact (stores_eq Complex [v; w] y)|]. intros ->. apply (stores_pack Complex [v; w]). discriminate. Qed.
Example C35_evolve_hyps : (forall r t y, stores Complex (ex_psi r) y -> stores Complex (ex_psi t) (ex_flow r t y)) /\
  (forall c r t y, (0 < c)%R -> stores Complex (vscale c (ex_psi' r)) y -> stores Complex (vscale c (ex_psi' t)) (ex_flow' r t y)) /\
  (forall t, vnorm (ex_psi' t) <> 0%R) /\ length (ex_psi 0) = 2 /\ ex_psi PI <> ex_psi 0 /\ ex_psi' 1 <> ex_psi' 0.
Proof.
  split; [|split; [|split; [|split; [|split]]]].
  - intros r t y S. apply stores4 in S. subst y. apply stores4. unfold ex_flow. cbn [fst snd].
    replace (cos t) with (cos ((t - r) + r)) by (f_equal; ring). replace (sin t) with (sin ((t - r) + r)) by (f_equal; ring). rewrite cos_plus, sin_plus.
    f_equal; [ring|]. f_equal. ring.
  - intros c r t y Hc S. apply stores4 in S. subst y. apply stores4. unfold ex_flow', Cmul, RtoC, C1. cbn [fst snd].
    replace (exp (- t)) with (exp (- r) * exp (- (t - r)))%R by (rewrite <- exp_plus; f_equal; ring). f_equal; [ring|]. f_equal. ring.
  - intros t. unfold vnorm. apply Rgt_not_eq. apply sqrt_lt_R0. unfold norm2, Rsum, ex_psi', RtoC, C1. cbn [fold_right fst snd]. nra.
  - reflexivity.
  - unfold ex_psi. rewrite cos_PI, cos_0. intros E. injection E as E1 E2. lra.
  - unfold ex_psi', RtoC. intros E. injection E as E1. apply exp_inv in E1. lra.
Qed.
