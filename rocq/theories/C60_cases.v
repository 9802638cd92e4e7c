(* C60: what the class exp_op does differently from its documentation; exponentials for which the theorems hold. *)
From Verif Require Import AuxN SpecC SpecExpm SpecHam SpecExpop M_block M_expop P_expop C60_expop.
Local Open Scope nat_scope.

(* --- exp(M) = 1 + M for matrices with M^2 = 0, of every size --- *)
Definition square_zero (n : nat) (M : cmat) : Prop := same n (mat_mul n M M) (fun _ _ => C0).
Definition one_plus (M : cmat) : cmat := mat_add identity_mat M.
Lemma mul_id_r n X i j : j < n -> mat_mul n X identity_mat i j = X i j.
Proof.
  intro Hj. unfold mat_mul, identity_mat. rewrite (Csum_single (seq 0 n) _ j); [rewrite Nat.eqb_refl; ring|apply seq_NoDup|apply in_seq; lia|].
  intros k _ Hk. destruct (Nat.eqb_spec k j); [congruence|ring].
Qed.
Lemma square_zero_exponential n : exponential_on n (square_zero n) one_plus.
Proof.
  split.
  - intros A B HA HS i j Hi Hj. rewrite <- (HA i j Hi Hj). apply Csum_ext. intros k Hk. apply in_seq in Hk. rewrite !HS by lia. reflexivity.
  - intros c M HM i j Hi Hj. unfold mat_mul, mat_scale. rewrite (Csum_ext _ _ (fun k => (c * c) * (M i k * M k j))%C) by (intros; ring).
    rewrite Csum_mul_l. assert (H := HM i j Hi Hj). unfold mat_mul in H. rewrite H. ring.
  - intros M HM i j Hi Hj. rewrite <- (HM j i Hj Hi). apply Csum_ext. intros. unfold mat_T. ring.
  - intros M HM i j Hi Hj. assert (H := HM i j Hi Hj). apply (f_equal Cconj) in H. unfold mat_mul in H. rewrite Csum_conj in H.
    transitivity (Cconj C0); [rewrite <- H|apply C_eq; cbn; ring]. apply Csum_ext. intros. unfold mat_conj. now rewrite Cconj_mul.
  - intros A B HA HS i j Hi Hj. unfold one_plus, mat_add. now rewrite HS.
  - intros M HM i j Hi Hj. unfold one_plus, mat_add, scaled, mat_scale. apply C_eq; cbn; ring.
  - intros s t M HM i j Hi Hj. assert (H := HM i j Hi Hj).
    transitivity (mat_mul n identity_mat (one_plus (scaled t M)) i j + (mat_mul n (scaled s M) identity_mat i j + RtoC s * RtoC t * mat_mul n M M i j))%C.
    + rewrite mul_id, mul_id_r, H by assumption. unfold one_plus, mat_add, scaled, mat_scale. apply C_eq; cbn; ring.
    + unfold mat_mul. rewrite <- Csum_mul_l, <- !Csum_add. apply Csum_ext. intros k _. unfold one_plus, mat_add, scaled, mat_scale. ring.
  - intros M HM i j Hi Hj. unfold one_plus, mat_add, mat_T, identity_mat. now rewrite (Nat.eqb_sym j i).
  - intros M HM i j Hi Hj. unfold one_plus, mat_add, mat_conj, identity_mat. rewrite Cconj_add. f_equal. destruct (i =? j); apply C_eq; cbn; ring.
Qed.
(* --- all numbers: n = 1 --- *)
Definition number_exp (M : cmat) : cmat := fun _ _ => Cexp (M 0 0).
Lemma Cexp_plus y z : Cexp (y + z)%C = (Cexp y * Cexp z)%C.
Proof. unfold Cexp. apply C_eq; cbn; rewrite ?exp_plus, ?cos_plus, ?sin_plus; ring. Qed.
Lemma Cexp_conjugate z : Cexp (Cconj z) = Cconj (Cexp z).
Proof. unfold Cexp. apply C_eq; cbn; rewrite ?cos_neg, ?sin_neg; ring. Qed.
Lemma number_exponential : exponential_on 1 (fun _ => True) number_exp.
Proof.
  assert (Z : forall i, i < 1 -> i = 0) by (intros; lia).
  split; try (intros; exact I).
  - intros A B _ HS i j Hi Hj. unfold number_exp. now rewrite HS by lia.
  - intros M _ i j Hi Hj. rewrite (Z i Hi), (Z j Hj). unfold number_exp, scaled, mat_scale, Cexp, identity_mat. cbn [Nat.eqb].
    apply C_eq; cbn; rewrite ?Rmult_0_l, ?Rminus_0_r, ?Rplus_0_l, ?exp_0, ?cos_0, ?sin_0; ring.
  - intros s t M _ i j Hi Hj. unfold mat_mul, number_exp. cbn [seq Csum]. rewrite <- Cexp_plus.
    transitivity (Cexp (scaled s M 0 0 + scaled t M 0 0)%C); [f_equal; unfold scaled, mat_scale; apply C_eq; cbn; ring|].
    rewrite Cexp_plus. unfold Csum. cbn. apply C_eq; cbn; ring.
  - intros M _ i j Hi Hj. reflexivity.
  - intros M _ i j Hi Hj. unfold number_exp, mat_conj. apply Cexp_conjugate.
Qed.

(* --- a 2 x 2 matrix on the grid 0, 1 --- *)
Definition raise2 : cmat := fun i j => match i, j with 0, 1 => C1 | _, _ => C0 end.
Lemma raise2_square_zero c : square_zero 2 (shifted c raise2 None).
Proof. intros [|[|i]] [|[|j]] Hi Hj; try lia; unfold mat_mul, shifted, raise2, identity_mat; cbn [seq Csum Nat.eqb]; unfold Csum; apply C_eq; cbn; ring. Qed.
Definition on01 (it : bool) : expop :=
  {| Op := raise2; a := C1; start := Some 0%R; stop := Some 1%R; num := Some 2; endpoint := Some true; iterate := it; grid := Some (linspace 0 1 2 true) |}.
Lemma on01_reachable it : reachable (on01 it).
Proof. apply (r_new raise2 C1 (Some 0%R) (Some 1%R) (Some 2) (Some true) it). reflexivity. Qed.
Lemma grid01 : linspace 0 1 2 true = ([0; 1]%R, 1%R).
Proof. unfold linspace, spacing. cbn [seq map]. f_equal; [repeat f_equal|]; cbn; field. Qed.
Definition unit_array (k : kind) : operand := {| knd := k; rows := 2; cols := 2; parts := [identity_mat] |}.
(* the hypotheses of the theorems are met: a history with all setters that ends in a grid of two points *)
Example C60_meets : exists o g d, reachable o /\ grid o = Some (g, d) /\ g = [0; 1]%R /\ iterate o = true /\
  exponential_on 2 (square_zero 2) one_plus /\ square_zero 2 (shifted (a o) (Op o) None) /\
  exists l, dot 2 one_plus o (unit_array KSpa) None = Gen l /\ entry_of l 1 0 1 (RtoC 3) /\ entry_of l 0 0 1 C0.
Proof.
  set (o0 := on01 false). set (o1 := set_a (unset_grid o0) (RtoC 3)).
  set (o := set_iterate {| Op := raise2; a := RtoC 3; start := Some 0%R; stop := Some 1%R; num := Some 2; endpoint := Some true; iterate := false; grid := Some (linspace 0 1 2 true) |} true).
  assert (HR : reachable o) by (apply r_iterate, (r_grid o1 0%R 1%R (Some 2) (Some true)); [apply r_a, r_unset, on01_reachable|reflexivity]).
  assert (HG : grid o = Some ([0; 1]%R, 1%R)) by (cbn; now rewrite grid01).
  exists o, [0; 1]%R, 1%R. split; [exact HR|]. split; [exact HG|]. split; [reflexivity|]. split; [reflexivity|].
  split; [apply square_zero_exponential|]. split; [apply raise2_square_zero|].
  destruct (C60_dot 2 _ _ o _ _ (unit_array KSpa) None (square_zero_exponential 2) HR HG ltac:(discriminate) (raise2_square_zero _) eq_refl ltac:(discriminate)) as (l & [Hl1 Hl2] & HD & _).
  exists l. split; [now apply HD|]. split.
  - destruct (Hl2 1 ltac:(cbn; lia)) as (y & Ey & _ & _ & _ & _ & H). exists y. split; [exact Ey|]. rewrite (H 0 ltac:(cbn; lia) 0 1 ltac:(lia)).
    unfold mat_mul. cbn [seq nth parts unit_array]. unfold Csum, one_plus, mat_add, scaled, mat_scale, shifted, identity_mat, raise2. apply C_eq; cbn; ring.
  - destruct (Hl2 0 ltac:(cbn; lia)) as (y & Ey & _ & _ & _ & _ & H). exists y. split; [exact Ey|]. rewrite (H 0 ltac:(cbn; lia) 0 1 ltac:(lia)).
    unfold mat_mul. cbn [seq nth parts unit_array]. unfold Csum, one_plus, mat_add, scaled, mat_scale, shifted, identity_mat, raise2. apply C_eq; cbn; ring.
Qed.
Example C60_meets_shift : exponential_on 1 (fun _ => True) number_exp /\ exists o, reachable o /\ grid o <> None /\ iterate o = false.
Proof. split; [exact number_exponential|]. exists (on01 false). split; [apply on01_reachable|]. split; [discriminate|reflexivity]. Qed.

(* dot of an array with two axes on a grid is documented as the product exp(O) A: the result has its axes reversed, and for A = 1 the
   matrices at the points are the transposes of the exponentials; rdot and sandwich return other orders of the axes. *)
Theorem C60_dot_array_refuted : exists o f, reachable o /\ dot 2 one_plus o (unit_array KArr) None = Nd3 2 2 2 f /\
  f 0 1 1 <> one_plus (scaled 1 (shifted (a o) (Op o) None)) 0 1 /\ f 1 0 1 = one_plus (scaled 1 (shifted (a o) (Op o) None)) 0 1.
Proof.
  assert (HG : grid (on01 false) = Some ([0; 1]%R, 1%R)) by (cbn; now rewrite grid01).
  destruct (C60_dot 2 _ _ (on01 false) _ _ (unit_array KArr) None (square_zero_exponential 2) (on01_reachable false) HG ltac:(discriminate) (raise2_square_zero _) eq_refl ltac:(discriminate)) as (l & [Hl1 Hl2] & _ & _ & _ & HD).
  destruct (HD eq_refl eq_refl) as (f & Ef & Hf). exists (on01 false), f. split; [apply on01_reachable|]. split; [exact Ef|].
  destruct (Hl2 1 ltac:(cbn; lia)) as (y & Ey & _ & _ & _ & _ & H).
  destruct (Hf 1 0 1 ltac:(cbn; lia)) as (y1 & Ey1 & ->). destruct (Hf 0 1 1 ltac:(cbn; lia)) as (y2 & Ey2 & ->).
  assert (y1 = y) by congruence. assert (y2 = y) by congruence. subst y1 y2. rewrite (H 0 ltac:(cbn; lia) 1 0 ltac:(lia)), (H 0 ltac:(cbn; lia) 0 1 ltac:(lia)).
  unfold mat_mul. cbn [seq nth parts unit_array]. unfold Csum, one_plus, mat_add, scaled, mat_scale, shifted, identity_mat, raise2. split.
  - intro Q. apply (f_equal fst) in Q. cbn in Q. lra.
  - apply C_eq; cbn; ring.
Qed.
Print Assumptions C60_dot_array_refuted.

(* hamiltonian objects on a grid: dot and rdot always raise, also as generators (step and grid are exchanged in the call); sandwich works. *)
Theorem C60_hamiltonian_refuted : forall n E o x shift, reachable o -> grid o <> None -> knd x = KHam -> rows x = n -> cols x = n ->
  dot n E o x shift = Error IndexError /\ rdot n E o x shift = Error IndexError.
Proof.
  intros n E o x shift _ HG HK Hr Hc. destruct (grid o) as [[g d]|] eqn:EG; [|congruence]. unfold dot, rdot. rewrite HK, Hr, Hc, Nat.eqb_refl, EG. split; reflexivity.
Qed.
Print Assumptions C60_hamiltonian_refuted.

(* set_grid documents num and endpoint as optional: leaving out either raises ValueError. *)
Theorem C60_set_grid_refuted : forall o b e, (forall ep, set_grid o b e None ep = inl ValueError) /\ (forall m, set_grid o b e m None = inl ValueError).
Proof. intros. split; [reflexivity|]. intros [m|]; reflexivity. Qed.
Print Assumptions C60_set_grid_refuted.

(* set_iterate(True) is meant to be refused without a grid: it is accepted, and after it dot, rdot and sandwich raise TypeError. *)
Theorem C60_iterate_refuted : exists o, reachable o /\ grid o = None /\ iterate o = true /\
  forall n E x shift, knd x <> KVec -> rows x = n -> cols x = n ->
    dot n E o x shift = Error TypeError /\ rdot n E o x shift = Error TypeError /\ sandwich n E o x shift = Error TypeError.
Proof.
  exists (set_iterate (unset_grid (on01 false)) true). split; [apply r_iterate, r_unset, on01_reachable|]. split; [reflexivity|]. split; [reflexivity|].
  intros n E x shift Hk Hr Hc. unfold dot, rdot, sandwich. destruct (knd x); try congruence; rewrite Hr, Hc, Nat.eqb_refl; cbn; repeat split; reflexivity.
Qed.
Print Assumptions C60_iterate_refuted.

(* sandwich of a sparse matrix on a grid without iterate always raises ValueError. *)
Theorem C60_sandwich_sparse_refuted : forall n E o g d x shift, reachable o -> grid o = Some (g, d) -> g <> [] -> iterate o = false ->
  knd x = KSpa -> rows x = n -> cols x = n -> sandwich n E o x shift = Error ValueError.
Proof.
  intros n E o g d x shift _ HG Hg HI HK Hr Hc. unfold sandwich. rewrite HK, Hr, Hc, Nat.eqb_refl, HG, HI. destruct g; [congruence|]. reflexivity.
Qed.
Print Assumptions C60_sandwich_sparse_refuted.

(* shift is documented as exp(O - shift): the sign is the opposite, and sandwich without a grid does not use shift at all. *)
Theorem C60_shift_refuted :
  (exists o x y, reachable o /\ dot 1 number_exp o x (Some C1) = One y /\
     nth 0 (parts y) Z0 0 0 <> mat_mul 1 (number_exp (mat_scale (a o) (mat_add (Op o) (mat_scale (RtoC (-1)) identity_mat)))) (nth 0 (parts x) Z0) 0 0) /\
  (forall n E o x shift, grid o = None -> sandwich n E o x shift = sandwich n E o x None).
Proof.
  split.
  - set (x := {| knd := KVec; rows := 1; cols := 1; parts := [fun _ _ => C1] |}). set (o := unset_grid (on01 false)).
    assert (HR : reachable o) by apply r_unset, on01_reachable.
    destruct (proj1 (C60_single 1 _ _ o x (Some C1) number_exponential HR eq_refl eq_refl I) eq_refl) as (y & Ey & _ & _ & _ & _ & H).
    exists o, x, y. split; [exact HR|]. split; [exact Ey|]. rewrite (H 0 ltac:(cbn; lia) 0 0 ltac:(lia)).
    unfold mat_mul. cbn [seq nth parts x]. unfold Csum, number_exp, shifted, mat_scale, mat_add, identity_mat, Cexp. intro Q. apply (f_equal fst) in Q. cbn in Q.
    replace (1 * (0 + (1 * 1 - 0 * 0)) - 0 * (0 + (1 * 0 + 0 * 1)))%R with 1%R in Q by ring.
    replace (1 * (0 + (1 * 0 + 0 * 1)) + 0 * (0 + (1 * 1 - 0 * 0)))%R with 0%R in Q by ring.
    replace (1 * (0 + (-1 * 1 - 0 * 0)) - 0 * (0 + (-1 * 0 + 0 * 1)))%R with (-1)%R in Q by ring.
    replace (1 * (0 + (-1 * 0 + 0 * 1)) + 0 * (0 + (-1 * 1 - 0 * 0)))%R with 0%R in Q by ring.
    rewrite cos_0, sin_0 in Q. assert (exp (-1) < exp 1)%R by (apply exp_increasing; lra). lra.
  - intros n E o x shift HG. unfold sandwich. rewrite HG. destruct (knd x), (iterate o); reflexivity.
Qed.
Print Assumptions C60_shift_refuted.
