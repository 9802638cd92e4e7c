(* C26: all matrix formats give the product of the matrix they store: y := a A x when overwriting and y += a A x otherwise, for one
   vector and for several vectors of any memory layout. *)
From Verif Require Import AuxN SpecC SpecBasis SpecSparse M_sparse P_sparse P_sparse2 P_sparse4.
Local Open Scope nat_scope.

(* One vector: the function returned by get_matvec_function, for CSR, CSC, DIA and other matrices, with any strides, any number of
   threads and every interleaving.  out = None: a new array, which is overwritten. *)
Theorem C26_vector : forall T M n_row n_col xs (x : Z -> C) ov out a res,
  0 < T -> valid_matrix n_row n_col M -> (forall ys y, out = Some (ys, y) -> ys <> 0%Z) ->
  matvec_function T M n_row n_col xs x ov out a res ->
  let X j := x (Z.of_nat j * xs)%Z in
  match out with
  | None => fst res = 1%Z /\ is_product true n_row n_col (entries M) a X (fun i => Z.of_nat i * 1)%Z (fun _ => C0) (snd res)
  | Some (ys, y) => fst res = ys /\ is_product ov n_row n_col (entries M) a X (fun i => Z.of_nat i * ys)%Z y (snd res)
  end.
Proof.
  intros T M n_row n_col xs x ov out a res HT HV Hs H. cbv zeta. destruct out as [[ys y]|]; destruct H as [H1 H2]; (split; [exact H1|]).
  - exact (dot1_ok T M n_row n_col ov a xs x ys y (snd res) HT HV (Hs ys y eq_refl) H2).
  - exact (dot1_ok T M n_row n_col true a xs x 1 (fun _ => C0) (snd res) HT HV (fun E => ltac:(discriminate E)) H2).
Qed.
Print Assumptions C26_vector.

Theorem C26_vector_runs : forall T M n_row n_col xs (x : Z -> C) ov out a, 0 < T -> valid_matrix n_row n_col M ->
  exists res, matvec_function T M n_row n_col xs x ov out a res.
Proof.
  intros T M n_row n_col xs x ov out a HT HV. destruct out as [[ys y]|].
  - destruct (dot1_runs T M n_row n_col ov a xs x ys y HT HV) as [y' H]. exists (ys, y'). split; [reflexivity|exact H].
  - destruct (dot1_runs T M n_row n_col true a xs x 1 (fun _ => C0) HT HV) as [y' H]. exists (1%Z, y'). split; [reflexivity|exact H].
Qed.
Print Assumptions C26_vector_runs.

(* Several vectors, entry (i, m) of an array with strides (sr, sc) at i sr + m sc.  What is missing: a CSR matrix needs an output
   array with ysc < ysr (rows apart), or contiguous columns, or one vector; see C26_csr_layout_refuted. *)
Theorem C26_vectors_partial : forall M n_row n_col n_vecs xsr xsc (x : Z -> C) ov a ysr ysc (y : Z -> C),
  valid_matrix n_row n_col M -> distinct_addresses n_row n_vecs (fun i m => Z.of_nat i * ysr + Z.of_nat m * ysc)%Z ->
  (match M with Csr _ _ _ => (ysc < ysr)%Z \/ ysc = (Z.of_nat n_row * ysr)%Z \/ n_vecs <= 1 | _ => True end) ->
  let X j m := x (Z.of_nat j * xsr + Z.of_nat m * xsc)%Z in
  exists y', matvecs_function M n_row n_col n_vecs xsr xsc x ov (Some (ysr, ysc, y)) a = (ysr, ysc, y') /\
  is_products ov n_row n_col n_vecs (entries M) a X (fun i m => Z.of_nat i * ysr + Z.of_nat m * ysc)%Z y y'.
Proof.
  intros M n_row n_col n_vecs xsr xsc x ov a ysr ysc y HV HD HC. cbv zeta. eexists. split; [reflexivity|].
  exact (dotn_ok M n_row n_col n_vecs ov a xsr xsc x ysr ysc y HV HD HC).
Qed.
Print Assumptions C26_vectors_partial.

(* without an output array the result is the product for every format and every layout of the input *)
Theorem C26_vectors_new : forall M n_row n_col n_vecs xsr xsc (x : Z -> C) ov a, valid_matrix n_row n_col M ->
  let X j m := x (Z.of_nat j * xsr + Z.of_nat m * xsc)%Z in
  exists y', matvecs_function M n_row n_col n_vecs xsr xsc x ov None a = (Z.of_nat n_vecs, 1%Z, y') /\
  is_products true n_row n_col n_vecs (entries M) a X (fun i m => Z.of_nat i * Z.of_nat n_vecs + Z.of_nat m * 1)%Z (fun _ => C0) y'.
Proof.
  intros M n_row n_col n_vecs xsr xsc x ov a HV. cbv zeta. eexists. split; [reflexivity|].
  apply (dotn_ok M n_row n_col n_vecs true a xsr xsc x (Z.of_nat n_vecs) 1 (fun _ => C0) HV (c_order n_row n_vecs)).
  destruct M; [|exact I|exact I|exact I]. destruct (le_lt_dec n_vecs 1) as [L|L]; [right; right; exact L|left; lia].
Qed.
Print Assumptions C26_vectors_new.

(* CSR and an output array with stored columns that are not adjacent (a slice out[:2] of an array in Fortran order with 3 rows):
   the second column is written to the wrong place *)
Theorem C26_csr_layout_refuted : exists n_row n_col n_vecs Ap Aj Ax (x : Z -> C) ysr ysc (y : Z -> C),
  valid_ptr n_row n_col Ap Aj /\ distinct_addresses n_row n_vecs (fun i m => Z.of_nat i * ysr + Z.of_nat m * ysc)%Z /\
  ~ is_products true n_row n_col n_vecs (csr_entry Ap Aj Ax) C1 (fun j m => x (Z.of_nat j * ysr + Z.of_nat m * ysc)%Z) (fun i m => Z.of_nat i * ysr + Z.of_nat m * ysc)%Z y
      (snd (matvecs_function (Csr Ap Aj Ax) n_row n_col n_vecs ysr ysc x true (Some (ysr, ysc, y)) C1)).
Proof.
  exists 2, 2, 2, (fun i => i), (fun k => k), (fun _ => C1), (fun _ => C1), 1%Z, 3%Z, (fun _ => C0). split; [|split].
  - split; [reflexivity|]. split; [intros; lia|intros; lia].
  - intros i m i' m' H1 H2 H3 H4 E. lia.
  - intros [H _]. specialize (H 1 1 ltac:(lia) ltac:(lia)). cbn [matvecs_function snd] in H. apply (f_equal fst) in H.
    unfold dotn, csr_matvecs_strided, zero2, loop, acc, upd, csr_entry, Csum in H. cbn in H. lra.
Qed.
Print Assumptions C26_csr_layout_refuted.

(* The public matvec: it returns A x in a new array whatever a, overwrite_out and out are. *)
Theorem C26_matvec_partial : forall T M n_row n_col xs (x : Z -> C) ov out a res,
  0 < T -> valid_matrix n_row n_col M -> matvec T M n_row n_col xs x ov out a res ->
  fst res = 1%Z /\ is_product true n_row n_col (entries M) C1 (fun j => x (Z.of_nat j * xs)%Z) (fun i => Z.of_nat i * 1)%Z (fun _ => C0) (snd res).
Proof.
  intros T M n_row n_col xs x ov out a res HT HV H. exact (C26_vector T M n_row n_col xs x false None C1 res HT HV (fun ys y E => ltac:(discriminate E)) H).
Qed.
Print Assumptions C26_matvec_partial.
Theorem C26_matvec_arguments_refuted : exists T M n_row n_col xs (x : Z -> C) a res, 0 < T /\ valid_matrix n_row n_col M /\
  matvec T M n_row n_col xs x true None a res /\
  ~ is_product true n_row n_col (entries M) a (fun j => x (Z.of_nat j * xs)%Z) (fun i => Z.of_nat i * fst res)%Z (fun _ => C0) (snd res).
Proof.
  exists 1, (Other (fun _ _ => C1)), 1, 1, 1%Z, (fun _ => C1), (C1 + C1)%C.
  destruct (C26_vector_runs 1 (Other (fun _ _ => C1)) 1 1 1%Z (fun _ => C1) false None C1 ltac:(lia) I) as [res H]. exists res.
  split; [lia|]. split; [exact I|]. split; [exact H|]. intros [K _].
  destruct (C26_matvec_partial 1 (Other (fun _ _ => C1)) 1 1 1%Z (fun _ => C1) true None C1 res ltac:(lia) I H) as [E [K' _]]. rewrite E in K.
  specialize (K 0 ltac:(lia)). specialize (K' 0 ltac:(lia)). cbn beta in K, K'. rewrite K in K'. apply (f_equal fst) in K'. unfold Csum in K'. cbn in K'. lra.
Qed.
Print Assumptions C26_matvec_arguments_refuted.

(* a 2 x 3 matrix with a diagonal above the main one, two vectors in Fortran order *)
Example C26_example : let M := Dia 2 3 (fun d => if d =? 0 then 0%Z else 1%Z) (fun p => (IZR p, 0)%R) in
  valid_matrix 2 3 M /\ entries M 1 1 = (1, 0)%R /\ entries M 1 2 = (5, 0)%R /\
  distinct_addresses 2 2 (fun i m => Z.of_nat i * 1 + Z.of_nat m * 4)%Z /\
  snd (matvecs_function M 2 3 2 1 3 (fun p => (IZR p, 0)%R) false (Some (1%Z, 4%Z, fun _ => C1)) C1) 5%Z = (1 + (4 + 25), 0)%R.
Proof.
  cbv zeta. split; [exact I|]. split; [unfold entries, dia_entry, Csum; cbn; apply C_eq; cbn; ring|]. split; [unfold entries, dia_entry, Csum; cbn; apply C_eq; cbn; ring|].
  assert (D : distinct_addresses 2 2 (fun i m => Z.of_nat i * 1 + Z.of_nat m * 4)%Z) by (intros i m i' m' H1 H2 H3 H4 E; lia). split; [exact D|].
  destruct (C26_vectors_partial (Dia 2 3 (fun d => if d =? 0 then 0%Z else 1%Z) (fun p => (IZR p, 0)%R)) 2 3 2 1 3 (fun p => (IZR p, 0)%R) false C1 1 4 (fun _ => C1) I D I) as (y' & E & [H _]).
  rewrite E. cbn [snd]. specialize (H 1 1 ltac:(lia) ltac:(lia)). change (Z.of_nat 1 * 1 + Z.of_nat 1 * 4)%Z with 5%Z in H. rewrite H.
  unfold entries, dia_entry, Csum. cbn. apply C_eq; cbn; lra.
Qed.
