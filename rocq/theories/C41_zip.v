(* C41: an operator written by save_zip and read by load_zip has the same names and matrices. *)
From Verif Require Import AuxN SpecZip M_zip P_zip.
Local Open Scope nat_scope.

(* For every set of matrices with different plain names without a slash, none of them almost zero and of a supported common data type, saving
   returns and loading gives the same names, matrices, formats and basis, in the same order.  The data type is that of the matrices. *)
Theorem C41_round_trip_partial : forall M B (mat_dtype : M -> dtype) (almost_zero : M -> bool) (o : op M B) save_basis t,
  NoDup (map fst (terms o)) -> Forall (fun e => no_slash (fst e)) (terms o) -> Forall plain_term (terms o) ->
  Forall (fun e => almost_zero (snd (snd e)) = false) (terms o) -> join_dtype mat_dtype None (terms o) = Some t -> supported t = true ->
  exists arch, save_zip o save_basis = (arch, true) /\
    load_zip mat_dtype almost_zero arch = Some {| terms := terms o; op_dtype := t; op_basis := if save_basis then op_basis o else None |}.
Proof.
  intros M B mat_dtype almost_zero o s t N F P Z J S. eexists. split; [apply save_spec; assumption|].
  unfold load_zip. rewrite load_basis, load_members by assumption. cbn [app]. rewrite J, S. do 2 f_equal. rewrite <- (app_nil_r (terms o)) at 2.
  clear -Z. induction Z as [|e l H Z IH]; [reflexivity|]. cbn [filter app]. rewrite H. cbn [negb]. f_equal. exact IH.
Qed.
Print Assumptions C41_round_trip_partial.

(* A name is read back exactly if it does not contain .npz or the marker of its kind. *)
Theorem C41_names : forall sparse k,
  decode sparse (file_of sparse k) = k <-> ~ contains (text ".npz") k /\ ~ contains (text (if sparse then "sparse_" else "dense_")) k.
Proof. exact decode_iff. Qed.
Print Assumptions C41_names.

Lemma no_slash_dec k : existsb (Ascii.eqb "/") k = false -> no_slash k.
Proof. intros H I. assert (existsb (Ascii.eqb "/") k = true); [|congruence]. apply existsb_exists. exists "/"%char. split; [exact I|apply Ascii.eqb_refl]. Qed.

(* A dense matrix whose name contains "sparse" is saved without an error and cannot be loaded. *)
Theorem C41_dense_sparse_refuted : forall M B (mat_dtype : M -> dtype) almost_zero (m : M) (b : option B) t k, no_slash k -> contains (text "sparse") k ->
  exists arch, save_zip {| terms := [(k, (false, m))]; op_dtype := t; op_basis := b |} true = (arch, true) /\ load_zip mat_dtype almost_zero arch = None.
Proof.
  intros M B mat_dtype almost_zero m b t k Sl Co. set (o := {| terms := [(k, (false, m))]; op_dtype := t; op_basis := b |}).
  eexists. split; [apply save_spec; repeat constructor; [cbn; tauto|exact Sl]|].
  unfold load_zip. rewrite load_basis. cbn [o terms map member fst snd load_terms].
  match goal with |- context [if ?c then _ else _] => destruct c as [E|_] end; [exfalso; exact (file_basis _ _ E)|].
  replace (sub_in (text "sparse") (file_of false k)) with true by (symmetry; apply dense_file, Co). reflexivity.
Qed.
Print Assumptions C41_dense_sparse_refuted.

(* Two sparse matrices can become one: the names a and sparse_a. *)
Theorem C41_collision_refuted : forall M (mat_dtype : M -> dtype) almost_zero (m m' : M), mat_dtype m = F64 -> mat_dtype m' = F64 -> almost_zero m' = false ->
  exists arch, save_zip {| terms := [(text "a", (true, m)); (text "sparse_a", (true, m'))]; op_dtype := F64; op_basis := @None unit |} true = (arch, true) /\
    load_zip mat_dtype almost_zero arch = Some {| terms := [(text "a", (true, m'))]; op_dtype := F64; op_basis := None |}.
Proof.
  intros M mat_dtype almost_zero m m' Hm Hm' Z. eexists. split; [reflexivity|].
  unfold load_zip. cbn. rewrite Hm, Hm'. cbn. rewrite Z. reflexivity.
Qed.
Print Assumptions C41_collision_refuted.

(* Matrices of integers, which a complex operator accepts, cannot be loaded. *)
Theorem C41_integers_refuted : forall M (mat_dtype : M -> dtype) almost_zero (m : M), mat_dtype m = I64 ->
  exists arch, save_zip {| terms := [(text "a", (true, m))]; op_dtype := C128; op_basis := @None unit |} true = (arch, true) /\ load_zip mat_dtype almost_zero arch = None.
Proof. intros M mat_dtype almost_zero m Hm. eexists. split; [reflexivity|]. unfold load_zip. cbn. rewrite Hm. reflexivity. Qed.
Print Assumptions C41_integers_refuted.

(* The data type of the operator is lost: a complex operator made of real matrices is loaded as a real one. *)
Theorem C41_dtype_refuted : forall M (mat_dtype : M -> dtype) almost_zero (m : M), mat_dtype m = F64 -> almost_zero m = false ->
  exists arch o', save_zip {| terms := [(text "a", (true, m))]; op_dtype := C128; op_basis := @None unit |} true = (arch, true) /\
    load_zip mat_dtype almost_zero arch = Some o' /\ op_dtype o' = F64.
Proof. intros M mat_dtype almost_zero m Hm Z. do 2 eexists. split; [reflexivity|]. unfold load_zip. cbn. rewrite Hm. split; reflexivity. Qed.
Print Assumptions C41_dtype_refuted.

(* An operator without matrices cannot be loaded. *)
Theorem C41_empty_refuted : forall M B (mat_dtype : M -> dtype) almost_zero (b : option B) t,
  exists arch, save_zip {| terms := @nil (name * (bool * M)); op_dtype := t; op_basis := b |} true = (arch, true) /\ load_zip mat_dtype almost_zero arch = None.
Proof. intros. eexists. split; [reflexivity|]. destruct b; reflexivity. Qed.
Print Assumptions C41_empty_refuted.

(* save_zip fails on a name with a slash, but the archive (which replaced any older one) can be loaded: it gives an operator without the
   matrices that come after. *)
Theorem C41_failed_save_refuted : forall M (mat_dtype : M -> dtype) almost_zero (m m' : M), mat_dtype m = F64 -> almost_zero m = false ->
  exists arch, save_zip {| terms := [(text "a", (true, m)); (text "b/c", (true, m'))]; op_dtype := F64; op_basis := @None unit |} true = (arch, false) /\
    load_zip mat_dtype almost_zero arch = Some {| terms := [(text "a", (true, m))]; op_dtype := F64; op_basis := None |}.
Proof. intros M mat_dtype almost_zero m m' Hm Z. eexists. split; [reflexivity|]. unfold load_zip. cbn. rewrite Hm. cbn. rewrite Z. reflexivity. Qed.
Print Assumptions C41_failed_save_refuted.

(* An operator with a sparse and a dense matrix meets the conditions of the round trip. *)
Example C41_hyps : let o := {| terms := [(text "Jzz", (true, F64)); (text "h.x", (false, C64))]; op_dtype := C128; op_basis := Some tt |} in
  NoDup (map fst (terms o)) /\ Forall (fun e => no_slash (fst e)) (terms o) /\ Forall plain_term (terms o) /\
  Forall (fun e => (fun _ : dtype => false) (snd (snd e)) = false) (terms o) /\ join_dtype (fun t => t) None (terms o) = Some C128 /\ supported C128 = true.
Proof.
  cbn zeta. cbn [terms]. split; [|split; [|split; [|split; [|split]]]]; try reflexivity.
  - constructor; [cbn; intros [H|[]]; discriminate H|]. constructor; [cbn; tauto|constructor].
  - repeat (apply Forall_cons || apply Forall_nil); apply no_slash_dec; reflexivity.
  - repeat (apply Forall_cons || apply Forall_nil); unfold plain_term, plain; cbn [fst snd]; rewrite <- !sub_in_true; repeat split; discriminate.
  - repeat (apply Forall_cons || apply Forall_nil); reflexivity.
Qed.
