(* C25: the load-balanced parallel CSR product gives y (+)= a A x for every matrix, number of threads and interleaving; each row is
   finished by exactly one thread and each non-zero is used by exactly one thread. *)
From Verif Require Import AuxN SpecC SpecBasis SpecSparse M_sparse P_sparse3 P_sparse4.
Local Open Scope nat_scope.

(* csrmv_merge ... y y': some interleaving of the T threads leads from the content y of the output array to y'.  x and y have
   strides xs and ys.  Outside of the n_row entries of the output nothing is written. *)
Theorem C25_product : forall ov n_row n_col Ap Aj Ax a xs (x : Z -> C) ys T (y y' : Z -> C),
  valid_ptr n_row n_col Ap Aj -> 0 < T -> ys <> 0%Z ->
  csrmv_merge ov n_row Ap Aj Ax a xs x ys T y y' ->
  is_product ov n_row n_col (csr_entry Ap Aj Ax) a (fun j => x (Z.of_nat j * xs)%Z) (fun i => Z.of_nat i * ys)%Z y y'.
Proof. exact (fun ov n_row n_col Ap Aj Ax a xs x ys T y y' V HT Hs H => csrmv_merge_ok n_row n_col Ap Aj Ax T V HT ov a xs x ys y y' Hs H). Qed.
Print Assumptions C25_product.

(* such runs exist: no thread gets stuck *)
Theorem C25_runs : forall ov n_row n_col Ap Aj Ax a xs (x : Z -> C) ys T (y : Z -> C), valid_ptr n_row n_col Ap Aj -> 0 < T ->
  exists y', csrmv_merge ov n_row Ap Aj Ax a xs x ys T y y'.
Proof. exact (fun ov n_row n_col Ap Aj Ax a xs x ys T y V HT => csrmv_merge_runs n_row n_col Ap Aj Ax T V HT ov a xs x ys y). Qed.
Print Assumptions C25_runs.

(* The work is cut at coordinates (X t, K t): thread t finishes the rows X t .. X (t+1) - 1 and uses the non-zeros K t .. K (t+1) - 1.
   The first thread starts at (0, 0), the last one ends after the last row and the last non-zero. *)
Theorem C25_partition : forall n_row n_col Ap Aj T, valid_ptr n_row n_col Ap Aj -> 0 < T ->
  exists X K : nat -> nat,
  (forall t, t <= T -> merge_path_search (Nat.min ((n_row + Ap n_row + T - 1) / T * t) (n_row + Ap n_row)) n_row (Ap n_row) (fun i => Ap (S i)) = Some (X t, K t)) /\
  X 0 = 0 /\ K 0 = 0 /\ X T = n_row /\ K T = Ap n_row /\ (forall t, X t <= X (S t) /\ K t <= K (S t)) /\
  (forall t, X t <= n_row /\ Ap (X t) <= K t /\ (X t < n_row -> K t <= Ap (S (X t)))).
Proof. exact (fun n_row n_col Ap Aj T V HT => merge_partition n_row n_col Ap Aj (fun _ => C0) T V HT). Qed.
Print Assumptions C25_partition.

(* three rows, the second one empty, the third one shared by two threads *)
Definition ex_Ap (i : nat) : nat := match i with 0 => 0 | 1 => 1 | 2 => 1 | _ => 5 end.
Example C25_example : valid_ptr 3 4 ex_Ap (fun k => k mod 4) /\
  (forall y y', csrmv_merge false 3 ex_Ap (fun k => k mod 4) (fun _ => C1) C1 1 (fun _ => C1) 2 4 y y' -> y' 4%Z = (y 4%Z + (C1 + C1 + C1 + C1))%C /\ y' 3%Z = y 3%Z) /\
  (exists y', csrmv_merge false 3 ex_Ap (fun k => k mod 4) (fun _ => C1) C1 1 (fun _ => C1) 2 4 (fun _ => C0) y') /\
  map (fun t => merge_path_search (2 * t) 3 5 (fun i => ex_Ap (S i))) [0; 1; 2; 3; 4] = [Some (0, 0); Some (1, 1); Some (2, 2); Some (2, 4); Some (3, 5)].
Proof.
  assert (V : valid_ptr 3 4 ex_Ap (fun k => k mod 4)).
  { split; [reflexivity|]. split; [intros i Hi; destruct i as [|[|[|i]]]; cbn; lia|]. intros k _. apply Nat.mod_upper_bound. lia. }
  assert (H4 : 0 < 4) by lia. assert (H2 : 2%Z <> 0%Z) by lia.
  split; [exact V|]. split; [|split; [exact (C25_runs false 3 4 ex_Ap _ _ C1 1 _ 2 4 _ V H4)|vm_compute; reflexivity]].
  intros y y' H. destruct (C25_product _ _ _ _ _ _ _ _ _ _ _ _ _ V H4 H2 H) as [H1 H0]. split.
  - specialize (H1 2 ltac:(lia)). change (Z.of_nat 2 * 2)%Z with 4%Z in H1. rewrite H1. f_equal. unfold csr_entry, Csum. cbn. ring.
  - apply H0. intros i Hi. lia.
Qed.
