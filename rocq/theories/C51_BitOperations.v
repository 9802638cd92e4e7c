(* C51: the array bit operations return the operation on every element, and keep out where the mask is False, for every number of threads and every interleaving. *)
From Verif Require Import AuxN M_bitwise P_bitwise.
Local Open Scope nat_scope.

(* out (array po) is not one of the inputs (arrays p1 and p2) *)
Theorem C51_elementwise : forall w o p1 p2 po mask threads n h0 regs t,
  1 <= threads -> length (h0 po) = n -> po <> p1 -> po <> p2 -> execution (instances threads n) t ->
  let h := fst (run w o p1 p2 po mask (instances threads n) t (h0, regs)) in
  length (h po) = n /\ (forall q, q <> po -> h q = h0 q) /\
  forall i, i < n -> nth i (h po) 0%N =
    match mask with
    | Some m => if nth i m false then op_val w o (nth i (h0 p1) 0%N) (nth i (h0 p2) 0%N) else nth i (h0 po) 0%N
    | None => op_val w o (nth i (h0 p1) 0%N) (nth i (h0 p2) 0%N)
    end.
Proof.
  intros w o p1 p2 po mask threads n h0 regs t Ht Hn D1 D2 E h. destruct (fresh_ok w o p1 p2 po mask (instances threads n) n h0 (inst_lt threads n) Hn D1 D2 t regs (fun i => inst_in threads n i Ht) E) as (L & V & Q).
  split; [exact L|]. split; [exact Q|]. intros i Hi. etransitivity; [exact (V i Hi)|]. unfold want, on. destruct mask; reflexivity.
Qed.
Print Assumptions C51_elementwise.
(* with one thread out can be one of the inputs *)
Theorem C51_in_place_one_thread_partial : forall w o p1 p2 po mask n h0 regs t,
  length (h0 po) = n -> execution (instances 1 n) t ->
  let h := fst (run w o p1 p2 po mask (instances 1 n) t (h0, regs)) in
  length (h po) = n /\ (forall q, q <> po -> h q = h0 q) /\
  forall i, i < n -> nth i (h po) 0%N =
    match mask with
    | Some m => if nth i m false then op_val w o (nth i (h0 p1) 0%N) (nth i (h0 p2) 0%N) else nth i (h0 po) 0%N
    | None => op_val w o (nth i (h0 p1) 0%N) (nth i (h0 p2) 0%N)
    end.
Proof.
  intros w o p1 p2 po mask n h0 regs t Hn E h. assert (ND : NoDup (instances 1 n)) by (unfold instances; cbn [repeat concat]; rewrite app_nil_r; apply seq_NoDup).
  destruct (once_ok w o p1 p2 po mask (instances 1 n) n h0 (inst_lt 1 n) Hn ND t regs (fun i => inst_in 1 n i (le_n 1)) E) as (L & V & Q).
  split; [exact L|]. split; [exact Q|]. intros i Hi. etransitivity; [exact (V i Hi)|]. unfold want, on. destruct mask; reflexivity.
Qed.
Print Assumptions C51_in_place_one_thread_partial.
(* with two threads the in-place call bitwise_not(x, out=x) can leave x as it was: every thread runs the whole loop *)
Theorem C51_in_place_refuted : exists (h0 : heap) (regs : nat -> N) t, execution (instances 2 1) t /\ length (h0 0) = 1 /\
  nth 0 (fst (run 32 Not 0 1 0 None (instances 2 1) t (h0, regs)) 0) 0%N = nth 0 (h0 0) 0%N /\ nth 0 (h0 0) 0%N <> op_val 32 Not (nth 0 (h0 0) 0%N) 0.
Proof.
  exists (fun _ => [5%N]), (fun _ => 0%N), [Load 0; Store 0; Load 1; Store 1]. split; [|split; [reflexivity|split; [reflexivity|vm_compute; discriminate]]].
  split; [repeat constructor; cbn; intuition discriminate|]. split.
  - intros a. cbn. split.
    + intros [<- |[<- |[<- |[<- |[]]]]]; [exists 0|exists 0|exists 1|exists 1]; auto.
    + intros (k & Hk & [-> | ->]); destruct k as [|[|k]]; try lia; auto.
  - intros t1 t2 k E. destruct t1 as [|a1 [|a2 [|a3 [|a4 t1]]]]; cbn in E; try discriminate; injection E; intros; subst; try discriminate; cbn; auto. destruct t1; discriminate.
Qed.
Print Assumptions C51_in_place_refuted.
(* the checks let arrays of different integer types through; the kernel then runs past the end of out or x2 (sizes in bits) *)
Theorem C51_bounds_refuted : exists x1 x2 out w n, bitwise_call x1 x2 (Some out) = Runs w n /\ (width out * N.of_nat (len out) < w * N.of_nat n)%N /\ (width x2 * N.of_nat (len x2) < w * N.of_nat n)%N.
Proof. exists {| width := 64; len := 3 |}, {| width := 32; len := 3 |}, {| width := 32; len := 3 |}, 64%N, 3. repeat split. Qed.
Print Assumptions C51_bounds_refuted.
(* when all arrays have the same type the accesses stay inside, and other calls are refused *)
Theorem C51_bounds : forall x1 x2 out w n, bitwise_call x1 x2 out = Runs w n -> w = width x1 /\ n = len x1 /\ len x2 = n /\ match out with Some u => len u = n | None => True end.
Proof.
  intros x1 x2 out w n. unfold bitwise_call. destruct (Nat.eqb_spec (len x1) (len x2)) as [E|E]; cbn [negb]; [|discriminate]. destruct (known_w (width x1)); cbn [negb]; [|discriminate]. destruct (known_w (width x2)); cbn [negb]; [|discriminate].
  destruct out as [u|]; [destruct (Nat.eqb_spec (len u) (len x1)); cbn [negb]; [|discriminate]; destruct (known_w (width u)); cbn [negb]; [|discriminate]|]; intros H; injection H as <- <-; auto.
Qed.
Print Assumptions C51_bounds.
(* two threads, a mask, a new output array: an interleaved execution *)
Example C51_example : let h := fun p => match p with 0 => [12; 10]%N | 1 => [10; 6]%N | _ => [1; 2]%N end in
  fst (run 32 Xor 0 1 2 (Some [true; false]) (instances 2 2) [Load 0; Load 2; Store 2; Load 1; Load 3; Store 0; Store 3; Store 1] (h, fun _ => 0%N)) 2 = [6; 2]%N.
Proof. reflexivity. Qed.
