(* C05: the closed dimension formula counts the states of the sector. *)
From Verif Require Import AuxN SpecDigits SpecSector M_hdim P_hdim.
Local Open Scope N_scope.

(* whatever list enumerates the sector (B states per site, n sites, k particles), H_dim is its length;
   in particular it is zero when k is larger than n*(B-1) *)
Theorem C05_H_dim_counts_states : forall B n k l,
  2 <= B -> (1 <= n)%nat -> lists_increasing (in_boson_sector B n k) l ->
  H_dim (N.to_nat k) n (N.to_nat B - 1) = Z.of_nat (length l).
Proof. exact H_dim_counts. Qed.
Print Assumptions C05_H_dim_counts_states.

Example C05_example : lists_increasing (in_boson_sector 3 2 2) [2; 4; 6] /\ H_dim 2 2 2 = 3%Z.
Proof.
  split; [|reflexivity]. split; [repeat constructor|].
  intros s. split.
  - intros H. cbn in H. repeat (destruct H as [<-|H]; [split; reflexivity|]). destruct H.
  - intros [H1 H2]. change (3 ^ N.of_nat 2) with 9 in H1.
    assert (C : forallb (fun s => implb (digit_sum 3 s 2 =? 2) (existsb (N.eqb s) [2; 4; 6])) (map N.of_nat (seq 0 9)) = true)
      by reflexivity.
    rewrite forallb_forall in C. specialize (C s). rewrite H2 in C. cbn [N.eqb implb Pos.eqb] in C.
    assert (Hin : In s (map N.of_nat (seq 0 9))).
    { apply in_map_iff. exists (N.to_nat s). split; [apply N2Nat.id|]. apply in_seq. lia. }
    specialize (C Hin). apply existsb_exists in C. destruct C as (y & Hy & E). apply N.eqb_eq in E. subst y. exact Hy.
Qed.
Example C05_example_zero : H_dim 7 3 2 = 0%Z.
Proof. reflexivity. Qed.
