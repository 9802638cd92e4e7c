(* C44: merging repeated terms keeps the operator. *)
From Verif Require Import AuxN SpecC SpecOps M_ops M_opstr P_mat P_opinst P_lists P_lists2 P_pcon P_merge.
Local Open Scope nat_scope.

(* eps: the threshold; op: what the basis computes for a string, any function.  The list given is the merged list plus
   terms D whose summed coupling is not above the threshold *)
Theorem C44_static : forall op M eps l, exists D,
  Forall (fun t => (sqrt (fst (snd t) * fst (snd t) + snd (snd t) * snd (snd t)) <= eps)%R) D /\
  meq M (terms_matrix op l) (madd (terms_matrix op (consolidate eps l)) (terms_matrix op D)).
Proof.
  intros op M eps l. exists (dropped eps (fold_left add_term l [])). split; [|apply consolidate_ok].
  apply Forall_forall. intros t Ht. exact (dropped_small eps _ t Ht).
Qed.
Print Assumptions C44_static.
(* with threshold 0 nothing is lost *)
Theorem C44_static_exact : forall op M l, meq M (terms_matrix op (consolidate 0 l)) (terms_matrix op l).
Proof. exact consolidate_exact. Qed.
Print Assumptions C44_static_exact.
(* no string with its sites is left twice, and none with a small coupling; all strings come from the list *)
Theorem C44_static_merged : forall eps l, NoDup (map fst (consolidate eps l)) /\
  (forall t, In t (consolidate eps l) -> (eps < sqrt (fst (snd t) * fst (snd t) + snd (snd t) * snd (snd t)))%R /\ exists u, In u l /\ fst u = fst t).
Proof.
  intros eps l. split; [exact (consolidate_nodup eps l)|]. intros t Ht. split; [|exact (consolidate_from eps l t Ht)].
  assert (X := kept_large eps l t Ht). unfold small in X. apply Rnot_le_lt in X. exact X.
Qed.
Print Assumptions C44_static_merged.

(* dynamic lists, as merged by the Hamiltonian constructor: F stands for the functions with their arguments, v for their
   values at some time; the operators agree for all values, the groups belong to different functions *)
Theorem C44_dynamic : forall (F : Type) (feqb : F -> F -> bool) op M eps l, (forall a b, feqb a b = true <-> a = b) ->
  NoDup (map fst (consolidate_dynamic feqb eps l)) /\
  forall v : F -> C, exists D,
    Forall (fun d => (sqrt (fst (snd (fst d)) * fst (snd (fst d)) + snd (snd (fst d)) * snd (snd (fst d))) <= eps)%R) D /\
    meq M (terms_matrix op (map (fun d => (fst (fst d), (snd (fst d) * v (snd d))%C)) l))
      (madd (terms_matrix op (flat_map (fun g => map (fun t => (fst t, (snd t * v (fst g))%C)) (snd g)) (consolidate_dynamic feqb eps l)))
            (terms_matrix op (map (fun d => (fst (fst d), (snd (fst d) * v (snd d))%C)) D))).
Proof.
  intros F feqb op M eps l Hf. split; [exact (consolidate_dynamic_keys feqb eps l Hf)|]. intros v.
  exact (consolidate_dynamic_ok M op v feqb (fun a b H => proj1 (Hf a b) H) eps l).
Qed.
Print Assumptions C44_dynamic.

(* the merging used by expanded_form and check_pcon joins terms with different functions *)
Theorem C44_dynamic_local_refuted : exists (l : list (opl * C * nat)) (v : nat -> C),
  Forall (fun d => Forall (fun oi => In (fst oi) ["z"%char] /\ snd oi < 1) (fst (fst d))) l /\
  ~ meq 2 (terms_matrix (spin_op 0 1) (map (fun d => (fst (fst d), (snd (fst d) * v (snd d))%C)) (consolidate_dynamic_local 0 l)))
          (terms_matrix (spin_op 0 1) (map (fun d => (fst (fst d), (snd (fst d) * v (snd d))%C)) l)).
Proof. exact local_merge_wrong. Qed.
Print Assumptions C44_dynamic_local_refuted.

(* a list in which two terms are merged and one cancels *)
Example C44_example : map fst (consolidate 0 [([("z", 0); ("z", 1)]%char, C1); ([("x", 0)]%char, C1); ([("z", 0); ("z", 1)]%char, C1); ([("x", 0)]%char, RtoC (-1))])
  = [[("z", 0); ("z", 1)]%char].
Proof. exact merge_example. Qed.
