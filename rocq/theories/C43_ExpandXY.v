(* C43: replacing x and y by + and - keeps the operator. *)
From Verif Require Import AuxN SpecC SpecOps M_ops M_opstr P_opinst P_hc P_lists P_listcex.
Local Open Scope nat_scope.

(* pauli = 0, 1, -1: the three normalisations of spin_basis; the list of terms returned sums up to the term given, and
   contains no x and no y *)
Theorem C43_expansion_is_the_operator : forall pauli n l J, (pauli = 0 \/ pauli = 1 \/ pauli = -1)%Z ->
  Forall (fun oi => In (fst oi) ["I"; "n"; "z"; "x"; "y"; "+"; "-"]%char /\ snd oi < n) l ->
  exists ts, expand_opstr (S (length l)) pauli l J = Some ts /\
    meq (N.to_nat (2 ^ N.of_nat n)) (terms_matrix (spin_op pauli n) ts) (term_matrix (spin_op pauli n) (l, J)) /\
    (forall t oi, In t ts -> In oi (fst t) -> In (fst oi) ["I"; "n"; "z"; "+"; "-"]%char /\ snd oi < n).
Proof.
  intros pauli n l J Hp H. destruct (expand_ok pauli n Hp l J H) as (ts & E & HM & HK). exists ts. split; [exact E|]. split; [exact HM|].
  intros t oi Ht Hi. destruct (HK t oi Ht Hi) as [[K1 K2] [K3 K4]]. split; [|exact K2].
  unfold spin_known in K1. cbn [In] in *. destruct K1 as [K|[K|[K|[K|[K|[K|[K|[]]]]]]]]; try tauto; rewrite <- K in *; congruence.
Qed.
Print Assumptions C43_expansion_is_the_operator.

(* the whole list given to the symmetry checks: expanded, strings said to vanish removed, equal strings merged; the operator is
   kept up to terms D whose coupling is not above the threshold.  Missing: strings with three or more letters on a site *)
Theorem C43_expanded_form_partial : forall pauli n eps l, (pauli = 0 \/ pauli = 1 \/ pauli = -1)%Z ->
  Forall (fun t => Forall (fun oi => In (fst oi) ["I"; "n"; "z"; "x"; "y"; "+"; "-"]%char /\ snd oi < n) (fst t)) l ->
  (forall t i, In t l -> count_occ Nat.eq_dec (map snd (fst t)) i <= 2) ->
  exists D, Forall (fun t => (sqrt (fst (snd t) * fst (snd t) + snd (snd t) * snd (snd t)) <= eps)%R) D /\
    meq (N.to_nat (2 ^ N.of_nat n)) (terms_matrix (spin_op pauli n) l)
      (madd (terms_matrix (spin_op pauli n) (expanded_form sort_opstr (spin_expand pauli) 1 eps l)) (terms_matrix (spin_op pauli n) D)) /\
    Forall (fun t => Forall (fun oi => fst oi <> "x"%char /\ fst oi <> "y"%char) (fst t)) (expanded_form sort_opstr (spin_expand pauli) 1 eps l).
Proof. exact expanded_spin. Qed.
Print Assumptions C43_expanded_form_partial.
(* S+_1 S-_1 S+_1 = S+_1 is removed *)
Theorem C43_expanded_form_refuted : exists l,
  Forall (fun t => Forall (fun oi => In (fst oi) ["+"; "-"]%char /\ snd oi < 2) (fst t)) l /\
  ~ meq 4 (terms_matrix (spin_op 0 2) (expanded_form sort_opstr (spin_expand 0) 1 0 l)) (terms_matrix (spin_op 0 2) l).
Proof. exists pmp. split; [exact pmp_known|exact expanded_form_pmp]. Qed.
Print Assumptions C43_expanded_form_refuted.

Example C43_example : exists ts, expand_opstr 3 1 [("x", 0); ("y", 1)]%char C1 = Some ts /\ length ts = 4.
Proof. eexists. split; reflexivity. Qed.
