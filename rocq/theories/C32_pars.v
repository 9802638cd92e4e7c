(* C32: what a quantum_operator answers depends only on the operator and on the parameters passed in the call. *)
From Verif Require Import AuxN SpecC SpecExpm SpecHam SpecPars M_qop P_ham P_qop.
Local Open Scope nat_scope.

(* In every history of calls, bindings and writes, on any number of operators with any names, every answer is either the mathematical
   answer for the operator and the entries the program itself wrote, or an error. *)
Theorem C32_never_wrong : forall n eps order h out,
  (forall l, Permutation (order l) l) -> (0 <= eps < 1)%R -> Forall (good_step eps) h -> expected n (fun _ => []) h out ->
  Forall2 (fun got want => got = Raises \/ got = want) (snd (run n eps order start h)) out.
Proof. intros n eps order h out P [E1 E2] G X. eapply run_safe; try eassumption. apply relates_start; assumption. Qed.
Print Assumptions C32_never_wrong.

(* If all operators of the program have the same names, and rdot is always given an array for its result, every answer is the expected one:
   no error occurs either. *)
Theorem C32_same_names_partial : forall n eps order K h out,
  (forall l, Permutation (order l) l) -> (0 <= eps < 1)%R -> Forall (good_step eps) h -> Forall (names_K K) h -> expected n (fun _ => []) h out ->
  snd (run n eps order start h) = out.
Proof. intros n eps order K h out P [E1 E2] G N X. eapply run_exact; try eassumption; [apply relates_start; assumption|apply confined_start]. Qed.
Print Assumptions C32_same_names_partial.

(* Every method has a default dictionary of its own, except that matvec uses the one of dot: a program that passes no dictionary and gives
   each method only operators with one set of names gets all its answers, however the methods are mixed. *)
Inductive method_name := MDot | MRDot | MExpt | MElement | MArray | MDiagonal | MTrace.
Definition method_of (r : request) : method_name :=
  match r with Dot _ _ | Matvec _ => MDot | RDot _ _ _ => MRDot | Expt _ => MExpt | Element _ _ => MElement | Array => MArray | Diagonal => MDiagonal | Trace => MTrace end.
Theorem C32_separate_defaults : forall n eps order (names : method_name -> list key) (h : list (qop * request)),
  (forall l, Permutation (order l) l) -> (0 <= eps < 1)%R ->
  Forall (fun q => NoDup (map fst (fst q)) /\ checks (snd q) = true /\ forall k, In k (map fst (fst q)) <-> In k (names (method_of (snd q)))) h ->
  snd (run n eps order start (map (fun q => Ask (fst q) (snd q) None) h)) = map (fun q => Answer (answer n (at_couplings (fst q) []) (snd q))) h.
Proof.
  intros n eps order names h P [E1 E2] F.
  assert (G : forall w, relates eps (fun _ => []) w -> (forall r k, In k (map fst (defaults w (slot r))) -> In k (names (method_of r))) ->
    snd (run n eps order w (map (fun q => Ask (fst q) (snd q) None) h)) = map (fun q => Answer (answer n (at_couplings (fst q) []) (snd q))) h).
  { induction F as [|[o r] h (No & Ch & Hk) _ IH]; intros w R I; [reflexivity|]. cbn [map fst snd run] in *.
    destruct (ask_value n eps order P E2 (fun _ => []) w o r None R No) as [R' A].
    destruct (ask n eps order w o r None) as [w' a] eqn:EA. cbn [fst snd] in R', A.
    unfold ask in EA. rewrite Ch in EA. cbn [fetch] in EA.
    destruct (check_scalar_pars order o (defaults w (slot r))) as [d|] eqn:E.
    2: { exfalso. apply check_none in E. apply E. intros k Ik. apply Hk, I, Ik. }
    assert (F1 : a = Answer (answer n (at_couplings o []) r)).
    { destruct A as [A|[_ A]]; [|exact A]. exfalso. injection EA as <- <-.
      destruct (relates_fetch eps E2 (fun _ => []) w r None R) as [S Z]. cbn [fetch] in S. destruct (check_some order P o _ _ _ S E) as (S' & K & X).
      rewrite (method_value n eps) in A; [discriminate A| exact No|apply S'|intros k; apply K| |exact Ch]. intros k. rewrite (shadows_coupling _ _ k S'). apply Z. }
    assert (I' : forall r0 k, In k (map fst (defaults w' (slot r0))) -> In k (names (method_of r0))).
    { injection EA as <- _. cbn [put_back defaults]. unfold upd. intros r0 k. destruct (Nat.eqb_spec (slot r0) (slot r)) as [ES|]; [|apply I].
      assert (EM : method_of r0 = method_of r) by (destruct r0, r; try reflexivity; discriminate ES). rewrite EM. intros Ik. apply Hk.
      destruct (relates_fetch eps E2 (fun _ => []) w r None R) as [S Z]. cbn [fetch] in S. destruct (check_some order P o _ _ _ S E) as (S' & K & X). apply K, Ik. }
    specialize (IH w' R' I'). destruct (run n eps order w' _) as [w2 rs]. cbn [snd] in IH |- *. rewrite F1, IH. reflexivity. }
  apply G; [apply relates_start; assumption|intros r k []].
Qed.
Print Assumptions C32_separate_defaults.

Definition ka : key := ["a"%char].
Definition kb : key := ["b"%char].
Definition opA : qop := [(ka, fun _ _ => C1)].
Definition opB : qop := [(kb, fun _ _ => C1)].
Definition opAB : qop := [(ka, fun _ _ => C1); (kb, fun _ _ => C1)].
Lemma key_aa {A} (x y : A) : (if key_dec ka ka then x else y) = x. Proof. destruct (key_dec ka ka); [reflexivity|congruence]. Qed.

(* A request without parameters to one operator makes the same request to another operator fail, although that request alone succeeds. *)
Theorem C32_shared_default_refuted : forall r, checks r = true -> exists o o' n, forall eps order, (forall l, Permutation (order l) l) -> (0 <= eps < 1)%R ->
  (exists v, snd (run n eps order start [Ask o' r None]) = [Answer v]) /\
  (exists v, snd (run n eps order start [Ask o r None; Ask o' r None]) = [Answer v; Raises]).
Proof.
  intros r Ch. exists opA, opB, 1. intros eps order P [E1 E2].
  assert (NA : NoDup (map fst opA)) by (repeat constructor; cbn; tauto).
  assert (NB : NoDup (map fst opB)) by (repeat constructor; cbn; tauto).
  assert (Y : forall o, NoDup (map fst o) -> expected 1 (fun _ => []) [Ask o r None] [Answer (answer 1 (at_couplings o []) r)]).
  { intros o No. apply (ex_ask 1 (fun _ => []) o r None); [intros k []|constructor]. }
  assert (Z : forall o, NoDup (map fst o) -> snd (run 1 eps order start [Ask o r None]) = [Answer (answer 1 (at_couplings o []) r)]).
  { intros o No. apply (C32_same_names_partial 1 eps order (map fst o));
      [exact P|split; assumption|repeat constructor; exact No|constructor; [split; [exact Ch|reflexivity]|constructor]|apply Y, No]. }
  split; [eexists; apply (Z opB NB)|].
  eexists. cbn [run]. specialize (Z opA NA). cbn [run] in Z. destruct (ask 1 eps order start opA r None) as [w1 a] eqn:EA. cbn [snd] in Z. injection Z as ->.
  unfold ask in EA. rewrite Ch in EA. cbn [fetch start defaults] in EA.
  destruct (check_scalar_pars order opA []) as [d|] eqn:E; [|discriminate].
  destruct (check_some order P opA [] [] d (shadows_refl [] (NoDup_nil _)) E) as (S & Kd & _).
  assert (F : w1 = put_back start r None d) by congruence. subst w1.
  assert (R : ask 1 eps order (put_back start r None d) opB r None = (put_back start r None d, Raises)).
  { unfold ask. rewrite Ch. cbn [fetch put_back defaults]. unfold upd. rewrite Nat.eqb_refl.
    replace (check_scalar_pars order opB d) with (@None pydict); [reflexivity|]. symmetry. apply check_none. intros H.
    assert (I : In ka (map fst d)) by (apply Kd; left; reflexivity). apply H in I. destruct I as [I|[]]. discriminate. }
  rewrite R. reflexivity.
Qed.
Print Assumptions C32_shared_default_refuted.

(* The dictionary the caller passes is changed, so that passing it to another operator fails: {} goes to an operator named a, then to one
   named b. *)
Theorem C32_callers_dictionary_refuted : exists o o' r n, forall eps order, (forall l, Permutation (order l) l) -> (0 <= eps < 1)%R ->
  users (fst (run n eps order start [Bind 0 []; Ask o r (Some 0)])) 0 <> [] /\
  (exists v, snd (run n eps order start [Bind 0 []; Ask o r (Some 0); Ask o' r (Some 0)]) = [Answer v; Raises]) /\
  expected n (fun _ => []) [Bind 0 []; Ask o r (Some 0); Ask o' r (Some 0)] [Answer (answer n (at_couplings o []) r); Answer (answer n (at_couplings o' []) r)].
Proof.
  exists opA, opB, Trace, 1. intros eps order P [E1 E2].
  assert (O1 : forall k : key, order [k] = [k]).
  { intros k. apply Permutation_length_1_inv. symmetry. apply P. }
  assert (Q : check_scalar_pars order opA [] = Some [(ka, C1)]) by (unfold check_scalar_pars; cbn; rewrite O1; reflexivity).
  assert (Q2 : check_scalar_pars order opB [(ka, C1)] = None) by reflexivity.
  split; [|split].
  - cbn [run]. unfold ask. cbn [checks fetch users]. unfold upd. cbn [Nat.eqb]. rewrite Q. cbn. discriminate.
  - eexists. cbn [run]. unfold ask. cbn [checks fetch users]. unfold upd at 1. cbn [Nat.eqb]. rewrite Q.
    cbn [put_back users fetch defaults]. unfold upd at 1. cbn [Nat.eqb]. rewrite Q2.
    cbn [method trace_core fold_left opA fst snd ofN dget]. rewrite ?key_aa. cbn [reply ofN snd]. reflexivity.
  - apply ex_bind. apply (ex_ask 1 (write_user (fun _ => []) (Bind 0 [])) opA Trace (Some 0)); [intros k []|]. apply (ex_ask 1 (write_user (fun _ => []) (Bind 0 [])) opB Trace (Some 0)); [intros k []|]. constructor.
Qed.
Print Assumptions C32_callers_dictionary_refuted.

(* rdot without an array for its result always fails. *)
Theorem C32_rdot_refuted : forall n eps order w o a V p, snd (ask n eps order w o (RDot a V false) p) = Raises.
Proof. reflexivity. Qed.
Print Assumptions C32_rdot_refuted.

(* dot drops a parameter not larger than eps in modulus: the answer is not that of the matrix sum_k lambda_k O_k which toarray returns. *)
Theorem C32_small_parameter_refuted : forall eps, (0 < eps < 1)%R -> exists o d V, forall order, (forall l, Permutation (order l) l) -> exists got got',
  snd (run 1 eps order start [Bind 0 d; Ask o (Dot C1 V) (Some 0); Ask o Array (Some 0)]) = [Answer (Vec [got]); Answer (Arr [[got']])] /\
  got = C0 /\ got' = RtoC eps /\ answer 1 (at_couplings o d) (Dot C1 V) = Vec [RtoC eps].
Proof.
  intros eps [E1 E2]. exists opA, [(ka, RtoC eps)], [C1]. intros order P.
  assert (Q : check_scalar_pars order opA [(ka, RtoC eps)] = Some [(ka, RtoC eps)]).
  { unfold check_scalar_pars. cbn. f_equal. rewrite (Permutation_nil (Permutation_sym (P []))). reflexivity. }
  assert (N : ~ (eps < Cabs (RtoC eps))%R).
  { unfold Cabs, RtoC. cbn [fst snd]. replace (eps * eps + 0 * 0)%R with (eps * eps)%R by ring. rewrite sqrt_square by lra. lra. }
  eexists. eexists. split.
  - cbn [run]. unfold ask. cbn [checks fetch users]. unfold upd at 1. cbn [Nat.eqb]. rewrite Q. cbn [put_back users fetch defaults]. unfold upd at 1. cbn [Nat.eqb]. rewrite Q.
    cbn [method]. unfold dot_core, toarray_core. cbn [fold_left fst snd matrix_of opA]. rewrite ?key_aa.
    destruct (Rlt_dec eps (Cabs (RtoC eps))); [contradiction|]. reflexivity.
  - cbn [nth map seq]. repeat split; try reflexivity.
    + apply C_eq; cbn; ring.
    + cbn. do 2 f_equal. rewrite ?key_aa. apply C_eq; cbn; ring.
Qed.
Print Assumptions C32_small_parameter_refuted.

(* The linear operator of an operator answers matvec and, for real parameters, rmatvec with the matrix and its adjoint. *)
Theorem C32_linear_operator : forall n eps order o d V,
  (forall l, Permutation (order l) l) -> (0 <= eps < 1)%R -> NoDup (map fst o) -> good_items eps d -> expected_names o d ->
  linop_matvec n eps order o d V = Answer (Vec (mat_vec n (at_couplings o d) V)) /\
  ((forall e, In e d -> Cconj (snd e) = snd e) -> linop_rmatvec n eps order o d V = Answer (Vec (mat_vec n (mat_H (at_couplings o d)) V))).
Proof.
  intros n eps order o d V P [E1 E2] No [Nd G] X.
  assert (B : forall o, NoDup (map fst o) -> expected_names o d -> linop_matvec n eps order o d V = Answer (Vec (mat_vec n (at_couplings o d) V))).
  { clear o No X. intros o No X. unfold linop_matvec. pose proof (shadows_refl d Nd) as S.
    destruct (check_scalar_pars order o d) as [d'|] eqn:E; [|apply check_none in E; contradiction].
    destruct (check_some order P o _ _ _ S E) as (S' & K & _).
    rewrite dot_value; auto.
    - cbn [ofV reply]. do 2 f_equal. rewrite map_C1. apply mat_vec_ext. intros i j. apply at_shadow, S'.
    - apply S'.
    - intros k. rewrite (shadows_coupling _ _ k S'). apply good_coupling; assumption. }
  split; [apply B; assumption|]. intros Re. unfold linop_rmatvec. rewrite B.
  - do 2 f_equal. apply mat_vec_ext. intros i j. unfold at_couplings, adjoint, mat_H. rewrite Csum_map, Csum_conj. apply Csum_ext. intros e _. cbn [fst snd].
    rewrite Cconj_mul. f_equal. symmetry. rewrite coupling_dget. destruct (dget d (fst e)) as [v|] eqn:E.
    + apply dget_in in E. apply (Re _ E).
    + apply C_eq; cbn; ring.
  - unfold adjoint. rewrite map_map. exact No.
  - intros k I. unfold adjoint. rewrite map_map. apply X, I.
Qed.
Print Assumptions C32_linear_operator.

(* For a complex parameter rmatvec is not the adjoint of matvec. *)
Theorem C32_adjoint_refuted : exists o d V x, forall eps order, (forall l, Permutation (order l) l) -> (0 <= eps < 1)%R ->
  good_items eps d /\ linop_rmatvec 1 eps order o d V = Answer (Vec x) /\ x <> mat_vec 1 (mat_H (at_couplings o d)) V.
Proof.
  exists opA, [(ka, Ci)], [C1], [Ci]. intros eps order P [E1 E2].
  assert (G : good_items eps [(ka, Ci)]).
  { split; [repeat constructor; cbn; tauto|]. constructor; [|constructor]. right. unfold Cabs, Ci. cbn [fst snd].
    replace (0 * 0 + 1 * 1)%R with 1%R by ring. rewrite sqrt_1. exact E2. }
  split; [exact G|]. split.
  - assert (NA : NoDup (map fst (adjoint opA))) by (repeat constructor; cbn; tauto).
    pose proof (proj1 (C32_linear_operator 1 eps order (adjoint opA) [(ka, Ci)] [C1] P (Coq.Init.Logic.conj E1 E2) NA G (fun k I => I))) as H.
    unfold linop_rmatvec. rewrite H. cbn. do 3 f_equal. rewrite ?key_aa. apply C_eq; cbn; ring.
  - cbn. rewrite ?key_aa. intros H. injection H. cbn. intros. lra.
Qed.
Print Assumptions C32_adjoint_refuted.

(* Two linear operators made without parameters share the dictionary of the default: making the second one breaks the first. *)
Theorem C32_shared_linear_operator_refuted : exists o o' V, forall eps order, (forall l, Permutation (order l) l) -> (0 <= eps < 1)%R -> exists d d' v,
  check_scalar_pars order o [] = Some d /\ check_scalar_pars order o' d = Some d' /\
  linop_matvec 1 eps order o d V = Answer v /\ linop_matvec 1 eps order o d' V = Raises.
Proof.
  exists opA, opAB, [C1]. intros eps order P [E1 E2].
  assert (O1 : forall k : key, order [k] = [k]).
  { intros k. apply Permutation_length_1_inv. symmetry. apply P. }
  exists [(ka, C1)], [(ka, C1); (kb, C1)]. eexists.
  split; [unfold check_scalar_pars; cbn; rewrite O1; reflexivity|].
  split; [unfold check_scalar_pars; cbn; rewrite O1; reflexivity|].
  split; [|reflexivity].
  assert (NA : NoDup (map fst opA)) by (repeat constructor; cbn; tauto).
  assert (G : good_items eps [(ka, C1)]) by (split; [exact NA|]; constructor; [|constructor]; apply sizeable_one; assumption).
  exact (proj1 (C32_linear_operator 1 eps order opA [(ka, C1)] [C1] P (Coq.Init.Logic.conj E1 E2) NA G (fun k I => I))).
Qed.
Print Assumptions C32_shared_linear_operator_refuted.

(* A history with two operators of the same names, a dictionary that is reused and written, and a call with named arguments. *)
Example C32_hyps : exists out, expected 2 (fun _ => [])
  [Bind 0 [(ka, RtoC 2)]; Ask opAB (Dot C1 [C1; C0]) (Some 0); Ask opAB Trace None; SetItem 0 kb C0; Ask (rev opAB) Array (Some 0); Named opAB [(kb, RtoC 3)]] out
  /\ Forall (good_step (1 / 2)) [Bind 0 [(ka, RtoC 2)]; Ask opAB (Dot C1 [C1; C0]) (Some 0); Ask opAB Trace None; SetItem 0 kb C0; Ask (rev opAB) Array (Some 0); Named opAB [(kb, RtoC 3)]]
  /\ Forall (names_K [ka; kb]) [Bind 0 [(ka, RtoC 2)]; Ask opAB (Dot C1 [C1; C0]) (Some 0); Ask opAB Trace None; SetItem 0 kb C0; Ask (rev opAB) Array (Some 0); Named opAB [(kb, RtoC 3)]].
Proof.
  assert (B : forall x, (1 / 2 < x)%R -> (1 / 2 < Cabs (RtoC x))%R).
  { intros x H. unfold Cabs, RtoC. cbn [fst snd]. replace (x * x + 0 * 0)%R with (x * x)%R by ring. rewrite sqrt_square by lra. exact H. }
  assert (NAB : NoDup [ka; kb]) by (constructor; [cbn; intros [H|[]]; discriminate|constructor; [cbn; tauto|constructor]]).
  assert (NBA : NoDup [kb; ka]) by (constructor; [cbn; intros [H|[]]; discriminate|constructor; [cbn; tauto|constructor]]).
  eexists. split; [|split].
  - apply ex_bind. apply ex_ask; [intros k [<-|[]]; left; reflexivity|]. apply ex_ask; [intros k []|]. apply ex_set.
    apply ex_ask; [intros k [<-|[<-|[]]]; cbn; auto|]. apply ex_named; [intros k [<-|[]]; cbn; auto|]. constructor.
  - assert (S2 : forall x k, (1 / 2 < x)%R -> good_items (1 / 2) [(k, RtoC x)]).
    { intros x k Hx. split; [repeat constructor; cbn; tauto|]. constructor; [right; apply B, Hx|constructor]. }
    constructor; [apply S2; lra|]. constructor; [exact NAB|]. constructor; [exact NAB|]. constructor; [left; reflexivity|].
    constructor; [exact NBA|]. constructor; [split; [exact NAB|apply S2; lra]|constructor].
  - repeat (apply Forall_cons || apply Forall_nil); cbn; auto; split; auto; intros k; tauto.
Qed.
