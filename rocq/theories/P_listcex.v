(* Counterexamples for the list checks. *)
From Verif Require Import AuxN SpecC SpecBits SpecDigits SpecMaps SpecOps SpecInv M_maps M_ops M_opstr P_maps P_ops P_fermion P_mat P_opstr P_opinst P_hc P_lists P_lists2 P_pcon P_merge P_symmlist P_listinst.
From Coq Require Import Setoid Morphisms Permutation Sorted.
Local Open Scope nat_scope.
Local Open Scope char_scope.

Ltac known := repeat (apply Forall_cons || apply Forall_nil); cbn [fst snd]; (split; [unfold spin_known, boson_known, fermion_known; cbn; auto 10|lia]).
Lemma check_hermitian_intro sort hc l : (forall t, In t (map sort l) -> In t (map hc (map sort l))) -> check_hermitian sort hc l = true.
Proof. intros H. unfold check_hermitian. cbv zeta. apply forallb_forall. intros t Ht. apply term_in_iff. apply H. exact Ht. Qed.

Lemma term_eq (t u : term) : fst t = fst u -> fst (snd t) = fst (snd u) -> snd (snd t) = snd (snd u) -> t = u.
Proof. destruct t as [l [a b]], u as [k [c d]]. cbn. intros -> -> ->. reflexivity. Qed.
Ltac teq := apply term_eq; [reflexivity|cbn; ring|cbn; ring].
Definition twice : list term := [([("+", 0); ("-", 1)], C1); ([("+", 0); ("-", 1)], C1); ([("-", 0); ("+", 1)], C1)].
Lemma Cconj_C1 : Cconj C1 = C1. Proof. apply C_eq; cbn; ring. Qed.
Lemma herm_twice : check_hermitian sort_opstr hc_opstr twice = true /\
  ~ meq 4 (madj (terms_matrix (spin_op 0 2) twice)) (terms_matrix (spin_op 0 2) twice).
Proof.
  split.
  - apply check_hermitian_intro. intros t Ht. cbn [twice map] in Ht |- *. assert (E : hc_opstr (sort_opstr ([("+", 0); ("-", 1)], C1)) = sort_opstr ([("-", 0); ("+", 1)], C1)) by teq.
    assert (E' : hc_opstr (sort_opstr ([("-", 0); ("+", 1)], C1)) = sort_opstr ([("+", 0); ("-", 1)], C1)) by teq.
    rewrite E, E'. destruct Ht as [<-|[<-|[<-|[]]]]; cbn [In]; auto.
  - intros H. specialize (H 2%N 1%N ltac:(lia) ltac:(lia)). unfold madj, twice in H. rewrite !TM_cons, TM_nil in H. unfold madd, term_matrix, mscale in H. cbn [fst snd] in H.
    rewrite !spin_entry in H by (known || (cbn; lia)). apply (f_equal fst) in H. entries_in H. lra.
Qed.
Lemma herm_one_time t0 : exists (l : list (dterm (R -> C))), check_hermitian_dynamic sort_opstr hc_opstr t0 l = true /\
  exists t, let H := terms_matrix (spin_op 0 1) (map (fun d => (fst (fst d), (snd (fst d) * (snd d) t)%C)) l) in ~ meq 2 (madj H) H.
Proof.
  exists [([("z", 0)], C1, fun t => (1, t - t0)%R)]. split.
  - rewrite (herm_dyn _ _ plain_scale plain_idem). apply check_hermitian_intro. intros t Ht. cbn [at_values map] in Ht |- *. destruct Ht as [<-|[]]. left. cbn [fst snd]. teq.
  - exists (t0 + 1)%R. intros H E. specialize (E 1%N 1%N ltac:(lia) ltac:(lia)). unfold madj, H in E. cbn [map fst snd] in E. rewrite TM_cons, TM_nil in E. unfold madd, term_matrix, mscale in E. cbn [fst snd] in E.
    rewrite !spin_entry in E by (known || (cbn; lia)). apply (f_equal snd) in E. entries_in E. lra.
Qed.

(* + - + on one site is +, but is dropped *)
Definition pmp : list term := [([("+", 1); ("-", 1); ("+", 1)], C1)].
Lemma pmp_form : expanded_form sort_opstr (spin_expand 0) 1 0 pmp = [].
Proof. reflexivity. Qed.
Lemma pmp_entry : terms_matrix (spin_op 0 2) pmp 1%N 0%N = C1.
Proof.
  unfold pmp. rewrite TM_cons, TM_nil. unfold madd, term_matrix, mscale. cbn [fst snd]. rewrite !spin_entry by (known || (cbn; lia)). apply C_eq; entries; lra.
Qed.
Lemma pcon_pmp : check_pcon sort_opstr (spin_expand 0) 1 0 pmp = true /\ ~ conserves 2 2 (terms_matrix (spin_op 0 2) pmp).
Proof.
  split; [unfold check_pcon; rewrite pmp_form; reflexivity|]. intros H. specialize (H 1%N 0%N ltac:(cbn; lia) ltac:(cbn; lia)). rewrite pmp_entry in H.
  assert (X : C1 <> C0) by (intros E; apply (f_equal fst) in E; cbn in E; lra). specialize (H X). discriminate.
Qed.
Lemma expanded_form_pmp : ~ meq 4 (terms_matrix (spin_op 0 2) (expanded_form sort_opstr (spin_expand 0) 1 0 pmp)) (terms_matrix (spin_op 0 2) pmp).
Proof.
  intros H. specialize (H 1%N 0%N ltac:(lia) ltac:(lia)). rewrite pmp_form, pmp_entry, TM_nil in H. apply (f_equal fst) in H. cbn in H. lra.
Qed.
Lemma fermion_pmp : check_pcon fermion_sort no_expand 1 0 pmp = true /\ ~ conserves 2 2 (terms_matrix (fermion_op 4 2) pmp).
Proof.
  split; [reflexivity|]. intros H. specialize (H 1%N 0%N ltac:(cbn; lia) ltac:(cbn; lia)).
  assert (X : terms_matrix (fermion_op 4 2) pmp 1%N 0%N <> C0).
  { unfold pmp. rewrite TM_cons, TM_nil. unfold madd, term_matrix, mscale. cbn [fst snd].
    rewrite (go_matrix _ _ _ _ _ (fermion_good 4 2 ltac:(cbn; lia) ltac:(lia)) [("+", 1); ("-", 1); ("+", 1)]) by (known || (cbn; lia)).
    (* c+ c c+ = c+ by the anticommutation relations *)
    assert (E : meq 4 (string_matrix 4 (cop 4 2) [("+", 1); ("-", 1); ("+", 1)]) (cop 4 2 "+" 1)).
    { rewrite SM_cons. change 4%nat with (N.to_nat (2 ^ N.of_nat 2)). assert (A := car_same 4 2 ltac:(cbn; lia) ltac:(lia) 1 ltac:(lia)). assert (Bq := car_same_cc 4 2 ltac:(cbn; lia) ltac:(lia) 1 "+" ltac:(auto) ltac:(lia)).
      set (M := N.to_nat (2 ^ N.of_nat 2)) in *. set (c := cop 4 2 "-" 1) in *. set (d := cop 4 2 "+" 1) in *.
      rewrite SM_cons, SM_one. change (cop 4 2 "-" 1) with c. change (cop 4 2 "+" 1) with d.
      assert (Y : meq M (mmul M c d) (madd mident (mscale (RtoC (-1)) (mmul M d c)))).
      { intros r s Hr Hs. specialize (A r s Hr Hs). unfold madd, mscale in *. rewrite <- A. apply C_eq; cbn; ring. }
      rewrite Y, mmul_add_r, mmul_ident_r, mscale_mul_r, <- (mmul_assoc M d d c). change (fun _ _ : N => C0) with mzero in Bq. rewrite Bq, mmul_0_l, mscale_zero, madd_0_r. reflexivity. }
    change (N.to_nat (2 ^ N.of_nat 2)) with 4. rewrite (E 1%N 0%N) by lia. destruct (cop_mono 4 2 ltac:(cbn; lia) ltac:(lia) "+" 1 0%N ltac:(cbn; auto 10) ltac:(lia) ltac:(cbn; lia)) as [_ K].
    rewrite K by (cbn; lia). cbn. intros Z. apply (f_equal fst) in Z. cbn in Z. lra. }
  specialize (H X). discriminate.
Qed.
Lemma pcon_dynamic : exists (l : list (dterm nat)) (v : nat -> C), check_pcon_dynamic sort_opstr (spin_expand 0) 1 0 l = true /\
  ~ conserves 2 1 (terms_matrix (spin_op 0 1) (map (fun d => (fst (fst d), (snd (fst d) * v (snd d))%C)) l)).
Proof.
  exists [([("+", 0)], C1, 0); ([("+", 0)], RtoC (-1), 1)], (fun f => match f with 0 => C1 | _ => C0 end). split.
  - unfold check_pcon_dynamic, expanded_form_dynamic, consolidate_dynamic_local. cbn. rewrite (Cabs_gt_zero (C1 + RtoC (-1))%C); [reflexivity|lra|apply C_eq; cbn; ring].
  - intros H. specialize (H 1%N 0%N ltac:(cbn; lia) ltac:(cbn; lia)). cbn [map fst snd] in H. rewrite !TM_cons, TM_nil in H. unfold madd, term_matrix, mscale in H. cbn [fst snd] in H.
    rewrite !spin_entry in H by (known || (cbn; lia)).
    match type of H with ?X <> _ -> _ => assert (E : X <> C0) end; [|specialize (H E); discriminate]. intros E. apply (f_equal fst) in E. entries_in E. lra.
Qed.

(* symmetry *)
Lemma check_symm_intro mp l : (forall t, In t l -> oddn mp (fst (sort_opstr t)) = false /\ In (sort_opstr (fst (symm_term mp (sort_opstr t)))) (map sort_opstr l)) ->
  check_symm_map sort_opstr mp l = true.
Proof.
  intros H. unfold check_symm_map. cbv zeta. apply forallb_forall. intros t Ht. apply in_map_iff in Ht. destruct Ht as (u & <- & Hu). destruct (H u Hu) as [H1 H2].
  destruct (sort_opstr u) as [x J]. rewrite symm_term_eq in *. cbn [fst] in *. rewrite H1. cbn [negb andb]. apply term_in_iff. exact H2.
Qed.
Lemma symm_pair : let l := [([("+", 0); ("+", 1)], Ci); ([("-", 0); ("-", 1)], Copp Ci)] in let m := [-1; -2]%Z in
  check_symm_map sort_opstr (fun i => nth i m 0%Z) l = true /\ meq 4 (madj (terms_matrix (spin_op 0 2) l)) (terms_matrix (spin_op 0 2) l) /\
  ~ commutes_with_map 2 2 m (terms_matrix (spin_op 0 2) l).
Proof.
  intros l m. split; [|split].
  - apply check_symm_intro. intros t Ht. cbn [l map In] in Ht |- *. destruct Ht as [<-|[<-|[]]]; (split; [reflexivity|]); [left|right; left]; teq.
  - change 4%nat with (N.to_nat (2 ^ N.of_nat 2)). apply (plain_herm _ _ _ _ (spin_good 0 2)); [known| |].
    + cbn. repeat constructor; cbn; [intros [E|[]]; discriminate|intros []].
    + apply check_hermitian_intro. intros t Ht. cbn [l map In] in Ht |- *. destruct Ht as [<-|[<-|[]]]; [right; left|left]; teq.
  - intros H. specialize (H 3%N 0%N 0%N 3%N ltac:(cbn; lia) ltac:(cbn; lia)).
    assert (M1 : moved 2 2 m 3 0) by (split; [cbn; lia|]; intros [|[|j]] Hj; [reflexivity|reflexivity|lia]).
    assert (M2 : moved 2 2 m 0 3) by (split; [cbn; lia|]; intros [|[|j]] Hj; [reflexivity|reflexivity|lia]).
    specialize (H M1 M2). unfold l in H. rewrite !TM_cons, TM_nil in H. unfold madd, term_matrix, mscale in H. cbn [fst snd] in H.
    rewrite !spin_entry in H by (known || (cbn; lia)). apply (f_equal snd) in H. entries_in H. lra.
Qed.
Lemma symm_twice : let l := [([("z", 0)], C1); ([("z", 0)], C1); ([("z", 1)], C1)] in let m := [1; 0]%Z in
  check_symm_map sort_opstr (fun i => nth i m 0%Z) l = true /\ ~ commutes_with_map 2 2 m (terms_matrix (spin_op 0 2) l).
Proof.
  intros l m. split.
  - apply check_symm_intro. intros t Ht. cbn [l map In] in Ht |- *. destruct Ht as [<-|[<-|[<-|[]]]]; (split; [reflexivity|]); [right; right; left|right; right; left|left]; teq.
  - intros H. specialize (H 2%N 2%N 1%N 1%N ltac:(cbn; lia) ltac:(cbn; lia)).
    assert (M1 : moved 2 2 m 2 1) by (split; [cbn; lia|]; intros [|[|j]] Hj; [reflexivity|reflexivity|lia]).
    specialize (H M1 M1). unfold l in H. rewrite !TM_cons, TM_nil in H. unfold madd, term_matrix, mscale in H. cbn [fst snd] in H.
    rewrite !spin_entry in H by (known || (cbn; lia)). apply (f_equal fst) in H. entries_in H. lra.
Qed.
Lemma symm_boson : let l := [([("+", 0); ("-", 1)], C1); ([("-", 0); ("+", 1)], C1)] in let m := [-1; -2]%Z in
  check_symm_map sort_opstr (fun i => nth i m 0%Z) l = true /\ ~ commutes_with_map 3 2 m (terms_matrix (boson_op 3 2) l).
Proof.
  intros l m. split.
  - apply check_symm_intro. intros t Ht. cbn [l map In] in Ht |- *. destruct Ht as [<-|[<-|[]]]; (split; [reflexivity|]); [left|right; left]; teq.
  - intros H. specialize (H 3%N 1%N 5%N 7%N ltac:(cbn; lia) ltac:(cbn; lia)).
    assert (M1 : moved 3 2 m 3 5) by (split; [cbn; lia|]; intros [|[|j]] Hj; [reflexivity|reflexivity|lia]).
    assert (M2 : moved 3 2 m 1 7) by (split; [cbn; lia|]; intros [|[|j]] Hj; [reflexivity|reflexivity|lia]).
    specialize (H M1 M2). unfold l in H. rewrite !TM_cons, TM_nil in H. unfold madd, term_matrix, mscale in H. cbn [fst snd] in H.
    rewrite !(go_matrix _ _ _ _ _ (boson_good 3 2 ltac:(lia))) in H by (known || (cbn; lia)). apply (f_equal fst) in H.
    rewrite !SM_cons, !SM_nil in H.
    assert (I : forall A, meq (N.to_nat (3 ^ N.of_nat 2)) (mmul (N.to_nat (3 ^ N.of_nat 2)) A mident) A) by (intros A; apply mmul_ident_r).
    assert (P : forall o o' r s, (r < 9)%N -> (s < 9)%N ->
      mmul (N.to_nat (3 ^ N.of_nat 2)) (site_matrix 3 2 (boson_code_site 3 o) 0) (mmul (N.to_nat (3 ^ N.of_nat 2)) (site_matrix 3 2 (boson_code_site 3 o') 1) mident) r s =
      mmul (N.to_nat (3 ^ N.of_nat 2)) (site_matrix 3 2 (boson_code_site 3 o) 0) (site_matrix 3 2 (boson_code_site 3 o') 1) r s).
    { intros o o' r s Hr Hs. apply mmul_proper; [reflexivity|apply mmul_ident_r|cbn; lia|cbn; lia]. }
    rewrite !P in H by lia. rewrite !site_product in H by (cbn; lia). cbn in H. unfold Nr in H. cbn in H.
    replace (0 + 1)%R with 1%R in H by ring. replace (1 + 1)%R with 2%R in H by ring. rewrite sqrt_1 in H.
    assert (S2 : (sqrt 2 * sqrt 2 = 2)%R) by (apply sqrt_sqrt; lra). nra.
Qed.
Lemma fine_intro m (l : list term) : (forall t o i, In t l -> In (o, i) (fst t) -> (o = "+" \/ o = "-") ->
     flips (nth i m 0%Z) = Nat.odd (length (filter (fun x => flips (nth (snd x) m 0%Z)) (fst t)))) ->
  Forall (fun t => fine (fun i => nth i m 0%Z) (fst t)) l.
Proof.
  intros H. apply Forall_forall. intros t Ht [o i] Hx Hp. unfold fl, nfl, fl. cbn [fst snd] in *. apply (H t o i Ht Hx).
  unfold is_pm in Hp. apply orb_prop in Hp. destruct Hp as [E|E]; apply Ascii.eqb_eq in E; auto.
Qed.
Lemma conserves_exact B n op A l D : Forall (fun t => small 0 (snd t)) D -> meq (N.to_nat (B ^ N.of_nat n)) (terms_matrix op l) (madd A (terms_matrix op D)) -> conserves B n A ->
  conserves B n (terms_matrix op l).
Proof.
  intros HD E HA r s Hr Hs Hn. apply HA; [exact Hr|exact Hs|]. intros Z. apply Hn. rewrite (E r s) by (rewrite N2Nat.id; assumption). unfold madd. rewrite Z.
  assert (X : terms_matrix op D r s = C0).
  { clear - HD. induction HD as [|t D Ht HD IH]; [reflexivity|]. rewrite TM_cons. unfold madd. rewrite IH. unfold term_matrix, mscale. rewrite (small0 _ Ht). apply C_eq; cbn; ring. }
  rewrite X. apply C_eq; cbn; ring.
Qed.
Lemma expanded_spin p n eps l : (p = 0 \/ p = 1 \/ p = -1)%Z -> Forall (fun t => Forall (fun oi => spin_known (fst oi) /\ snd oi < n) (fst t)) l ->
  (forall t i, In t l -> count_occ Nat.eq_dec (map snd (fst t)) i <= 2) ->
  exists D, Forall (fun t => small eps (snd t)) D /\
    meq (N.to_nat (2 ^ N.of_nat n)) (terms_matrix (spin_op p n) l) (madd (terms_matrix (spin_op p n) (expanded_form sort_opstr (spin_expand p) 1 eps l)) (terms_matrix (spin_op p n) D)) /\
    Forall (fun t => Forall (fun oi => fst oi <> "x" /\ fst oi <> "y") (fst t)) (expanded_form sort_opstr (spin_expand p) 1 eps l).
Proof.
  intros Hp H1 H2. destruct (expanded_form_split 2 n (spin_op p n) (fun o => site_matrix 2 n (pauli_site p o)) (fun oi => spin_known (fst oi) /\ snd oi < n) sort_opstr (spin_expand p)
    ltac:(lia) (go_matrix _ _ _ _ _ (spin_good p n)) (fun x Hx => proj2 Hx) (fun x Hx => spin_moves p n x Hx) (plain_sort_t _ _ _ _ (spin_good p n)) (fun t Ht => spin_expand_ok p n t Hp Ht) 1 eps l eq_refl H1 H2) as [(D & HD & E) HF].
  exists D. split; [exact HD|]. split; [exact E|]. eapply Forall_impl; [|exact HF]. intros t Ht. eapply Forall_impl; [|exact Ht]. intros x [_ Hx]. exact Hx.
Qed.
Lemma pmp_known : Forall (fun t => Forall (fun oi => In (fst oi) ["+"; "-"] /\ snd oi < 2) (fst t)) pmp.
Proof. known. Qed.
