(* C39: the reference-state routines return the representative of the orbit, with the counts of shifts, reflections and
   inversions (and the sign) that lead to it. *)
From Verif Require Import AuxN SpecMaps SpecFermi SpecChain M_bits1d SpecChain1d SpecCheck1d M_check1d P_maps P_square P_bits1d P_bits1d4 P_bits1d5 P_check1d P_check1d2 P_check1d3 P_check1d4 P_check1d5 P_check1d6 P_check1d7 P_check1d8 P_check1d9 P_check1da C39_checks.
Local Open Scope nat_scope.

(* the i-th word repeated as often as the i-th count says, one after the other; every count is 0 or 1 *)
Definition times (words : list (list letter)) (R : list nat) : list letter := concat (map (fun '(u, n) => concat (repeat u n)) (combine words R)).
(* r is the largest state of the orbit of s under gens; the counts R describe a word of the given symmetries that leads
   from s to r with this sign *)
Definition refers (w : btype) (k : kind) (L T : nat) (gens words : list (list letter)) (s : N) (x : option (N * Z * list nat)) : Prop :=
  exists r sign R, x = Some (r, sign, R) /\ (length R = length words /\ Forall (fun c => c <= 1) R) /\
    (forall word t g, product_of gens word -> reaches w k L T word s t g -> (t <= r)%N) /\ reaches w k L T (times words R) s r sign.
(* the same with translations: R = [l; ...], first the counted symmetries, then l translations, at most L / T of them *)
Definition refersT (w : btype) (k : kind) (L T : nat) (gens words : list (list letter)) (s : N) (x : option (N * Z * list nat)) : Prop :=
  exists r sign l R, x = Some (r, sign, l :: R) /\ (length R = length words /\ Forall (fun c => c <= 1) R) /\ l <= L / T /\
    (forall word t g, product_of gens word -> reaches w k L T word s t g -> (t <= r)%N) /\ reaches w k L T (times words R ++ repeat LT l) s r sign.

Section A.
Variables (w : btype) (k : kind) (L T : nat) (s : N).
Hypothesis SF : states_fit w k L.
Hypothesis Hs : is_state k L s.
Notation A := (act w k L T).
Notation best := (N * Z * list nat)%type.
Definition stages (rest : list (list letter * list nat)) (b : option best) : option best := fold_left (fun b x => rstage w k L T s (map A (fst x)) (snd x) b) rest b.
Lemma stages_spec (HT0 : lok w k L T LT) cs : (forall p lab, In (p, lab) cs -> Forall (lok w k L T) p) -> forall rest done b, incl rest cs -> state w k L T s cs done b ->
  exists b', stages rest (Some b) = Some b' /\ state w k L T s cs (rev (map fst rest) ++ done) b'.
Proof.
  intros Ho. induction rest as [|[p lab] rest IH]; intros done b Hin St; [exists b; auto|].
  destruct (rstage_spec w k L T SF s Hs HT0 cs done p lab b (Ho p lab (Hin _ (or_introl eq_refl))) (Hin _ (or_introl eq_refl)) St) as (b' & E & St').
  destruct (IH (p :: done) b' (fun x Hx => Hin x (or_intror Hx)) St') as (b'' & E' & St''). exists b''. split; [unfold stages in *; cbn [fold_left fst snd]; rewrite E; exact E'|]. cbn [map fst rev]. rewrite <- app_assoc. exact St''.
Qed.
(* cs lists the candidates in the order of the stages, the empty word first *)
Lemma ref_T_spec two gens words cs lab0 : family w k L T two true gens (map fst (([], lab0) :: cs)) -> (forall p lab, In (p, lab) (([], lab0) :: cs) -> (length lab = length words /\ Forall (fun c => c <= 1) lab) /\ times words lab = p) ->
  refersT w k L T gens words s (stages (([], lab0) :: cs) (Some (s, 1%Z, 0 :: lab0))).
Proof.
  intros F Hw. pose proof (HT _ _ _ _ _ _ _ _ F eq_refl) as HT0. set (c := ([], lab0) :: cs) in *.
  assert (Ho : forall p lab, In (p, lab) c -> Forall (lok w k L T) p) by (intros p lab H; apply (p_ok _ _ _ _ _ _ _ _ F), (in_map fst _ _ H)).
  destruct (stages_spec HT0 c Ho c [] (s, 1%Z, 0 :: lab0) (incl_refl _) (state0 w k L T s c lab0 (or_introl eq_refl))) as (b & E & St). rewrite app_nil_r in St. fold c. rewrite E.
  assert (St' : state w k L T s c (map fst c) b). { destruct St as [S1 S2]. split; [exact S1|]. intros p j Hp Hj. apply S2; [rewrite <- in_rev; exact Hp|exact Hj]. }
  destruct (from_reaches w k L T SF s Hs HT0 c b Ho (proj1 St')) as (p & lab & j & Hi & Hj & El & Re). destruct b as [[r sg] R]. cbn [fst snd] in *. subst R. destruct (Hw p lab Hi) as [Ln Tm].
  exists r, sg, j, lab. split; [reflexivity|]. split; [exact Ln|]. split; [exact Hj|]. split; [|rewrite Tm; exact Re]. apply (state_max w k L T SF s Hs HT0 two gens c (map fst c) _ F St').
Qed.
Definition betters (rest : list (list letter * list nat)) (b : option best) : option best := fold_left (fun b x => better (map A (fst x)) (snd x) s b) rest b.
Lemma betters_spec cs : (forall p lab, In (p, lab) cs -> Forall (lok w k L T) p) -> forall rest done b, incl rest cs -> state0' w k L T s cs done b ->
  exists b', betters rest (Some b) = Some b' /\ state0' w k L T s cs (rev (map fst rest) ++ done) b'.
Proof.
  intros Ho. induction rest as [|[p lab] rest IH]; intros done b Hin St; [exists b; auto|].
  destruct (better_spec w k L T SF s Hs cs done p lab b (Ho p lab (Hin _ (or_introl eq_refl))) (Hin _ (or_introl eq_refl)) St) as (b' & E & St').
  destruct (IH (p :: done) b' (fun x Hx => Hin x (or_intror Hx)) St') as (b'' & E' & St''). exists b''. split; [unfold betters in *; cbn [fold_left fst snd]; rewrite E; exact E'|]. cbn [map fst rev]. rewrite <- app_assoc. exact St''.
Qed.
Lemma ref_spec two gens words cs lab0 : family w k L T two false gens (map fst (([], lab0) :: cs)) -> (forall p lab, In (p, lab) (([], lab0) :: cs) -> (length lab = length words /\ Forall (fun c => c <= 1) lab) /\ times words lab = p) ->
  refers w k L T gens words s (betters cs (Some (s, 1%Z, lab0))).
Proof.
  intros F Hw. set (c := ([], lab0) :: cs) in *.
  assert (Ho : forall p lab, In (p, lab) c -> Forall (lok w k L T) p) by (intros p lab H; apply (p_ok _ _ _ _ _ _ _ _ F), (in_map fst _ _ H)).
  assert (S0 : state0' w k L T s c [[]] (s, 1%Z, lab0)). { split; [exists [], lab0; split; [left; reflexivity|reflexivity]|]. intros p [<-|[]]. cbn. lia. }
  destruct (betters_spec c Ho cs [[]] _ (fun x Hx => or_intror Hx) S0) as (b & E & St). rewrite E.
  assert (St' : state0' w k L T s c (map fst c) b). { destruct St as [S1 S2]. split; [exact S1|]. intros p Hp. apply S2. apply in_or_app. destruct Hp as [<-|Hp]; [right; left; reflexivity|left; rewrite <- in_rev; exact Hp]. }
  destruct (from0_reaches w k L T SF s Hs c b Ho (proj1 St')) as (p & lab & Hi & El & Re). destruct b as [[r sg] R]. cbn [fst snd] in *. subst R. destruct (Hw p lab Hi) as [Ln Tm].
  exists r, sg, lab. split; [reflexivity|]. split; [exact Ln|]. split; [|rewrite Tm; exact Re]. apply (state0_max w k L T SF s Hs two gens c (map fst c) _ F St').
Qed.
Lemma one_better f : (ref_one f s : option best) = better [f] [1] s (Some (s, 1%Z, [0])). Proof. reflexivity. Qed.
End A.
Ltac labs := let p := fresh in let lab := fresh in let H := fresh in intros p lab H; cbn [In] in H; repeat (destruct H as [H|H]; [injection H as <- <-; split; [split; [reflexivity|repeat (apply Forall_cons; [lia|]); apply Forall_nil]|reflexivity]|]); destruct H.

(* Without translations; for the product PZ the state and the count are right for every kind, the sign only for kinds
   without fermionic signs (next theorem). *)
Theorem C39_reference : forall w k L s, states_fit w k L -> is_state k L s ->
  refers w k L 1 [[LP]] [[LP]] s (ref_P w k L s) /\
  (has_inversion k ->
    refers w k L 1 [[LZ]] [[LZ]] s (ref_Z w k L s) /\
    refers w k L 1 [[LP]; [LZ]] [[LP]; [LZ]] s (ref_P_Z w k L s) /\
    (fermionic k = false -> refers w k L 1 [[LP; LZ]] [[LP; LZ]] s (ref_PZ w k L s)) /\
    exists r c sign, ref_PZ w k L s = Some (r, 1%Z, [c]) /\ refers w k L 1 [[LP; LZ]] [[LP; LZ]] s (Some (r, sign, [c]))) /\
  (has_sublattices k ->
    refers w k L 1 [[LA]] [[LA]] s (ref_ZA w k L s) /\
    refers w k L 1 [[LB]] [[LB]] s (ref_ZB w k L s) /\
    refers w k L 1 [[LA]; [LB]] [[LA]; [LB]] s (ref_ZA_ZB w k L s)).
Proof.
  intros w k L s SF Hs. split; [|split].
  - unfold ref_P. rewrite one_better. apply (ref_spec w k L 1 s SF Hs false [[LP]] [[LP]] [([LP], [1])] [0] (fam_p w k L SF)). labs.
  - intros HI. pose proof (ref_spec w k L 1 s SF Hs false [[LP; LZ]] [[LP; LZ]] [([LP; LZ], [1])] [0] (fam_pz w k L SF HI) ltac:(labs)) as PZ. unfold betters in PZ. cbn [fold_left fst snd] in PZ. unfold better in PZ. change (map (act w k L 1) [LP; LZ]) with [P_ w k L; Z_ w k L] in PZ. 
    split; [|split; [|split]].
    + unfold ref_Z. rewrite one_better. apply (ref_spec w k L 1 s SF Hs false [[LZ]] [[LZ]] [([LZ], [1])] [0] (fam_z w k L SF HI)). labs.
    + apply (ref_spec w k L 1 s SF Hs false [[LP]; [LZ]] [[LP]; [LZ]] [([LP], [1; 0]); ([LZ], [0; 1]); ([LP; LZ], [1; 1])] [0; 0] (fam_p_z w k L SF HI)). labs.
    + intros Fk. unfold ref_PZ. pose proof (p_ok _ _ _ _ _ _ _ _ (fam_pz w k L SF HI) [LP; LZ] ltac:(cbn; auto)) as Lp. change [P_ w k L; Z_ w k L] with (map (act w k L 1) [LP; LZ]) in *. rewrite (run_one w k L 1 SF _ s Lp Hs) in *.
      assert (X : sgo w k L 1 [LP; LZ] s = 1%Z) by (apply sgo_one; assumption). rewrite X in PZ. exact PZ.
    + unfold ref_PZ. destruct (run_ops _ _) as [[t sg]|]; [|destruct PZ as (? & ? & ? & X & _); discriminate]. destruct (s <? t)%N; eexists _, _, _; (split; [reflexivity|exact PZ]).
  - intros HS. split; [|split].
    + unfold ref_ZA. rewrite one_better. apply (ref_spec w k L 1 s SF Hs true [[LA]] [[LA]] [([LA], [1])] [0] (fam_a w k L SF HS)). labs.
    + unfold ref_ZB. rewrite one_better. apply (ref_spec w k L 1 s SF Hs true [[LB]] [[LB]] [([LB], [1])] [0] (fam_b w k L SF HS)). labs.
    + pose proof (ref_spec w k L 1 s SF Hs true [[LA]; [LB]] [[LA]; [LB]] [([LA], [1; 0]); ([LB], [0; 1]); ([LA; LB], [1; 1])] [0; 0] (fam_a_b w k L SF HS) ltac:(labs)) as X.
      unfold ref_ZA_ZB, better at 1. destruct (rel_ab w k L SF s 1%Z HS Hs) as (y & E1 & E2 & _). unfold Z_. rewrite E2. unfold betters in X. cbn [fold_left fst snd] in X. unfold better at 1 in X. cbn [map act] in X. rewrite E1 in X. exact X.
Qed.
Print Assumptions C39_reference.

(* With translations. *)
Theorem C39_reference_translations : forall w k L T s, states_fit w k L -> cells w k L T -> is_state k L s ->
  refersT w k L T [[LT]] [] s (ref_T w k L T s) /\
  refersT w k L T [[LT]; [LP]] [[LP]] s (ref_T_P w k L T s) /\
  (has_inversion k ->
    refersT w k L T [[LT]; [LZ]] [[LZ]] s (ref_T_Z w k L T s) /\
    refersT w k L T [[LT]; [LP; LZ]] [[LP; LZ]] s (ref_T_PZ w k L T s) /\
    refersT w k L T [[LT]; [LP]; [LZ]] [[LP]; [LZ]] s (ref_T_P_Z w k L T s)) /\
  (has_sublattices k -> Nat.even L = true -> Nat.even T = true ->
    refersT w k L T [[LT]; [LA]] [[LA]] s (ref_T_ZA w k L T s) /\
    refersT w k L T [[LT]; [LB]] [[LB]] s (ref_T_ZB w k L T s) /\
    refersT w k L T [[LT]; [LA]; [LB]] [[LA]; [LB]] s (ref_T_ZA_ZB w k L T s)).
Proof.
  intros w k L T s SF HC Hs. split; [|split; [|split]].
  - apply (ref_T_spec w k L T s SF Hs false [[LT]] [] [] [] (fam_t w k L T SF HC)). labs.
  - apply (ref_T_spec w k L T s SF Hs false [[LT]; [LP]] [[LP]] [([LP], [1])] [0] (fam_tp w k L T SF HC)). labs.
  - intros HI. split; [|split].
    + apply (ref_T_spec w k L T s SF Hs false [[LT]; [LZ]] [[LZ]] [([LZ], [1])] [0] (fam_tz w k L T SF HC HI)). labs.
    + apply (ref_T_spec w k L T s SF Hs false [[LT]; [LP; LZ]] [[LP; LZ]] [([LP; LZ], [1])] [0] (fam_tpz w k L T SF HC HI)). labs.
    + apply (ref_T_spec w k L T s SF Hs false [[LT]; [LP]; [LZ]] [[LP]; [LZ]] [([LP], [1; 0]); ([LZ], [0; 1]); ([LP; LZ], [1; 1])] [0; 0] (fam_tp_z w k L T SF HC HI)). labs.
  - intros HS EL ET. split; [|split].
    + apply (ref_T_spec w k L T s SF Hs true [[LT]; [LA]] [[LA]] [([LA], [1])] [0] (fam_ta w k L T SF HC (Logic.conj EL ET) HS)). labs.
    + apply (ref_T_spec w k L T s SF Hs true [[LT]; [LB]] [[LB]] [([LB], [1])] [0] (fam_tb w k L T SF HC (Logic.conj EL ET) HS)). labs.
    + pose proof (ref_T_spec w k L T s SF Hs true [[LT]; [LA]; [LB]] [[LA]; [LB]] [([LA], [1; 0]); ([LB], [0; 1]); ([LA; LB], [1; 1])] [0; 0] (fam_ta_b w k L T SF HC (Logic.conj EL ET) HS) ltac:(labs)) as X.
      unfold ref_T_ZA_ZB, rstage at 1. destruct (rel_ab w k L SF s 1%Z HS Hs) as (y & E1 & E2 & _). unfold Z_. rewrite E2. unfold stages in X. cbn [fold_left fst snd] in X. unfold rstage at 1 in X. cbn [map act] in X. rewrite E1 in X. exact X.
Qed.
Print Assumptions C39_reference_translations.

(* The sign of the PZ routine is never set: for spinful fermions on two sites with one particle of each species the
   reference state of 5 is reached with sign -1 while +1 is reported. *)
Theorem C39_reference_PZ_sign_refuted : exists s, states_fit U32 Spf 2 /\ is_state Spf 2 s /\ ~ refers U32 Spf 2 1 [[LP; LZ]] [[LP; LZ]] s (ref_PZ U32 Spf 2 s).
Proof.
  exists 5%N. split; [split; [lia|vm_compute; lia]|]. split; [reflexivity|]. intros (r & sg & R & E & _ & _ & Re). vm_compute in E. injection E as <- <- <-. vm_compute in Re. discriminate.
Qed.
Print Assumptions C39_reference_PZ_sign_refuted.

Example C39_reference_hyps : states_fit U32 (Hcp false) 6 /\ cells U32 (Hcp false) 6 1 /\ is_state (Hcp false) 6 13%N /\
  ref_T_P U32 (Hcp false) 6 1 13 = Some (52%N, 1%Z, [4; 0]) /\ ref_T_P_Z U32 (Hcp false) 6 1 11 = Some (52%N, 1%Z, [6; 1; 0]).
Proof.
  assert (A : states_fit U32 (Hcp false) 6) by (split; [lia|vm_compute; lia]).
  split; [exact A|]. split; [split; [split; [exact A|left; vm_compute; lia]|]; split; [lia|exists 6; reflexivity]|].
  repeat split; vm_compute; reflexivity.
Qed.
