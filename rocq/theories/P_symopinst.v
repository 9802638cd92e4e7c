(* Reduced matrices for the bases of the package. *)
From Verif Require Import AuxN SpecC SpecDigits SpecMaps SpecSymm SpecOps SpecInv SpecBasis SpecIndex SpecProj M_benes M_maps M_symm M_index M_ops M_opstr M_symop
  P_maps P_symm P_norm P_symminst P_index P_ops P_mat P_opinst P_proj P_symop.
Local Open Scope nat_scope.

Lemma good_maps_ext (D D' : N -> Prop) nt pers ms : (forall s, D s <-> D' s) -> good_maps D nt pers ms -> good_maps D' nt pers ms.
Proof.
  intros E [H1 H2 H3 H4 H5 H6]. constructor; try assumption.
  - intros d s Hd Hs. apply E, H3; [exact Hd|apply E, Hs].
  - intros d s Hd Hs. apply H4; [exact Hd|apply E, Hs].
  - intros d s Hd Hs. apply H5; [exact Hd|apply E, Hs].
  - intros d e s Hd He Hs. apply H6; [exact Hd|exact He|apply E, Hs].
Qed.

(* maps that move the sites without signs *)
Definition site_maps (B : N) (n : nat) (mlist : list (list Z)) (pers : list nat) (ms : smap) : Prop :=
  forall d s, d < length pers -> (s < B ^ N.of_nat n)%N -> moved B n (nth d mlist []) s (fst (ms d s)) /\ snd (ms d s) = 1%Z.
Lemma commutes_site B n mlist pers ms (S : N -> Prop) A : site_maps B n mlist pers ms -> (forall s, S s -> (s < B ^ N.of_nat n)%N) ->
  (forall d, d < length pers -> commutes_with_map B n (nth d mlist []) A) -> commutes_with_maps S (length pers) ms A.
Proof.
  intros HM SD H d r s Hd Hr Hs. destruct (HM d r Hd (SD r Hr)) as [Mr Er]. destruct (HM d s Hd (SD s Hs)) as [Ms Es]. rewrite Er, Es.
  rewrite (H d Hd r s _ _ (SD r Hr) (SD s Hs) Mr Ms). apply C_eq; cbn; ring.
Qed.
Lemma accepted_perm n mlist pers d : accepted n mlist pers -> d < length pers -> signed_perm n (nth d mlist []).
Proof. intros [_ HA] Hd. destruct (HA d Hd) as [L [f Hf]]. apply process_map_accepts in Hf. rewrite L in Hf. apply Hf. Qed.
Lemma hcb_site_maps ld n mlist pers : (n <= 2 ^ ld)%nat -> accepted n mlist pers -> site_maps 2 n mlist pers (hcb_smap ld n mlist).
Proof.
  intros Hn HA d s Hd Hs. split; [|reflexivity]. unfold hcb_smap. cbn [fst].
  destruct (hcb_map_state_moved ld n (nth d mlist []) s Hn (accepted_perm _ _ _ _ HA Hd) Hs) as (t & -> & Ht). exact Ht.
Qed.
Lemma boson_site_maps B n mlist pers : (2 <= B)%N -> accepted n mlist pers -> site_maps B n mlist pers (boson_smap B n mlist).
Proof. intros HB HA d s Hd Hs. split; [|reflexivity]. apply boson_map_bits_moved; [exact HB|apply (accepted_perm _ _ _ _ HA Hd)]. Qed.

Section Inst.
Variables (B : N) (n : nat) (pers : list nat) (qs : list Z) (ms : smap) (S : N -> Prop) (sts : list N) (L : list (N * Z)).
Let M := N.to_nat (B ^ N.of_nat n).
Hypothesis HG : good_maps (fun s => (s < B ^ N.of_nat n)%N) (length pers) pers ms.
Hypothesis Hnt : length pers <= 32.
Hypothesis SD : forall s, S s -> (s < B ^ N.of_nat n)%N.
Hypothesis HE : enumerates sts S.
Hypothesis SC : closed_under S (length pers) ms.
Hypothesis HL : lists_decreasing (in_block S (length pers) pers qs ms) L.
Variables (N_p : nat) (pfx : N -> Z) (bb be : Z -> Z).
Hypothesis Hblk : 0 < N_p -> forall s, is_position (map fst L) s (rep_position_blocks bb be (map fst L) (pfx s) s).
Variables (allowed : list ascii) (scale : list ascii -> R) (op : list (ascii * nat) -> N -> C -> option (N * C)) (mat mat0 : ascii -> nat -> cmat).
Hypothesis Hop : forall l, Forall (fun oi => In (fst oi) allowed /\ snd oi < n) l -> acts_as M (op l) (string_matrix M mat0 l).
Hypothesis Hsc : forall l r s, string_matrix M mat l r s = (RtoC (scale (map fst l)) * string_matrix M mat0 l r s)%C.
Notation sf := (get_index M (map fst L) pers ms (length pers) N_p pfx bb be).
Notation OpF := (fun real => Op real sf L qs pers (length pers) n allowed scale op).
Lemma M_dom s : (s < B ^ N.of_nat n)%N <-> (s < N.of_nat M)%N. Proof. unfold M. rewrite N2Nat.id. reflexivity. Qed.
Lemma HG' : good_maps (fun s => (s < N.of_nat M)%N) (length pers) pers ms.
Proof. eapply good_maps_ext; [|exact HG]. apply M_dom. Qed.
Lemma SD' s : S s -> (s < N.of_nat M)%N. Proof. intros H. apply M_dom, SD, H. Qed.
Lemma total_lattice ts r s : H_total scale (string_matrix M mat0) ts r s = lattice_operator M mat ts r s.
Proof. unfold H_total, lattice_operator. apply Csum_ext. intros t _. rewrite Hsc. ring. Qed.
Lemma lookup_inst : lookup_ok M (length pers) pers ms qs L sf.
Proof. apply (get_index_ok M (length pers) pers ms qs HG' S SD' L HL); assumption. Qed.
Lemma lattice_reduced ts : Forall (fun t => Forall (fun oi => In (fst oi) allowed /\ snd oi < n) (fst t)) ts ->
  commutes_with_maps S (length pers) ms (lattice_operator M mat ts) ->
  (exists Mx, make_matrix (OpF false) ts = Some Mx) /\
  forall real Mx, make_matrix (OpF real) ts = Some Mx -> forall i j, i < length L -> j < length L ->
    Mx j i = as_type real (reduced sts pers qs ms (lattice_operator M mat ts) (fst (nth j L (0%N, 0%Z))) (fst (nth i L (0%N, 0%Z)))).
Proof.
  intros Hts HC. destruct HE as [Hnd Hin].
  destruct (make_matrix_reduced M (length pers) pers ms qs HG' S sts SD' SC Hnd Hin L HL sf lookup_inst n allowed scale op (string_matrix M mat0) Hop ts Hts) as [P1 P2].
  - intros d r s Hd Hr Hs. rewrite !total_lattice. apply HC; assumption.
  - split; [exact P1|]. intros real Mx HM i j Hi Hj. rewrite (P2 real Mx HM i j Hi Hj). f_equal. unfold reduced. apply Csum_ext. intros t _. apply Csum_ext. intros u _.
    rewrite total_lattice. reflexivity.
Qed.
End Inst.

(* the sum computed term by term is the lattice operator *)
Lemma terms_lattice M op mat (ok : ascii * nat -> Prop) ts : (forall l, Forall ok l -> meq M (op_matrix (op l)) (string_matrix M mat l)) ->
  Forall (fun t => Forall ok (fst t)) ts -> meq M (terms_matrix op ts) (lattice_operator M mat ts).
Proof.
  intros H HF r s Hr Hs. unfold lattice_operator. induction HF as [|t ts Ht HF IH]; [reflexivity|].
  cbn [terms_matrix fold_right]. rewrite Csum_cons. unfold madd at 1. fold (terms_matrix op ts). rewrite IH. unfold term_matrix, mscale. rewrite (H _ Ht r s Hr Hs). reflexivity.
Qed.
