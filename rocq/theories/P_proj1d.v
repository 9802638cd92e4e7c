(* The loops of the projectors of the one-dimensional bases visit every element of the group of the block once. *)
From Verif Require Import AuxN SpecC SpecOps SpecMaps SpecFermi SpecChain M_bits1d SpecChain1d SpecCheck1d SpecBlock1d M_check1d
  P_maps P_square P_bits1d P_bits1d4 P_bits1d5 P_check1d P_check1d2 P_check1d3 P_check1d4 P_check1d5 P_block1d P_block1d2 P_block1d3 P_block1d4
  M_ops M_op1d P_op1d P_op1d2 M_proj1d.
From Coq Require Import Permutation.
Local Open Scope nat_scope.

Lemma Csum_flat {A B} (f : A -> list B) l (g : B -> C) : Csum (flat_map f l) g = Csum l (fun a => Csum (f a) g).
Proof. induction l as [|a l IH]; [reflexivity|]. cbn [flat_map]. rewrite Csum_app, Csum_cons, IH. reflexivity. Qed.

(* the heads in the order of the loops *)
Definition flip_heads (b : block) : list head :=
  match b with
  | BFull | BNo | BT => []
  | BP _ | BT_P _ | BA _ | BT_A _ => [(true, false)]
  | BZ _ | BT_Z _ | BB _ | BT_B _ => [(false, true)]
  | BPZ _ | BT_PZ _ => [(true, true)]
  | BP_Z _ _ | BT_P_Z _ _ => [(false, true); (true, false); (true, true)]
  | BA_B _ _ | BT_A_B _ _ => [(true, false); (false, true); (true, true)]
  end.
Lemma flip_perm b : Permutation (h0 :: flip_heads b) (heads b).
Proof. destruct b; cbn [flip_heads heads]; try apply Permutation_refl; apply perm_skip, perm_swap. Qed.

Section S.
Variables (w : btype) (k : kind) (L T : nat) (b : block).
Hypothesis OK : block_ok w k L T b.
Hypothesis Hsh : translates b = false -> shift_fits w k L (Z.of_nat L).
Notation is_st s := (s < levels k ^ N.of_nat (sites k L))%N.
Notation M := (Mst k L).
Notation two := (two_of b).
Notation tf := (translates b).
Notation n := (n_of L T b).
Notation Hs := (heads b).
Notation To := (T_of T b).
Notation X := (X w k L To two n).
Notation G := (G w k L To two n).
Notation eps := (eps two tf).
Let GR := block_grp w k L T b OK.
Let SF := SFb w k L T b OK.

Lemma step_n : L / step L T b = n.
Proof. pose proof (L_pos w k L T b OK). unfold step, n_of. clear GR Hsh. destruct tf; [reflexivity|]. apply Nat.div_same. lia. Qed.
Lemma shift_back s g : is_st s -> op_shift w k L (Z.of_nat (step L T b)) (s, g) = Some (X (-1) h0 s, (g * G (-1) h0 s)%Z).
Proof.
  intros Hst. pose proof (L_pos w k L T b OK) as LP. destruct (Bool.bool_dec tf true) as [E|E].
  - destruct (cells_n w k L T b OK E) as (E1 & E2 & E3 & E4). assert (ES : step L T b = T) by (unfold step; rewrite E; reflexivity). rewrite ES.
    assert (Ec : cnt n (-1) = n - 1).
    { unfold cnt. replace (-1)%Z with (Z.of_nat (n - 1) + (-1) * Z.of_nat n)%Z by lia. rewrite Z.mod_add by lia. rewrite Z.mod_small by lia. apply Nat2Z.id. }
    assert (F : shift_fits w k L (Z.of_nat T)).
    { destruct E4 as [F1 F2]. split; [exact F1|]. destruct k as [[|]|?|]; try exact I. destruct F2 as [F2|F2]; [left; exact F2|right]. intros Q. apply F2. apply Z.mod_opp_l_z; [lia|exact Q]. }
    pose proof (rep_lok w k L T b OK (-1)) as RL. rewrite Ec in RL.
    destruct (run_rel (fermionic k) (levels k) (sites k L) (HB2 w k L SF) [shift_map k L (Z.of_nat T)] [op_shift w k L (Z.of_nat T)] (map (lmap k L To) (repeat LT (n - 1))) (map (act w k L To) (repeat LT (n - 1)))) with (s := s) (sg := g) as (y & Y1 & Y2 & _).
    + exact (HF2 w k L SF).
    + constructor; [|constructor]. apply good_shift; [exact SF|lia|exact F].
    + apply (lgoods w k L To SF). exact RL.
    + intros j Hj. destruct (two_cases k L j Hj) as (c & i & -> & Hi & Hc). cbn [walk fold_left]. rewrite step_shift by assumption.
      assert (EM : map (lmap k L To) (repeat LT (n - 1)) = repeat (shift_map k L (- Z.of_nat T)) (n - 1)).
      { unfold T_of. rewrite E. clear. induction (n - 1) as [|m IH]; [reflexivity|]. cbn [repeat map]. rewrite IH. reflexivity. }
      rewrite EM, (walk_repeat w k L SF) by assumption. f_equal. f_equal. apply sh_mod. replace (Z.of_nat (n - 1) * - Z.of_nat T)%Z with (Z.of_nat T + (-1) * Z.of_nat L)%Z by nia. rewrite Z.mod_add by lia. reflexivity.
    + exact Hst.
    + rewrite (run_sto w k L To SF _ s g RL Hst) in Y2. rewrite run_cons in Y1. destruct (op_shift w k L (Z.of_nat T) (s, g)) as [z|]; [|discriminate]. change (run_ops [] z) with (Some z) in Y1. rewrite Y1, <- Y2.
      unfold P_block1d4.X, P_block1d4.G. rewrite Ec. change (hw two h0) with (hw two (false, false)). assert (EH : hw two (false, false) = []) by (clear; unfold hw; destruct two; reflexivity). rewrite EH, app_nil_r. reflexivity.
  - apply Bool.not_true_is_false in E. assert (ES : step L T b = L) by (unfold step; rewrite E; reflexivity). rewrite ES.
    pose proof (rel_period w k L SF (Z.of_nat L) 1 s g) as P. cbn [repeat] in P. rewrite run_cons in P.
    assert (Q : match op_shift w k L (Z.of_nat L) (s, g) with Some y => run_ops [] y | None => None end = Some (s, g)).
    { apply P; [lia|apply Hsh, E| |exact Hst]. rewrite Z.mul_1_l. apply Z.mod_same. lia. }
    destruct (op_shift w k L (Z.of_nat L) (s, g)) as [y|]; [|discriminate]. change (run_ops [] y) with (Some y) in Q. rewrite Q. clear P Q.
    assert (Ds : (s < N.of_nat M)%N) by (apply M_st, Hst).
    assert (E1 : X (-1) h0 s = X 0 h0 s /\ G (-1) h0 s = G 0 h0 s).
    { unfold P_block1d4.X, P_block1d4.G. assert (Ec : forall r, cnt n r = 0) by (intros r; destruct (cnt_tf L T b r) as [E'|E']; [congruence|exact E']). rewrite !Ec. auto. }
    destruct E1 as [-> ->]. rewrite (g_X0 _ _ _ _ _ _ _ GR s Ds), (G0 _ _ _ _ _ _ _ GR s Ds), Z.mul_1_r. reflexivity.
Qed.

Definition flip_ok (f : Z * list letter * list letter) (h : head) : Prop :=
  let '(label, go, back) := f in In h Hs /\ label = chiZ b h /\ forall s g, is_st s ->
    run_ops (map (act w k L T) go) (s, g) = Some (X 0 h s, (g * G 0 h s)%Z) /\ run_ops (map (act w k L T) back) (X 0 h s, (g * G 0 h s)%Z) = Some (s, g).
Lemma X_0 h s : X 0 h s = sto w k L To (hw two h) s /\ G 0 h s = sgo w k L To (hw two h) s.
Proof. unfold P_block1d4.X, P_block1d4.G, cnt. rewrite Zmod_0_l. split; reflexivity. Qed.
Lemma flip_ok_of label go back h : In h Hs -> label = chiZ b h -> ~ In LT go -> ~ In LT back -> Forall (okf w k L To two) go -> Forall (okf w k L To two) back ->
  el To two go = el To two (hw two h) -> el To two (go ++ back) = P_check1d3.e0 -> flip_ok (label, go, back) h.
Proof.
  intros Hh -> Ng Nb Fg Fb E1 E2. split; [exact Hh|]. split; [reflexivity|]. intros s g Hst.
  assert (EA : forall word, ~ In LT word -> map (act w k L T) word = map (act w k L To) word).
  { clear. intros word HN. apply map_ext_in. intros l Hl. destruct l; try reflexivity. contradiction. }
  rewrite !EA by assumption. pose proof (okf_lok w k L To two go Fg) as Lg. pose proof (okf_lok w k L To two back Fb) as Lb.
  assert (R : forall e, eq1 L e e) by (intros e; split; reflexivity).
  destruct (same_el w k L To SF two go (hw two h) Fg (hw_okf w k L T b OK h Hh)) with (s := s) as [S1 S2]; [rewrite E1; apply R|exact Hst|]. destruct (X_0 h s) as [-> ->]. rewrite <- S1, <- S2.
  split; [apply run_sto; assumption|].
  destruct (same_el w k L To SF two (go ++ back) []) with (s := s) as [S3 S4]; [apply Forall_app; split; assumption|constructor|rewrite E2; apply R|exact Hst|].
  destruct (sto_app w k L To SF go back s Lg Lb Hst) as [A1 A2]. rewrite run_sto; [|exact SF|exact Lb|apply sto_lt; [exact SF|exact Lg|exact Hst]]. rewrite <- A1, S3, <- Z.mul_assoc, <- A2, S4.
  change (sto w k L To [] s) with s. change (sgo w k L To [] s) with 1%Z. rewrite Z.mul_1_r. reflexivity.
Qed.
End S.
Lemma flips_ok w k L T b (OK : block_ok w k L T b) pz : pz = [LP; LZ] \/ pz = [LZ; LP] -> Forall2 (flip_ok w k L T b) (flips b pz) (flip_heads b).
Proof.
  intros Hpz. destruct (Logic.conj OK I) as [(_ & _ & H) _]. assert (HI : has_sublattices k -> has_inversion k) by (clear; destruct k as [[|]|?|]; cbn; auto).
  assert (Ne : forall l : list letter, (forall x, In x l -> x <> LT) -> ~ In LT l) by (intros l Hl Hin; apply (Hl LT Hin); reflexivity).
  destruct b; cbn [flips flip_heads]; repeat (apply Forall2_cons || apply Forall2_nil);
    match goal with |- context [pz] => destruct Hpz as [-> | ->] | _ => idtac end;
    (apply (flip_ok_of w k L T _ OK); cbn [heads two_of]; [cbn [In]; auto|unfold chiZ; cbn [fst snd q12]; lia|apply Ne; cbn [In]; intuition (subst; discriminate)|apply Ne; cbn [In]; intuition (subst; discriminate)| | |reflexivity|reflexivity];
     repeat (apply Forall_cons; [unfold okf; cbn [lok fam1 fam2]; tauto|]); apply Forall_nil).
Qed.
