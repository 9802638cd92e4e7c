(* C60: what an exp_op object holds after a history of calls; sandwich without a grid. *)
From Verif Require Import AuxN SpecC SpecExpm SpecHam SpecExpop M_block M_expop P_expop C60_expop C60_cases.
Local Open Scope nat_scope.

(* calls of the setters; a call that raises leaves the object as it was *)
Inductive call := SetA (c : C) | SetGrid (b e : R) (m : option nat) (ep : option bool) | UnsetGrid | SetIterate (v : bool).
Definition perform (o : expop) (c : call) : expop := match c with
  | SetA c => set_a o c
  | SetGrid b e m ep => match set_grid o b e m ep with inr o' => o' | inl _ => o end
  | UnsetGrid => unset_grid o
  | SetIterate v => set_iterate o v
  end.
(* what a call assigns: the prefactor, the flag, the grid *)
Definition assigns_a (c : call) : option C := match c with SetA c => Some c | _ => None end.
Definition assigns_iterate (c : call) : option bool := match c with SetIterate v => Some v | UnsetGrid => Some false | _ => None end.
Definition assigns_grid (c : call) : option (option (R * R * nat * bool)) := match c with
  | SetGrid b e (Some m) (Some ep) => Some (Some (b, e, m, ep)) | UnsetGrid => Some None | _ => None end.
(* v was assigned last, or never and v = v0 *)
Definition latest {X} (assigns : call -> option X) (v0 : X) (cs : list call) (v : X) : Prop :=
  ((forall c, In c cs -> assigns c = None) /\ v = v0) \/
  (exists before c after, cs = before ++ c :: after /\ assigns c = Some v /\ forall c', In c' after -> assigns c' = None).
Definition has_grid (o : expop) (p : option (R * R * nat * bool)) : Prop := match p with
  | None => grid o = None /\ start o = None /\ stop o = None /\ num o = None /\ endpoint o = None
  | Some (b, e, m, ep) => start o = Some b /\ stop o = Some e /\ num o = Some m /\ endpoint o = Some ep /\ exists g d, grid o = Some (g, d) /\ equidistant b e m ep g
  end.

Lemma latest_snoc {X} (f : call -> option X) v0 cs c v : latest f v0 cs v -> latest f v0 (cs ++ [c]) (match f c with Some w => w | None => v end).
Proof.
  intro H. destruct (f c) as [w|] eqn:E.
  - right. exists cs, c, []. split; [reflexivity|]. split; [exact E|]. intros c' [].
  - destruct H as [[H ->]|(p & c0 & q & -> & H1 & H2)].
    + left. split; [|reflexivity]. intros c' Hc. apply in_app_or in Hc. destruct Hc as [Hc|[<-|[]]]; [now apply H|exact E].
    + right. exists p, c0, (q ++ [c]). rewrite <- app_assoc. split; [reflexivity|]. split; [exact H1|]. intros c' Hc.
      apply in_app_or in Hc. destruct Hc as [Hc|[<-|[]]]; [now apply H2|exact E].
Qed.
Lemma linspace_grid o b e m ep : grid o = Some (linspace b e m ep) -> exists g d, grid o = Some (g, d) /\ equidistant b e m ep g.
Proof. intro H. exists (fst (linspace b e m ep)), (snd (linspace b e m ep)). split; [rewrite H; now destruct (linspace b e m ep)|]. apply linspace_right. Qed.

(* The constructor accepts start and stop together (50 points including stop unless num and endpoint say otherwise), or none of
   start, stop, num, endpoint and iterate; it refuses everything else. *)
Theorem C60_construct : forall O a0 b e m ep it,
  match b, e with
  | Some b', Some e' => exists o, construct O a0 b e m ep it = inr o /\ Op o = O /\ a o = a0 /\ iterate o = it /\
      has_grid o (Some (b', e', match m with Some k => k | None => 50 end, match ep with Some v => v | None => true end))
  | None, None => if orb it (orb (if m then true else false) (if ep then true else false)) then exists f, construct O a0 b e m ep it = inl f
      else exists o, construct O a0 b e m ep it = inr o /\ Op o = O /\ a o = a0 /\ iterate o = false /\ has_grid o None
  | _, _ => exists f, construct O a0 b e m ep it = inl f
  end.
Proof.
  intros O a0 [b|] [e|] m ep it; cbn [construct].
  - eexists. split; [reflexivity|]. cbn [Op a iterate]. repeat (split; [reflexivity|]). unfold has_grid. cbn [start stop num endpoint]. unfold default.
    repeat (split; [reflexivity|]). apply linspace_grid. reflexivity.
  - destruct it; eexists; reflexivity.
  - destruct it; eexists; reflexivity.
  - destruct it, m, ep; cbn; eexists; repeat split; reflexivity.
Qed.
Print Assumptions C60_construct.

(* After any calls the operator is that of the constructor, and prefactor, iterate and grid are those assigned last. *)
Theorem C60_history : forall o0 p0 cs, has_grid o0 p0 -> let o := fold_left perform cs o0 in
  Op o = Op o0 /\ latest assigns_a (a o0) cs (a o) /\ latest assigns_iterate (iterate o0) cs (iterate o) /\
  exists p, latest assigns_grid p0 cs p /\ has_grid o p.
Proof.
  intros o0 p0 cs H0. induction cs as [|c cs IH] using rev_ind.
  - cbn. split; [reflexivity|]. split; [left; split; [intros ? []|reflexivity]|]. split; [left; split; [intros ? []|reflexivity]|].
    exists p0. split; [left; split; [intros ? []|reflexivity]|exact H0].
  - cbn zeta in *. rewrite fold_left_app. cbn [fold_left]. set (o := fold_left perform cs o0) in *. destruct IH as (I1 & I2 & I3 & p & I4 & I5).
    apply (latest_snoc _ _ _ c) in I2, I3, I4. destruct c as [c|b e m ep| |v]; cbn [assigns_a assigns_iterate assigns_grid perform] in *.
    + split; [exact I1|]. split; [exact I2|]. split; [exact I3|]. exists p. split; [exact I4|exact I5].
    + destruct m as [m|], ep as [ep|]; cbn [set_grid] in *.
      * split; [exact I1|]. split; [exact I2|]. split; [exact I3|]. eexists. split; [exact I4|]. unfold has_grid. cbn [start stop num endpoint].
        repeat (split; [reflexivity|]). apply linspace_grid. reflexivity.
      * split; [exact I1|]. split; [exact I2|]. split; [exact I3|]. exists p. split; [exact I4|exact I5].
      * split; [exact I1|]. split; [exact I2|]. split; [exact I3|]. exists p. split; [exact I4|exact I5].
      * split; [exact I1|]. split; [exact I2|]. split; [exact I3|]. exists p. split; [exact I4|exact I5].
    + split; [exact I1|]. split; [exact I2|]. split; [exact I3|]. eexists. split; [exact I4|]. cbn. repeat split; reflexivity.
    + split; [exact I1|]. split; [exact I2|]. split; [exact I3|]. exists p. split; [exact I4|exact I5].
Qed.
Print Assumptions C60_history.
Example C60_history_meets : exists o, has_grid o None /\ has_grid (fold_left perform [SetGrid 0 1 (Some 2) (Some true); SetIterate true; SetA C0; SetGrid 0 3 None None] o) (Some (0%R, 1%R, 2, true)).
Proof.
  destruct (C60_construct raise2 C1 None None None None false) as (o & _ & _ & _ & _ & H). exists o. split; [exact H|].
  cbn [fold_left perform set_grid]. unfold has_grid. cbn [start stop num endpoint set_a set_iterate]. repeat (split; [reflexivity|]). apply linspace_grid. reflexivity.
Qed.

(* Without a grid sandwich gives F x F^+ with F = E(a O), whatever shift is: the adjoint stands on the other side than documented,
   and than on a grid (C60_sandwich). *)
Theorem C60_sandwich_single : forall n K E o x shift, exponential_on n K E -> grid o = None -> iterate o = false ->
  K (shifted (a o) (Op o) None) -> rows x = n -> cols x = n -> knd x <> KVec ->
  exists y, sandwich n E o x shift = One y /\ between n (mat_H (E (shifted (a o) (Op o) None))) x y.
Proof.
  intros n K E o x shift L HG HI HK Hr Hc Hv. set (S := shifted (a o) (Op o) None) in *.
  assert (H1 : same n S (exponent (a o) (Op o) None)) by (apply same_sym, exponent_shifted).
  assert (HE : same n (E (exponent (a o) (Op o) None)) (E S)) by (intros i j Hi Hj; symmetry; now apply (E_same _ _ _ L)).
  assert (HT : same n (E (mat_T (exponent (Cconj (a o)) (mat_H (Op o)) None))) (mat_conj (E S))).
  { intros i j Hi Hj. rewrite <- (E_conj _ _ _ L S HK i j Hi Hj). symmetry. apply (E_same _ _ _ L); [now apply (K_conj _ _ _ L)| |exact Hi|exact Hj].
    intros i' j' Hi' Hj'. unfold mat_conj. rewrite H1 by assumption. unfold exponent, mat_scale, mat_T, mat_H. now rewrite Cconj_mul. }
  exists (opT (mulE n E (mat_T (exponent (Cconj (a o)) (mat_H (Op o)) None)) (opT (mulE n E (exponent (a o) (Op o) None) x)))). split.
  { unfold sandwich. rewrite Hr, Hc, Nat.eqb_refl, HG, HI. destruct (knd x); [congruence|reflexivity..]. }
  unfold between, mulE, on_parts, opT. destruct (knd x) eqn:EK; [congruence|..]; cbn [knd rows cols parts]; rewrite ?EK; cbn [knd rows cols parts];
    rewrite ?map_length; repeat (split; [reflexivity|]); intros p Hp i j Hi Hj; rewrite !nth_map0 by (rewrite ?map_length; exact Hp); unfold mat_T at 1;
    unfold mat_mul at 1 3; apply Csum_ext; intros k Hk; apply in_seq in Hk; rewrite HT by lia; unfold mat_T, mat_conj, mat_H;
    rewrite (mul_agree n _ (E S) _ _ HE (fun i j _ => eq_refl) i k Hi);
    (assert (HH : mat_mul n (fun i0 j0 => Cconj (Cconj (E S i0 j0))) (nth p (parts x) Z0) i k = mat_mul n (E S) (nth p (parts x) Z0) i k) by (apply Csum_ext; intros; now rewrite Cconj_invol));
    rewrite HH; ring.
Qed.
Print Assumptions C60_sandwich_single.

(* Operands whose dimension does not fit are refused with ValueError by all three methods, with and without grid and iterate. *)
Theorem C60_shapes : forall n E o x shift,
  (rows x <> n -> dot n E o x shift = Error ValueError) /\
  (match knd x with KVec => rows x | _ => cols x end <> n -> rdot n E o x shift = Error ValueError) /\
  (knd x = KVec \/ rows x <> n \/ cols x <> n -> sandwich n E o x shift = Error ValueError).
Proof.
  intros n E o x shift. unfold dot, rdot, sandwich. split; [|split].
  - intro H. apply Nat.eqb_neq in H. now rewrite H.
  - intro H. apply Nat.eqb_neq in H. now rewrite H.
  - intros [->|H]; [reflexivity|]. destruct (Nat.eqb_spec (rows x) (cols x)) as [E1|E1], (Nat.eqb_spec (rows x) n) as [E2|E2]; cbn [negb]; destruct (knd x); try reflexivity; destruct H; congruence.
Qed.
Print Assumptions C60_shapes.
