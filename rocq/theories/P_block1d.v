(* Sums over a finite group of translations and inversions acting on states with signs: covariance of symmetrised vectors,
   their scalar products, and operators that commute with the group. *)
From Verif Require Import AuxN SpecC SpecOps.
Local Open Scope nat_scope.

Definition head := (bool * bool)%type.
Definition hx (g h : head) : head := (xorb (fst g) (fst h), xorb (snd g) (snd h)).
Definition h0 : head := (false, false).
Lemma hx_0 h : hx h0 h = h. Proof. destruct h as [[|] [|]]; reflexivity. Qed.
Lemma hx_0r h : hx h h0 = h. Proof. destruct h as [[|] [|]]; reflexivity. Qed.
Lemma hx_hx g h : hx g (hx g h) = h. Proof. destruct g as [[|] [|]], h as [[|] [|]]; reflexivity. Qed.
Lemma hx_self g : hx g g = h0. Proof. destruct g as [[|] [|]]; reflexivity. Qed.
Lemma hx_comm g h : hx g h = hx h g. Proof. destruct g as [[|] [|]], h as [[|] [|]]; reflexivity. Qed.
Lemma hx_assoc g h k : hx g (hx h k) = hx (hx g h) k. Proof. destruct g as [[|] [|]], h as [[|] [|]], k as [[|] [|]]; reflexivity. Qed.

Section Z.
Variable n : nat.
Hypothesis Hn : 1 <= n.
Notation nz := (Z.of_nat n).
Definition zs : list Z := map Z.of_nat (seq 0 n).
Lemma zs_in r : In r zs <-> (0 <= r < nz)%Z.
Proof. unfold zs. rewrite in_map_iff. split; [intros (x & <- & H); apply in_seq in H; lia|]. intros H. exists (Z.to_nat r). split; [lia|]. apply in_seq. lia. Qed.
Lemma zs_nodup : NoDup zs.
Proof. unfold zs. apply FinFun.Injective_map_NoDup; [intros x y; apply Nat2Z.inj|apply seq_NoDup]. Qed.
Lemma zs_len : length zs = n. Proof. unfold zs. rewrite map_length. apply seq_length. Qed.
Definition periodic (f : Z -> C) : Prop := forall r, f (r + nz)%Z = f r.
Lemma per_add f : periodic f -> forall (m : nat) r, f (r + Z.of_nat m * nz)%Z = f r.
Proof. intros P. induction m as [|m IH]; intros r; [f_equal; lia|]. replace (r + Z.of_nat (S m) * nz)%Z with (r + Z.of_nat m * nz + nz)%Z by lia. rewrite P. apply IH. Qed.
Lemma per_mod f : periodic f -> forall r, f (r mod nz)%Z = f r.
Proof.
  intros P r. pose proof (Z.div_mod r nz ltac:(lia)) as D. destruct (Z.le_gt_cases 0 (r / nz)) as [H|H].
  - rewrite D at 2. rewrite <- (per_add f P (Z.to_nat (r / nz)) (r mod nz)%Z). f_equal. rewrite Z2Nat.id by lia. lia.
  - rewrite <- (per_add f P (Z.to_nat (- (r / nz))) r). f_equal. rewrite Z2Nat.id by lia. lia.
Qed.
Lemma map_nodup {A B} (f : A -> B) l : (forall x y, In x l -> In y l -> f x = f y -> x = y) -> NoDup l -> NoDup (map f l).
Proof.
  intros I H. induction H as [|x l Hx H IH]; [constructor|]. cbn [map]. constructor.
  - intros Y. apply in_map_iff in Y. destruct Y as (y & E & Hy). assert (y = x) by (apply I; [right; exact Hy|left; reflexivity|exact E]). subst. contradiction.
  - apply IH. intros a b Ha Hb. apply I; right; assumption.
Qed.
Lemma reindex (phi : Z -> Z) f : (forall x y, In x zs -> In y zs -> ((phi x - phi y) mod nz = 0)%Z -> x = y) -> periodic f ->
  Csum zs (fun r => f (phi r)) = Csum zs f.
Proof.
  intros I P. rewrite (Csum_ext zs _ (fun r => f (phi r mod nz)%Z)) by (intros; symmetry; apply per_mod, P).
  rewrite <- (Csum_map (fun r => (phi r mod nz)%Z) zs f). apply Csum_perm. apply NoDup_Permutation_bis.
  - apply map_nodup; [|apply zs_nodup]. intros x y Hx Hy E. apply I; [exact Hx|exact Hy|]. rewrite Zminus_mod, E, Z.sub_diag. apply Z.mod_0_l. lia.
  - rewrite map_length. reflexivity.
  - intros r Hr. apply in_map_iff in Hr. destruct Hr as (x & <- & _). apply zs_in. apply Z.mod_pos_bound. lia.
Qed.
Lemma small_mod x y : In x zs -> In y zs -> ((x - y) mod nz = 0)%Z -> x = y.
Proof.
  intros Hx Hy E. apply zs_in in Hx. apply zs_in in Hy. apply Z.mod_divide in E; [|lia]. destruct E as [z Ez].
  assert (z = 0)%Z by nia. subst. lia.
Qed.
Definition sg (e : bool) (r : Z) : Z := if e then (- r)%Z else r.
Lemma reindex_sg e x f : periodic f -> Csum zs (fun r => f (x + sg e r)%Z) = Csum zs f.
Proof.
  intros P. apply (reindex (fun r => x + sg e r)%Z f); [|exact P]. intros a b Ha Hb E. destruct e; cbn [sg] in E.
  - symmetry. apply small_mod; [exact Hb|exact Ha|]. rewrite <- E. f_equal. lia.
  - apply small_mod; [exact Ha|exact Hb|]. rewrite <- E. f_equal. lia.
Qed.
End Z.

(* a group of translations and heads acting with signs *)
Record grp (n M : nat) (Hs : list head) (eps : head -> bool) (chi : head -> R) (X : Z -> head -> N -> N) (G : Z -> head -> N -> Z) : Prop := {
  g_Hn : 1 <= n;
  g_Hnd : NoDup Hs;
  g_H0 : In h0 Hs;
  g_Hcl : forall g h, In g Hs -> In h Hs -> In (hx g h) Hs;
  g_Eh : forall g h, eps (hx g h) = xorb (eps g) (eps h);
  g_Ch : forall g h, In g Hs -> In h Hs -> chi (hx g h) = (chi g * chi h)%R;
  g_C2 : forall g, In g Hs -> (chi g * chi g = 1)%R;
  g_XD : forall r h s, In h Hs -> (s < N.of_nat M)%N -> (X r h s < N.of_nat M)%N;
  g_Xn : forall r h s, In h Hs -> (s < N.of_nat M)%N -> X (r + Z.of_nat n)%Z h s = X r h s;
  g_Gn : forall r h s, In h Hs -> (s < N.of_nat M)%N -> G (r + Z.of_nat n)%Z h s = G r h s;
  g_X0 : forall s, (s < N.of_nat M)%N -> X 0%Z h0 s = s;
  g_Xm : forall r h r' h' s, In h Hs -> In h' Hs -> (s < N.of_nat M)%N -> X r' h' (X r h s) = X (r + sg (eps h) r')%Z (hx h h') s;
  g_Gm : forall r h r' h' s, In h Hs -> In h' Hs -> (s < N.of_nat M)%N -> (G r h s * G r' h' (X r h s))%Z = G (r + sg (eps h) r')%Z (hx h h') s;
  g_Gu : forall r h s, In h Hs -> (s < N.of_nat M)%N -> (G r h s * G r h s = 1)%Z
}.
Section Grp.
Variables (n M : nat).
Notation nz := (Z.of_nat n).
Notation zs := (zs n).
Notation D := (fun s : N => (s < N.of_nat M)%N).
Variables (Hs : list head) (eps : head -> bool) (chi : head -> R).
Variables (X : Z -> head -> N -> N) (G : Z -> head -> N -> Z).
Hypothesis GR : grp n M Hs eps chi X G.
Let Hn := g_Hn _ _ _ _ _ _ _ GR.
Let Hnd := g_Hnd _ _ _ _ _ _ _ GR.
Let H0 := g_H0 _ _ _ _ _ _ _ GR.
Let Hcl := g_Hcl _ _ _ _ _ _ _ GR.
Let Eh := g_Eh _ _ _ _ _ _ _ GR.
Let Ch := g_Ch _ _ _ _ _ _ _ GR.
Let C2 := g_C2 _ _ _ _ _ _ _ GR.
Let XD := g_XD _ _ _ _ _ _ _ GR.
Let Xn := g_Xn _ _ _ _ _ _ _ GR.
Let Gn := g_Gn _ _ _ _ _ _ _ GR.
Let X0 := g_X0 _ _ _ _ _ _ _ GR.
Let Xm := g_Xm _ _ _ _ _ _ _ GR.
Let Gm := g_Gm _ _ _ _ _ _ _ GR.
Let Gu := g_Gu _ _ _ _ _ _ _ GR.

Lemma e0 : eps h0 = false.
Proof. pose proof (Eh h0 h0) as E. rewrite hx_0 in E. destruct (eps h0); [discriminate|reflexivity]. Qed.
Lemma c0 : chi h0 = 1%R.
Proof. pose proof (Ch h0 h0 H0 H0) as E. rewrite hx_0 in E. rewrite E. apply C2, H0. Qed.
Lemma G0 s : D s -> G 0 h0 s = 1%Z.
Proof.
  intros Hs0. pose proof (Gm 0 h0 0 h0 s H0 H0 Hs0) as E. rewrite (X0 s Hs0), e0, hx_0 in E. cbn [sg] in E. rewrite Z.add_0_l in E. pose proof (Gu 0 h0 s H0 Hs0) as U. congruence.
Qed.
Definition Gc r h s : C := RtoC (IZR (G r h s)).
Lemma Gc2 r h s : In h Hs -> D s -> (Gc r h s * Gc r h s)%C = C1.
Proof. intros Hh Hd. unfold Gc. rewrite <- RtoC_mul, <- mult_IZR, Gu by assumption. reflexivity. Qed.
(* the inverse of an element *)
Lemma inv_l r h s : In h Hs -> D s -> X (- sg (eps h) r) h (X r h s) = s.
Proof.
  intros Hh Hd. rewrite Xm by assumption. rewrite hx_self. replace (r + sg (eps h) (- sg (eps h) r))%Z with 0%Z by (destruct (eps h); cbn [sg]; lia). apply X0, Hd.
Qed.
Lemma X_inj r h s t : In h Hs -> D s -> D t -> X r h s = X r h t -> s = t.
Proof. intros Hh Hd Ht E. rewrite <- (inv_l r h s), <- (inv_l r h t) by assumption. rewrite E. reflexivity. Qed.
Definition U r h s t : C := if (X r h s =? t)%N then Gc r h s else C0.
Definition ch (h : head) : C := RtoC (chi h).
Lemma ch2 h : In h Hs -> (ch h * ch h)%C = C1. Proof. intros H. unfold ch. rewrite <- RtoC_mul, C2 by exact H. reflexivity. Qed.
Definition V (c : Z -> C) (s t : N) : C := Csum zs (fun r => Csum Hs (fun h => c r * ch h * U r h s t)%C).

Lemma reindex_h g (f : head -> C) : In g Hs -> Csum Hs (fun h => f (hx g h)) = Csum Hs f.
Proof.
  intros Hg. rewrite <- (Csum_map (hx g) Hs f). apply Csum_perm. apply NoDup_Permutation_bis.
  - apply map_nodup; [|exact Hnd]. intros x y _ _ E. rewrite <- (hx_hx g x), E. apply hx_hx.
  - rewrite map_length. reflexivity.
  - intros r Hr. apply in_map_iff in Hr. destruct Hr as (x & <- & Hx). apply Hcl; assumption.
Qed.
Lemma U_per h s t : In h Hs -> D s -> periodic n (fun r => U r h s t).
Proof. intros Hh Hd r. unfold U, Gc. rewrite Xn, Gn by assumption. reflexivity. Qed.

(* moving the state along the group *)
Lemma V_move c r0 g s t : periodic n c -> In g Hs -> D s ->
  V c (X r0 g s) t = (Gc r0 g s * ch g * V (fun r => c (sg (eps g) (r - r0))) s t)%C.
Proof.
  intros P Hg Hd. unfold V. rewrite <- Csum_mul_l.
  assert (P1 : periodic n (fun r => c (sg (eps g) (r - r0)))).
  { intros r. destruct (eps g); cbn [sg]; [rewrite <- (P (- (r + nz - r0))%Z)|rewrite <- (P (r - r0)%Z)]; f_equal; lia. }
  rewrite <- (reindex_sg n Hn (eps g) r0 (fun r => Gc r0 g s * ch g * Csum Hs (fun h => c (sg (eps g) (r - r0)) * ch h * U r h s t))%C).
  2:{ intros r. f_equal. apply Csum_ext. intros h Hh. pose proof (P1 r) as E1. cbv beta in E1. rewrite E1, (U_per h s t Hh Hd r). reflexivity. }
  apply Csum_ext. intros r _. cbv beta. rewrite <- (reindex_h g (fun h => c (sg (eps g) (r0 + sg (eps g) r - r0)) * ch h * U (r0 + sg (eps g) r) h s t)%C Hg), <- Csum_mul_l. apply Csum_ext. intros h Hh.
  replace (sg (eps g) (r0 + sg (eps g) r - r0))%Z with r by (destruct (eps g); cbn [sg]; lia).
  unfold U. rewrite <- Xm by assumption. replace (ch (hx g h)) with (ch g * ch h)%C by (unfold ch; rewrite Ch by assumption; symmetry; apply RtoC_mul).
  unfold Gc. rewrite <- Gm by assumption. rewrite mult_IZR, RtoC_mul. fold (Gc r0 g s). fold (Gc r h (X r0 g s)).
  destruct (X r h (X r0 g s) =? t)%N; [|ring].
  transitivity (Gc r0 g s * Gc r0 g s * (ch g * ch g) * (c r * ch h * Gc r h (X r0 g s)))%C; [rewrite Gc2, ch2 by assumption; ring|ring].
Qed.
(* the amplitude at a moved place *)
Lemma V_at c s' r h t : periodic n c -> In h Hs -> D s' -> D t ->
  V c s' (X r h t) = (Gc r h t * ch h * Csum zs (fun x => Csum Hs (fun g => c (x + sg (eps g) r)%Z * ch g * U x g s' t)))%C.
Proof.
  intros P Hh Hd Ht. unfold V. rewrite Csum_swap, (Csum_swap zs Hs (fun x g => c (x + sg (eps g) r)%Z * ch g * U x g s' t)%C).
  rewrite <- (reindex_h h _ Hh), <- Csum_mul_l. apply Csum_ext. intros g Hg. rewrite (hx_comm h g).
  rewrite <- (reindex_sg n Hn false (sg (eps g) r) (fun x => c x * ch (hx g h) * U x (hx g h) s' (X r h t))%C).
  2:{ intros x. rewrite (P x), (U_per (hx g h) s' (X r h t) (Hcl g h Hg Hh) Hd x). reflexivity. }
  rewrite <- Csum_mul_l. apply Csum_ext. intros x _. cbn [sg]. rewrite (Z.add_comm (sg (eps g) r) x).
  unfold U. rewrite <- Xm by assumption. replace (ch (hx g h)) with (ch g * ch h)%C by (unfold ch; rewrite Ch by assumption; symmetry; apply RtoC_mul).
  unfold Gc at 1. rewrite <- Gm by assumption. rewrite mult_IZR, RtoC_mul. fold (Gc x g s'). fold (Gc r h (X x g s')).
  destruct (N.eqb_spec (X x g s') t) as [->|Hd'].
  - rewrite N.eqb_refl. ring.
  - destruct (N.eqb_spec (X r h (X x g s')) (X r h t)) as [E|]; [|ring]. exfalso. apply Hd'. apply (X_inj r h); try assumption. apply XD; assumption.
Qed.

Notation sts := (all_states M).
Lemma sts_in s : In s sts <-> D s.
Proof. unfold all_states. rewrite in_map_iff. split; [intros (x & <- & H); apply in_seq in H; lia|]. intros H. exists (N.to_nat s). split; [lia|]. apply in_seq. lia. Qed.
Lemma sts_nodup : NoDup sts.
Proof. unfold all_states. apply map_nodup; [|apply seq_NoDup]. intros x y _ _ E. lia. Qed.
Definition dotv (u v : N -> C) : C := Csum sts (fun t => Cconj (u t) * v t)%C.
Lemma dot_V c s (psi : N -> C) : D s -> dotv (V c s) psi = Csum zs (fun r => Csum Hs (fun h => Cconj (c r) * ch h * Gc r h s * psi (X r h s)))%C.
Proof.
  intros Hd. unfold dotv, V.
  transitivity (Csum sts (fun t => Csum zs (fun r => Csum Hs (fun h => Cconj (c r) * ch h * Cconj (U r h s t) * psi t))))%C.
  { apply Csum_ext. intros t _. rewrite Csum_conj, <- Csum_mul_r. apply Csum_ext. intros r _. rewrite Csum_conj, <- Csum_mul_r. apply Csum_ext. intros h _.
    rewrite !Cconj_mul. unfold ch. rewrite Cconj_RtoC. reflexivity. }
  rewrite Csum_swap. apply Csum_ext. intros r _. rewrite Csum_swap. apply Csum_ext. intros h Hh.
  rewrite (Csum_single sts _ (X r h s) sts_nodup); [|apply sts_in, XD; assumption|].
  - unfold U. rewrite N.eqb_refl. unfold Gc. rewrite Cconj_RtoC. reflexivity.
  - intros t _ Nt. unfold U. destruct (N.eqb_spec (X r h s) t); [congruence|]. replace (Cconj C0) with C0 by (apply C_eq; cbn; ring). ring.
Qed.
Definition K (c c' : Z -> C) (e : bool) (x : Z) : C := Csum zs (fun r => Cconj (c r) * c' (x + sg e r)%Z)%C.
Lemma dot_VV c c' s s' : periodic n c' -> D s -> D s' ->
  dotv (V c s) (V c' s') = (RtoC (INR (length Hs)) * Csum Hs (fun g => Csum zs (fun x => ch g * U x g s' s * K c c' (eps g) x)))%C.
Proof.
  intros P Hd Hd'. rewrite dot_V by exact Hd.
  transitivity (Csum zs (fun r => Csum Hs (fun h => Csum zs (fun x => Csum Hs (fun g => Cconj (c r) * c' (x + sg (eps g) r)%Z * ch g * U x g s' s)))))%C.
  { apply Csum_ext. intros r _. apply Csum_ext. intros h Hh. rewrite V_at by assumption.
    transitivity (Gc r h s * Gc r h s * (ch h * ch h) * (Cconj (c r) * Csum zs (fun x => Csum Hs (fun g => c' (x + sg (eps g) r)%Z * ch g * U x g s' s))))%C; [ring|].
    rewrite Gc2, ch2 by assumption. rewrite <- Csum_mul_l. transitivity (Csum zs (fun x => Cconj (c r) * Csum Hs (fun g => c' (x + sg (eps g) r)%Z * ch g * U x g s' s)))%C; [ring|].
    apply Csum_ext. intros x _. rewrite <- Csum_mul_l. apply Csum_ext. intros g _. ring. }
  rewrite Csum_swap.
  transitivity (Csum Hs (fun _ : head => C1 * Csum Hs (fun g => Csum zs (fun x => ch g * U x g s' s * K c c' (eps g) x))))%C.
  { apply Csum_ext. intros h _. rewrite Csum_swap. rewrite (Csum_swap Hs zs). transitivity (C1 * Csum zs (fun x => Csum Hs (fun g => ch g * U x g s' s * K c c' (eps g) x)))%C; [|f_equal; reflexivity].
    transitivity (Csum zs (fun x => Csum Hs (fun g => ch g * U x g s' s * K c c' (eps g) x)))%C; [|ring]. apply Csum_ext. intros x _.
    rewrite Csum_swap. apply Csum_ext. intros g _. unfold K. rewrite <- Csum_mul_l. apply Csum_ext. intros r _. ring. }
  rewrite Csum_mul_r, Csum_const. reflexivity.
Qed.
(* different orbits *)
Lemma dot_orbits c c' s s' : periodic n c' -> D s -> D s' -> (forall x g, In g Hs -> X x g s' <> s) -> dotv (V c s) (V c' s') = C0.
Proof.
  intros P Hd Hd' Ho. rewrite dot_VV by assumption. rewrite (Csum_zero Hs); [ring|]. intros g Hg. apply Csum_zero. intros x _. unfold U.
  destruct (N.eqb_spec (X x g s') s) as [E|]; [destruct (Ho x g Hg E)|ring].
Qed.

(* operators that commute with the group *)
Definition commutes (A : cmat) : Prop := forall r h s t, In h Hs -> D s -> D t -> (Gc r h t * Gc r h s * A (X r h t) (X r h s))%C = A t s.
Lemma A_V A c s t : commutes A -> periodic n c -> D s -> D t -> Csum sts (fun u => A t u * V c s u)%C = Csum sts (fun s' => A s' s * V c s' t)%C.
Proof.
  intros HA P Hd Ht. unfold V.
  transitivity (Csum zs (fun r => Csum Hs (fun h => c r * ch h * (Gc r h s * A t (X r h s))))%C).
  { transitivity (Csum sts (fun u => Csum zs (fun r => Csum Hs (fun h => A t u * (c r * ch h * U r h s u)))))%C.
    { apply Csum_ext. intros u _. rewrite <- Csum_mul_l. apply Csum_ext. intros r _. rewrite <- Csum_mul_l. reflexivity. }
    rewrite Csum_swap. apply Csum_ext. intros r _. rewrite Csum_swap. apply Csum_ext. intros h Hh.
    rewrite (Csum_single sts _ (X r h s) sts_nodup); [|apply sts_in, XD; assumption|].
    - unfold U. rewrite N.eqb_refl. ring.
    - intros u _ Nu. unfold U. destruct (N.eqb_spec (X r h s) u); [congruence|ring]. }
  transitivity (Csum sts (fun s' => Csum zs (fun r => Csum Hs (fun h => A s' s * (c r * ch h * U r h s' t)))))%C.
  2:{ apply Csum_ext. intros u _. rewrite <- Csum_mul_l. apply Csum_ext. intros r _. rewrite <- Csum_mul_l. reflexivity. }
  rewrite (Csum_swap sts zs). apply Csum_ext. intros r _. rewrite (Csum_swap sts Hs). apply Csum_ext. intros h Hh.
  set (s' := X (- sg (eps h) r) h t). assert (Ds : D s') by (apply XD; assumption).
  assert (E : X r h s' = t).
  { unfold s'. rewrite Xm by assumption. rewrite hx_self. replace (- sg (eps h) r + sg (eps h) r)%Z with 0%Z by lia. apply X0, Ht. }
  rewrite (Csum_single sts _ s' sts_nodup); [|apply sts_in, Ds|].
  - unfold U. rewrite E, N.eqb_refl. rewrite <- (HA r h s s') by assumption. rewrite E.
    transitivity (Gc r h s' * Gc r h s' * (c r * ch h * (Gc r h s * A t (X r h s))))%C; [rewrite Gc2 by assumption; ring|ring].
  - intros u Hu Nu. apply sts_in in Hu. unfold U. destruct (N.eqb_spec (X r h u) t) as [Eu|]; [|ring]. exfalso. apply Nu. apply (X_inj r h); try assumption. congruence.
Qed.
End Grp.
