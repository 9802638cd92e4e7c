(* Proofs about operator strings. *)
From Verif Require Import AuxN SpecC SpecDigits SpecMaps SpecOps M_ops P_boson P_maps.
Local Open Scope nat_scope.

Lemma Czero_true m : Czero m = true <-> m = C0.
Proof.
  unfold Czero, Rzero. destruct m as [x y]. cbn [fst snd].
  destruct (Req_EM_T x 0) as [Hx|Hx], (Req_EM_T y 0) as [Hy|Hy]; cbn; split; intros E; try discriminate; try (subst; reflexivity);
    injection E; intros; contradiction.
Qed.
Lemma Cmul_0_l a : (C0 * a)%C = C0. Proof. ring. Qed.
Lemma Cmul_0_r a : (a * C0)%C = C0. Proof. ring. Qed.

Lemma In_all_states M s : In s (all_states M) <-> (s < N.of_nat M)%N.
Proof.
  unfold all_states. rewrite in_map_iff. split.
  - intros (k & <- & Hk). apply in_seq in Hk. lia.
  - intros H. exists (N.to_nat s). split; [lia|]. apply in_seq. lia.
Qed.
Lemma NoDup_all_states M : NoDup (all_states M).
Proof. unfold all_states. apply FinFun.Injective_map_NoDup; [intros a b H; lia|apply seq_NoDup]. Qed.

(* column s of A has the single entry a in row r *)
Definition mono (M : nat) (A : cmat) (s r : N) (a : C) : Prop :=
  (r < N.of_nat M)%N /\ forall t, (t < N.of_nat M)%N -> A t s = if (t =? r)%N then a else C0.

Lemma mono_mul M A B s k r a b : mono M B s k b -> mono M A k r a -> mono M (mmul M A B) s r (a * b)%C.
Proof.
  intros [Hk HB] [Hr HA]. split; [assumption|]. intros t Ht. unfold mmul.
  rewrite (Csum_single _ _ k (NoDup_all_states M)); [|apply In_all_states; assumption|].
  - rewrite HA, HB, N.eqb_refl by assumption. destruct (t =? r)%N; [reflexivity|ring].
  - intros x Hx Nx. apply In_all_states in Hx. rewrite HB by assumption.
    destruct (N.eqb_spec x k) as [->|_]; [contradiction|ring].
Qed.

Section Generic.
Variables (M : nat) (local : ascii -> nat -> N -> option (N * C)) (mat : ascii -> nat -> cmat) (ok : ascii * nat -> Prop).
Hypothesis Hloc : forall o i r, ok (o, i) -> (r < N.of_nat M)%N -> exists r' f, local o i r = Some (r', f) /\ mono M (mat o i) r r' f.

(* without early exit *)
Fixpoint run (l : list (ascii * nat)) (x : N * C) : N * C :=
  match l with
  | [] => x
  | (o, i) :: l' => let y := run l' x in
      match local o i (fst y) with Some (r', f) => (r', (snd y * f)%C) | None => y end
  end.

Lemma run_mono l s m : Forall ok l -> (s < N.of_nat M)%N ->
  exists a, mono M (string_matrix M mat l) s (fst (run l (s, m))) a /\ snd (run l (s, m)) = (m * a)%C.
Proof.
  induction l as [|[o i] l IH]; intros Hl Hs.
  - exists C1. cbn [run fst snd]. split; [|ring]. split; [assumption|]. intros t Ht. cbn. unfold mident. reflexivity.
  - inversion Hl as [|? ? H1 H2]; subst. destruct (IH H2 Hs) as (a & Ha & Ea). cbn [run]. cbv zeta.
    destruct (Hloc o i (fst (run l (s, m))) H1 (proj1 Ha)) as (r' & f & E & Hf). rewrite E. cbn [fst snd].
    exists (f * a)%C. split; [|rewrite Ea; ring]. unfold string_matrix. cbn [fold_right fst snd]. fold (string_matrix M mat l).
    eapply mono_mul; eassumption.
Qed.

Lemma run_app l l' x : run (l ++ l') x = run l (run l' x).
Proof. induction l as [|[o i] l IH]; [reflexivity|]. cbn [app run]. rewrite IH. reflexivity. Qed.

Lemma run_zero l r : snd (run l (r, C0)) = C0.
Proof.
  induction l as [|[o i] l IH]; [reflexivity|]. cbn [run]. cbv zeta.
  destruct (local o i (fst (run l (r, C0)))) as [[r' f]|]; [cbn [snd]; rewrite IH; ring|exact IH].
Qed.

Lemma loop_run s rl : Forall ok rl -> forall r m, (r < N.of_nat M)%N ->
  exists r' m', op_loop local s rl r m = Some (r', m') /\
    ((r', m') = run (rev rl) (r, m) \/ (r' = s /\ m' = C0 /\ snd (run (rev rl) (r, m)) = C0)).
Proof.
  induction rl as [|[o i] rl IH]; intros Hl r m Hr.
  - exists r, m. split; [reflexivity|left; reflexivity].
  - inversion Hl as [|? ? H1 H2]; subst. cbn [op_loop]. destruct (Hloc o i r H1 Hr) as (r1 & f & E & Hf). rewrite E. cbv zeta.
    assert (ER : run (rev ((o, i) :: rl)) (r, m) = run (rev rl) (r1, (m * f)%C)).
    { cbn [rev]. rewrite run_app. f_equal. cbn [run fst snd]. rewrite E. reflexivity. }
    destruct (Czero (m * f)%C) eqn:Z.
    + apply Czero_true in Z. exists s, (m * f)%C. split; [reflexivity|]. right. split; [reflexivity|]. split; [assumption|].
      rewrite ER, Z. apply run_zero.
    + destruct (IH H2 r1 (m * f)%C (proj1 Hf)) as (r' & m' & E' & C). exists r', m'. split; [assumption|]. rewrite ER. exact C.
Qed.

Lemma loop_acts l : Forall ok l -> acts_as M (fun s m => op_loop local s (rev l) s m) (string_matrix M mat l).
Proof.
  intros Hl s m Hs. destruct (loop_run s (rev l) (Forall_rev Hl) s m Hs) as (r' & m' & E & C). rewrite rev_involutive in C.
  destruct (run_mono l s m Hl Hs) as (a & [Ha1 Ha2] & Ea).
  exists r', m'. split; [assumption|]. destruct C as [C|(-> & -> & C)].
  - rewrite <- C in Ha1, Ha2, Ea. cbn [fst snd] in *. split; [assumption|]. intros t Ht. rewrite Ha2 by assumption.
    destruct (t =? r')%N; [symmetry; assumption|ring].
  - split; [assumption|]. intros t Ht. rewrite Ha2 by assumption. rewrite C in Ea.
    destruct (t =? fst (run l (s, m)))%N, (t =? s)%N; try reflexivity; try ring; rewrite <- Ea; reflexivity.
Qed.
End Generic.

(* ---- changing one site ---- *)
Section Site.
Variable B : N.
Hypothesis HB : (2 <= B)%N.
Local Open Scope N_scope.

Definition set_site (n i : nat) (r v : N) : N := r + v * B ^ N.of_nat (n - i - 1) - site_val B n r i * B ^ N.of_nat (n - i - 1).

Lemma site_val_lt n r i : site_val B n r i < B. Proof. apply digit_lt; assumption. Qed.

Lemma set_digits p r v : v < B ->
  let t := r + v * B ^ N.of_nat p - digit B r p * B ^ N.of_nat p in
  (forall j, digit B t j = if (j =? p)%nat then v else digit B r j) /\
  (forall n, (p < n)%nat -> r < B ^ N.of_nat n -> t < B ^ N.of_nat n).
Proof.
  intros Hv t.
  destruct (split_low B HB r p) as (a & x & Ha & Er & _ & Ex).
  assert (Ed : digit B r p = x mod B) by (unfold digit; rewrite Ex; reflexivity).
  set (y := x / B). assert (Exy : x = x mod B + B * y) by (unfold y; pose proof (N.div_mod x B); lia).
  set (o := x mod B) in *. assert (Ho : o < B) by (apply N.mod_lt; lia).
  set (P := B ^ N.of_nat p) in *. assert (HP : 0 < P) by (apply Bpos; assumption).
  assert (Et : t = a + P * (v + B * y)).
  { unfold t. rewrite Ed, Er. rewrite Exy at 1. clear - HP. nia. }
  split.
  - intros j. rewrite Et. unfold P. rewrite digit_split by assumption. rewrite Er. unfold P. rewrite digit_split by assumption.
    destruct (Nat.ltb_spec j p) as [L|L]; [destruct (Nat.eqb_spec j p); [lia|reflexivity]|].
    assert (D : forall u k, u < B -> digit B (u + B * y) k = if (k =? 0)%nat then u else digit B y (k - 1)).
    { intros u k Hu. pose proof (digit_split B HB u y 1 k) as DS. rewrite pw1 in DS by assumption.
      rewrite (DS Hu). destruct k as [|k]; [cbn; apply digit_small; assumption|]. destruct (Nat.ltb_spec (S k) 1); [lia|]. reflexivity. }
    rewrite Exy. rewrite !D by assumption. destruct (Nat.eqb_spec j p) as [->|Ne].
    + rewrite Nat.sub_diag. reflexivity.
    + destruct (Nat.eqb_spec (j - p) 0); [lia|reflexivity].
  - intros n Hn Hr. rewrite Et.
    assert (E1 : B ^ N.of_nat n = P * B * B ^ N.of_nat (n - p - 1)).
    { unfold P. rewrite (N.mul_comm _ B), <- powS, <- N.pow_add_r. f_equal. lia. }
    set (Q := B ^ N.of_nat (n - p - 1)) in *. assert (HQ : 0 < Q) by (apply Bpos; assumption).
    assert (Hy : y < Q). { rewrite E1, Er, Exy in Hr. clear - Hr Ho HP HB. apply N.nle_gt. intros C. nia. }
    rewrite E1. clear - Hy Ha Hv HP HB.
    assert (v + B * y + 1 <= B * Q) by nia. assert (P * (v + B * y + 1) <= P * (B * Q)) by (apply N.mul_le_mono_l; assumption). lia.
Qed.

Lemma set_site_lt n i r v : (i < n)%nat -> v < B -> r < B ^ N.of_nat n -> set_site n i r v < B ^ N.of_nat n.
Proof.
  intros Hi Hv Hr. unfold set_site, site_val. replace (n - i - 1)%nat with (n - 1 - i)%nat by lia.
  apply (proj2 (set_digits (n - 1 - i) r v Hv)); [lia|assumption].
Qed.
Lemma set_site_val n i r v j : (i < n)%nat -> (j < n)%nat -> v < B ->
  site_val B n (set_site n i r v) j = if (j =? i)%nat then v else site_val B n r j.
Proof.
  intros Hi Hj Hv. unfold set_site, site_val. replace (n - i - 1)%nat with (n - 1 - i)%nat by lia.
  rewrite (proj1 (set_digits (n - 1 - i) r v Hv)).
  destruct (Nat.eqb_spec (n - 1 - j) (n - 1 - i)), (Nat.eqb_spec j i); try lia; reflexivity.
Qed.

Lemma site_ext n s t : s < B ^ N.of_nat n -> t < B ^ N.of_nat n -> (forall j, (j < n)%nat -> site_val B n s j = site_val B n t j) -> s = t.
Proof.
  intros Hs Ht H. apply (digit_ext B HB n s t Hs Ht). intros k Hk. specialize (H (n - 1 - k)%nat ltac:(lia)). unfold site_val in H.
  replace (n - 1 - (n - 1 - k))%nat with k in H by lia. exact H.
Qed.

Lemma same_except_spec n i r s : same_except B n i r s = true <-> (forall j, (j < n)%nat -> j <> i -> site_val B n r j = site_val B n s j).
Proof.
  unfold same_except. rewrite forallb_forall. split; intros H j Hj.
  - intros Ne. specialize (H j ltac:(apply in_seq; lia)). apply orb_true_iff in H. destruct H as [H|H]; [apply Nat.eqb_eq in H; contradiction|apply N.eqb_eq; exact H].
  - apply in_seq in Hj. apply orb_true_iff. destruct (Nat.eqb_spec j i) as [E|E]; [left; reflexivity|right; apply N.eqb_eq; apply H; lia].
Qed.

Lemma set_site_same n i r : (i < n)%nat -> r < B ^ N.of_nat n -> set_site n i r (site_val B n r i) = r.
Proof. intros. unfold set_site. lia. Qed.

(* a local matrix whose column at the present value has the single entry f in row v *)
Lemma site_mono n i (loc : N -> N -> C) r v f : (i < n)%nat -> r < B ^ N.of_nat n -> v < B ->
  (forall w, w < B -> loc w (site_val B n r i) = if w =? v then f else C0) ->
  mono (N.to_nat (B ^ N.of_nat n)) (site_matrix B n loc i) r (set_site n i r v) f.
Proof.
  intros Hi Hr Hv HL. unfold mono. rewrite N2Nat.id. split; [apply set_site_lt; assumption|]. intros t Ht. unfold site_matrix.
  destruct (same_except B n i t r) eqn:E.
  - rewrite HL by apply site_val_lt. pose proof (proj1 (same_except_spec n i t r) E) as F.
    destruct (N.eqb_spec t (set_site n i r v)) as [->|Ne].
    + rewrite set_site_val by assumption. rewrite Nat.eqb_refl, N.eqb_refl. reflexivity.
    + destruct (N.eqb_spec (site_val B n t i) v) as [Ev|_]; [|reflexivity]. destruct Ne. apply (site_ext n); [assumption|apply set_site_lt; assumption|].
      intros j Hj. rewrite set_site_val by assumption. destruct (Nat.eqb_spec j i) as [->|Nj]; [assumption|apply F; assumption].
  - destruct (N.eqb_spec t (set_site n i r v)) as [->|Ne]; [|reflexivity].
    enough (X : same_except B n i (set_site n i r v) r = true) by congruence.
    apply same_except_spec. intros j Hj Nj. rewrite set_site_val by assumption. destruct (Nat.eqb_spec j i); [contradiction|reflexivity].
Qed.
(* zero column *)
Lemma site_mono0 n i (loc : N -> N -> C) r r' : (i < n)%nat -> r < B ^ N.of_nat n -> r' < B ^ N.of_nat n ->
  (forall w, w < B -> loc w (site_val B n r i) = C0) ->
  mono (N.to_nat (B ^ N.of_nat n)) (site_matrix B n loc i) r r' C0.
Proof.
  intros Hi Hr Hr' HL. unfold mono. rewrite N2Nat.id. split; [assumption|]. intros t Ht. unfold site_matrix.
  destruct (same_except B n i t r), (t =? r'); try reflexivity; apply HL, site_val_lt.
Qed.
End Site.

(* ---- spin 1/2 ---- *)
Local Open Scope N_scope.
Lemma site_val2 n r i : (i < n)%nat -> site_val 2 n r i = N.b2n (N.testbit r (N.of_nat (n - i - 1))).
Proof. intros H. unfold site_val. rewrite digit2. replace (n - 1 - i)%nat with (n - i - 1)%nat by lia. reflexivity. Qed.

Lemma flip_set n i r : (i < n)%nat -> N.lxor r (N.shiftl 1 (N.of_nat (n - i - 1))) = set_site 2 n i r (1 - site_val 2 n r i).
Proof.
  intros Hi. unfold set_site. rewrite site_val2 by assumption. rewrite N.shiftl_1_l. set (p := N.of_nat (n - i - 1)). clearbody p.
  destruct (N.testbit r p) eqn:E; cbn [N.b2n].
  - change (1 - 1) with 0. rewrite N.mul_0_l, N.add_0_r, N.mul_1_l.
    assert (L : N.lxor (N.lxor r (2 ^ p)) (2 ^ p) = r) by (rewrite N.lxor_assoc, N.lxor_nilpotent, N.lxor_0_r; reflexivity).
    pose proof (lxor_add_disjoint (N.lxor r (2 ^ p)) 1 p) as A. rewrite N.shiftl_1_l, L, N.mul_1_l in A.
    rewrite A at 2; [lia| |lia]. left. rewrite N.lxor_spec, E, N.pow2_bits_true. reflexivity.
  - change (1 - 0) with 1. rewrite N.mul_1_l, N.mul_0_l, N.sub_0_r.
    pose proof (lxor_add_disjoint r 1 p) as A. rewrite N.shiftl_1_l, N.mul_1_l in A. apply A; [left; assumption|lia].
Qed.

Ltac destr_char o := destruct o as [[|] [|] [|] [|] [|] [|] [|] [|]].

Lemma hcb_local_mono n o i r : spin_known o -> (i < n)%nat -> r < 2 ^ N.of_nat n ->
  exists r' f, hcb_local n o i r = Some (r', f) /\
    mono (N.to_nat (2 ^ N.of_nat n)) (site_matrix 2 n (spin_half_site o) i) r r' f.
Proof.
  intros Ho Hi Hr. pose proof (flip_set n i r Hi) as FS. pose proof (set_site_same 2 ltac:(lia) n i r Hi Hr) as SS.
  pose proof (site_val2 n r i Hi) as SV. unfold hcb_local.
  set (a := N.testbit r (N.of_nat (n - i - 1))) in *. clearbody a. rewrite FS.
  assert (Hf : (1 - site_val 2 n r i) < 2) by lia. assert (Hs : site_val 2 n r i < 2) by (apply site_val_lt; lia).
  assert (W : forall w, w < 2 -> w = 0 \/ w = 1) by (intros; lia).
  unfold spin_known in Ho. cbn [In] in Ho.
  assert (T : forall f v, v < 2 -> (forall w, w < 2 -> spin_half_site o w (site_val 2 n r i) = if w =? v then f else C0) ->
    mono (N.to_nat (2 ^ N.of_nat n)) (site_matrix 2 n (spin_half_site o) i) r (set_site 2 n i r v) f).
  { intros f v Hv HL. apply site_mono; (assumption || lia). }
  assert (T2 := fun f => T f _ Hs). rewrite SS in T2. assert (T3 := fun f => T f _ Hf). clear T.
  rewrite SV in T2, T3 |- *. clear Hf Hs FS SS.
  destruct Ho as [<-|[<-|[<-|[<-|[<-|[<-|[<-|[]]]]]]]]; eexists _, _; (split; [reflexivity|]);
  [apply T2|apply T2|apply T2|apply T3|apply T3|apply T3|apply T3];
  intros w Hw; destruct (W w Hw) as [-> | ->]; destruct a; cbn [spin_half_site N.b2n N.eqb Pos.eqb andb N.sub Pos.sub_mask Pos.succ_double_mask Pos.double_mask Pos.double_pred_mask];
  try reflexivity; unfold half, Copp, Ci, Cmul; cbn [fst snd]; apply C_eq; cbn [fst snd]; lra.
Qed.

Lemma hcb_op_acts n l : Forall (fun oi => spin_known (fst oi) /\ (snd oi < n)%nat) l ->
  acts_as (N.to_nat (2 ^ N.of_nat n)) (hcb_op n l) (string_matrix (N.to_nat (2 ^ N.of_nat n)) (fun o => site_matrix 2 n (spin_half_site o)) l).
Proof.
  intros Hl. unfold hcb_op.
  apply (loop_acts _ (hcb_local n) (fun o => site_matrix 2 n (spin_half_site o)) (fun oi => spin_known (fst oi) /\ (snd oi < n)%nat)); [|assumption].
  intros o i r [H1 H2] Hr. rewrite N2Nat.id in Hr. apply hcb_local_mono; assumption.
Qed.

(* an unknown letter is reported (unless the result is already zero); known letters are never rejected *)
Lemma op_loop_unknown local (known : ascii -> Prop) s rl : (forall o i r, known o -> local o i r <> None) -> forall r m,
  op_loop local s rl r m = None -> exists oi, In oi rl /\ ~ known (fst oi).
Proof.
  intros HL. induction rl as [|[o i] rl IH]; intros r m H; [discriminate|]. cbn [op_loop] in H.
  destruct (local o i r) as [[r' f]|] eqn:E.
  - cbv zeta in H. destruct (Czero (m * f)%C); [discriminate|]. destruct (IH _ _ H) as (oi & H1 & H2). exists oi. split; [right; assumption|assumption].
  - exists (o, i). split; [left; reflexivity|]. intros K. exact (HL o i r K E).
Qed.

(* ---- bosons and spin S ---- *)
Section Diag.
Variables (B : N) (n : nat) (local : ascii -> N -> option (R * R * move)) (site : ascii -> N -> N -> C) (known : ascii -> Prop).
Hypothesis HB : 2 <= B.
Let M := N.to_nat (B ^ N.of_nat n).
(* factor fd * sqrt fo, fo >= 0, and the new local value *)
Hypothesis Hloc : forall o occ, known o -> occ < B -> exists fd fo mv, local o occ = Some (fd, fo, mv) /\ (0 <= fo)%R /\
  let v := match mv with Stay => occ | Up => if occ + 1 <? B then occ + 1 else occ | Down => if 0 <? occ then occ - 1 else occ end in
  forall w, w < B -> site o w occ = if w =? v then RtoC (fd * sqrt fo) else C0.

Lemma diag_local_mono o i r : known o -> (i < n)%nat -> r < B ^ N.of_nat n ->
  exists fd fo mv, local o (site_val B n r i) = Some (fd, fo, mv) /\ (0 <= fo)%R /\
   let b := B ^ N.of_nat (n - i - 1) in let occ := site_val B n r i in
   let r' := match mv with Stay => r | Up => if occ + 1 <? B then r + b else r | Down => if 0 <? occ then r - b else r end in
   mono M (site_matrix B n (site o) i) r r' (RtoC (fd * sqrt fo)).
Proof.
  intros Ho Hi Hr. pose proof (site_val_lt B HB n r i) as Hocc.
  destruct (Hloc o (site_val B n r i) Ho Hocc) as (fd & fo & mv & E & Hfo & HW). exists fd, fo, mv. split; [assumption|]. split; [assumption|].
  cbv zeta in *. set (occ := site_val B n r i) in *.
  set (v := match mv with Stay => occ | Up => if occ + 1 <? B then occ + 1 else occ | Down => if 0 <? occ then occ - 1 else occ end) in *.
  assert (Hv : v < B). { unfold v. destruct mv; [assumption| |]. destruct (N.ltb_spec (occ + 1) B); lia. destruct (N.ltb_spec 0 occ); lia. }
  replace (match mv with Stay => r | Up => if occ + 1 <? B then r + B ^ N.of_nat (n - i - 1) else r | Down => if 0 <? occ then r - B ^ N.of_nat (n - i - 1) else r end)
    with (set_site B n i r v).
  - apply site_mono; assumption.
  - unfold set_site. fold occ. unfold v. set (P := B ^ N.of_nat (n - i - 1)). destruct mv; [lia| |].
    + destruct (N.ltb_spec (occ + 1) B); [|lia]. rewrite N.mul_add_distr_r. lia.
    + destruct (N.ltb_spec 0 occ); [|lia]. replace (occ * P) with ((occ - 1) * P + P); [lia|].
      replace occ with (occ - 1 + 1) at 2 by lia. rewrite N.mul_add_distr_r. lia.
Qed.

Lemma sqrt_zero x : (0 <= x)%R -> (x * x = 0)%R -> x = 0%R. Proof. intros H1 H2. nra. Qed.

(* the same loop with the accumulated factor dg * sqrt off *)
Definition blocal (o : ascii) (i : nat) (r : N) : option (N * C) :=
  let b := B ^ N.of_nat (n - i - 1) in
  let occ := (r / b) mod B in
  match local o occ with
  | None => None
  | Some (fd, fo, mv) => Some (match mv with Stay => r | Up => if occ + 1 <? B then r + b else r | Down => if 0 <? occ then r - b else r end, RtoC (fd * sqrt fo))
  end.

Lemma occ_site r i : (i < n)%nat -> (r / B ^ N.of_nat (n - i - 1)) mod B = site_val B n r i.
Proof. intros H. unfold site_val, digit. replace (n - 1 - i)%nat with (n - i - 1)%nat by lia. reflexivity. Qed.

Lemma blocal_mono o i r : known o /\ (i < n)%nat -> r < N.of_nat M -> exists r' f, blocal o i r = Some (r', f) /\ mono M (site_matrix B n (site o) i) r r' f.
Proof.
  intros [Ho Hi] Hr. unfold M in Hr. rewrite N2Nat.id in Hr. unfold blocal. cbv zeta. rewrite occ_site by assumption.
  destruct (diag_local_mono o i r Ho Hi Hr) as (fd & fo & mv & E & Hfo & HM). rewrite E. eexists _, _. split; [reflexivity|]. exact HM.
Qed.

Lemma diag_loop_eq s rl : Forall (fun oi => known (fst oi) /\ (snd oi < n)%nat) rl -> forall r dg off, (0 <= off)%R -> r < N.of_nat M ->
  exists r' dg' off', diag_loop local B n s rl r dg off = Some (r', dg', off') /\
    op_loop blocal s rl r (RtoC (dg * sqrt off)) = Some (r', RtoC (dg' * sqrt off')).
Proof.
  intros Hl. induction Hl as [|[o i] rl [Ho Hi] Hl IH]; intros r dg off Hoff Hr.
  - exists r, dg, off. split; reflexivity.
  - cbn [fst snd] in Ho, Hi. cbn [diag_loop op_loop]. cbv zeta.
    pose proof (blocal_mono o i r (conj Ho Hi) Hr) as (r1 & f & E1 & M1). rewrite E1. unfold blocal in E1. cbv zeta in E1.
    rewrite occ_site in E1 |- * by assumption.
    destruct (Hloc o (site_val B n r i) Ho (site_val_lt B HB n r i)) as (fd & fo & mv & E & Hfo & _). rewrite E in E1 |- *.
    injection E1 as E2 E3. rewrite E2. subst f.
    assert (EM : (RtoC (dg * sqrt off) * RtoC (fd * sqrt fo))%C = RtoC ((dg * fd) * sqrt (off * fo))).
    { rewrite <- RtoC_mul. f_equal. rewrite sqrt_mult by assumption. ring. }
    rewrite EM.
    assert (EZ : Czero (RtoC (dg * fd * sqrt (off * fo))) = (Rzero (dg * fd) || Rzero (off * fo))%bool).
    { unfold Czero, RtoC, Rzero. cbn [fst snd]. destruct (Req_EM_T 0 0) as [_|X]; [|destruct (X eq_refl)].
      destruct (Req_EM_T (dg * fd) 0) as [X|X]; destruct (Req_EM_T (off * fo) 0) as [Y|Y]; destruct (Req_EM_T (dg * fd * sqrt (off * fo)) 0) as [Z|Z]; cbn; try reflexivity; exfalso.
      - apply Z. rewrite X. ring.
      - apply Z. rewrite X. ring.
      - apply Z. rewrite Y, sqrt_0. ring.
      - apply Rmult_integral in Z. destruct Z as [Z|Z]; [contradiction|]. apply Y. apply sqrt_eq_0; [|assumption]. apply Rmult_le_pos; assumption. }
    rewrite EZ. destruct (Rzero (dg * fd) || Rzero (off * fo))%bool.
    + exists s, (dg * fd)%R, (off * fo)%R. split; reflexivity.
    + apply IH; [apply Rmult_le_pos; assumption|exact (proj1 M1)].
Qed.

Lemma diag_op_acts l : Forall (fun oi => known (fst oi) /\ (snd oi < n)%nat) l ->
  acts_as M (diag_op local B n l) (string_matrix M (fun o => site_matrix B n (site o)) l).
Proof.
  intros Hl s m Hs.
  destruct (loop_acts M blocal (fun o => site_matrix B n (site o)) (fun oi => known (fst oi) /\ (snd oi < n)%nat)
              (fun o i r H Hr => blocal_mono o i r H Hr) l Hl s C1 Hs) as (r & a & E & Hr & HA).
  destruct (diag_loop_eq s (rev l) (Forall_rev Hl) s 1 1 ltac:(lra) Hs) as (r' & dg & off & E1 & E2).
  rewrite sqrt_1, Rmult_1_l in E2. change (RtoC 1) with C1 in E2. rewrite E in E2. injection E2 as -> ->.
  unfold diag_op. rewrite E1. eexists _, _. split; [reflexivity|]. split; [assumption|]. intros t Ht.
  specialize (HA t Ht). replace (string_matrix M (fun o => site_matrix B n (site o)) l t s) with (if t =? r' then RtoC (dg * sqrt off) else C0).
  - destruct (t =? r'); [reflexivity|ring].
  - rewrite <- HA. ring.
Qed.
End Diag.

Lemma Nr_le x y : x <= y -> (Nr x <= Nr y)%R. Proof. intros H. unfold Nr. apply IZR_le. lia. Qed.
Lemma Nr_add x y : Nr (x + y) = (Nr x + Nr y)%R. Proof. unfold Nr. rewrite N2Z.inj_add, plus_IZR. reflexivity. Qed.
Lemma Nr_mul x y : Nr (x * y) = (Nr x * Nr y)%R. Proof. unfold Nr. rewrite N2Z.inj_mul, mult_IZR. reflexivity. Qed.
Lemma Nr_sub x y : y <= x -> Nr (x - y) = (Nr x - Nr y)%R. Proof. intros H. unfold Nr. rewrite N2Z.inj_sub, minus_IZR by assumption. reflexivity. Qed.
Lemma Nr_pos x : (0 <= Nr x)%R. Proof. unfold Nr. apply IZR_le. lia. Qed.
Lemma Nr_1 : Nr 1 = 1%R. Proof. reflexivity. Qed.
Lemma Nr_0 : Nr 0 = 0%R. Proof. reflexivity. Qed.

Lemma boson_local_ok B o occ : 2 <= B -> In o ["I"; "n"; "+"; "-"]%char -> occ < B ->
  exists fd fo mv, M_ops.boson_local B o occ = Some (fd, fo, mv) /\ (0 <= fo)%R /\
  let v := match mv with Stay => occ | Up => if occ + 1 <? B then occ + 1 else occ | Down => if 0 <? occ then occ - 1 else occ end in
  forall w, w < B -> boson_site B o w occ = if w =? v then RtoC (fd * sqrt fo) else C0.
Proof.
  intros HB Ho Hocc. cbn [In] in Ho. destruct Ho as [<-|[<-|[<-|[<-|[]]]]]; eexists _, _, _; (split; [reflexivity|]); (split; [first [apply Nr_pos|lra]|]); cbv zeta; intros w Hw; cbn [boson_site].
  - rewrite sqrt_1, Rmult_1_l. reflexivity.
  - rewrite sqrt_1, Rmult_1_r. reflexivity.
  - destruct (N.ltb_spec (occ + 1) B) as [L|L].
    + rewrite N.mod_small by assumption. rewrite Nr_add, Nr_1, Rmult_1_l. reflexivity.
    + replace (occ + 1) with B by lia. rewrite N.mod_same by lia. rewrite Nr_0, sqrt_0, Rmult_0_r.
      destruct (N.eqb_spec w B); [lia|]. destruct (w =? occ); reflexivity.
  - rewrite Rmult_1_l. destruct (N.ltb_spec 0 occ) as [L|L].
    + destruct (N.eqb_spec (w + 1) occ), (N.eqb_spec w (occ - 1)); try lia; reflexivity.
    + replace occ with 0 by lia. rewrite Nr_0, sqrt_0. destruct (N.eqb_spec (w + 1) 0); [lia|]. destruct (w =? 0); reflexivity.
Qed.

Lemma spinS_local_ok B o occ : 2 <= B -> In o ["I"; "z"; "+"; "-"]%char -> occ < B ->
  exists fd fo mv, higher_spin_local B o occ = Some (fd, fo, mv) /\ (0 <= fo)%R /\
  let v := match mv with Stay => occ | Up => if occ + 1 <? B then occ + 1 else occ | Down => if 0 <? occ then occ - 1 else occ end in
  forall w, w < B -> spinS_site B o w occ = if w =? v then RtoC (fd * sqrt fo) else C0.
Proof.
  intros HB Ho Hocc. cbn [In] in Ho. destruct Ho as [<-|[<-|[<-|[<-|[]]]]]; eexists _, _, _; (split; [reflexivity|]); (split; [first [apply Nr_pos|lra]|]); cbv zeta; intros w Hw; cbn [spinS_site].
  - rewrite sqrt_1, Rmult_1_l. reflexivity.
  - rewrite sqrt_1, Rmult_1_r. reflexivity.
  - rewrite Rmult_1_l. destruct (N.ltb_spec (occ + 1) B) as [L|L].
    + rewrite Nr_mul, Nr_add, !Nr_sub, Nr_1 by lia. replace ((Nr B - 1) / 2 * ((Nr B - 1) / 2 + 1) - (Nr occ - (Nr B - 1) / 2) * (Nr occ - (Nr B - 1) / 2 + 1))%R
        with ((Nr occ + 1) * (Nr B - Nr occ - 1))%R by field. reflexivity.
    + replace (B - occ - 1) with 0 by lia. rewrite N.mul_0_r, Nr_0, sqrt_0.
      destruct (N.eqb_spec w (occ + 1)); [lia|]. destruct (w =? occ); reflexivity.
  - rewrite Rmult_1_l. destruct (N.ltb_spec 0 occ) as [L|L].
    + rewrite Nr_mul, Nr_sub by lia. replace ((Nr B - 1) / 2 * ((Nr B - 1) / 2 + 1) - (Nr occ - (Nr B - 1) / 2) * (Nr occ - (Nr B - 1) / 2 - 1))%R
        with (Nr occ * (Nr B - Nr occ))%R by field.
      destruct (N.eqb_spec (w + 1) occ), (N.eqb_spec w (occ - 1)); try lia; reflexivity.
    + replace occ with 0 by lia. rewrite N.mul_0_l, Nr_0, sqrt_0. destruct (N.eqb_spec (w + 1) 0); [lia|]. destruct (w =? 0); reflexivity.
Qed.

Lemma boson_op_acts B n l : 2 <= B -> Forall (fun oi => In (fst oi) ["I"; "n"; "+"; "-"]%char /\ (snd oi < n)%nat) l ->
  acts_as (N.to_nat (B ^ N.of_nat n)) (boson_op B n l) (string_matrix (N.to_nat (B ^ N.of_nat n)) (fun o => site_matrix B n (boson_site B o)) l).
Proof. intros HB Hl. apply (diag_op_acts B n (M_ops.boson_local B) (boson_site B) (fun o => In o ["I"; "n"; "+"; "-"]%char) HB); [|assumption]. intros o occ Ho Hocc. apply boson_local_ok; assumption. Qed.
Lemma higher_spin_op_acts B n l : 2 <= B -> Forall (fun oi => In (fst oi) ["I"; "z"; "+"; "-"]%char /\ (snd oi < n)%nat) l ->
  acts_as (N.to_nat (B ^ N.of_nat n)) (higher_spin_op B n l) (string_matrix (N.to_nat (B ^ N.of_nat n)) (fun o => site_matrix B n (spinS_site B o)) l).
Proof. intros HB Hl. apply (diag_op_acts B n (higher_spin_local B) (spinS_site B) (fun o => In o ["I"; "z"; "+"; "-"]%char) HB); [|assumption]. intros o occ Ho Hocc. apply spinS_local_ok; assumption. Qed.

(* ---- Pauli units ---- *)
Definition dfac (p : Z) (o : ascii) : R := if doubled p o then 2 else 1.
Lemma pauli_scale_prod p ops : pauli_scale p ops = fold_right (fun o acc => (dfac p o * acc)%R) 1%R ops.
Proof.
  unfold pauli_scale, dfac, doubled. cbv zeta. destruct (p =? 1)%Z.
  - induction ops as [|o ops IH]; [reflexivity|]. cbn [filter fold_right]. rewrite <- IH. destruct (o =? "I")%char; cbn [negb length pow]; ring.
  - destruct (p =? -1)%Z.
    + induction ops as [|o ops IH]; [reflexivity|]. cbn [filter fold_right]. rewrite <- IH.
      destruct (o =? "I")%char; cbn [negb andb filter]; [ring|]. destruct (o =? "+")%char; cbn [negb andb filter]; [ring|].
      destruct (o =? "-")%char; cbn [negb andb filter length pow]; ring.
    + induction ops as [|o ops IH]; [reflexivity|]. cbn [fold_right]. rewrite <- IH. ring.
Qed.

Lemma pauli_string n p l : forall r s,
  string_matrix (N.to_nat (2 ^ N.of_nat n)) (fun o => site_matrix 2 n (pauli_site p o)) l r s =
  (RtoC (pauli_scale p (map fst l)) * string_matrix (N.to_nat (2 ^ N.of_nat n)) (fun o => site_matrix 2 n (spin_half_site o)) l r s)%C.
Proof.
  rewrite pauli_scale_prod. induction l as [|[o i] l IH]; intros r s.
  - cbn. change (RtoC 1) with C1. ring.
  - cbn [string_matrix fold_right map fst snd]. unfold mmul at 1. unfold mmul at 2. rewrite <- Csum_mul_l. apply Csum_ext. intros k _.
    fold (string_matrix (N.to_nat (2 ^ N.of_nat n)) (fun o => site_matrix 2 n (pauli_site p o)) l).
    fold (string_matrix (N.to_nat (2 ^ N.of_nat n)) (fun o => site_matrix 2 n (spin_half_site o)) l).
    rewrite IH. rewrite RtoC_mul. unfold site_matrix, pauli_site, dfac. destruct (same_except 2 n i r k); [|ring].
    destruct (doubled p o); [ring|]. change (RtoC 1) with C1. ring.
Qed.

Lemma spin_op_acts p n l : Forall (fun oi => spin_known (fst oi) /\ (snd oi < n)%nat) l ->
  acts_as (N.to_nat (2 ^ N.of_nat n)) (spin_op p n l) (string_matrix (N.to_nat (2 ^ N.of_nat n)) (fun o => site_matrix 2 n (pauli_site p o)) l).
Proof.
  intros Hl s m Hs. destruct (hcb_op_acts n l Hl s m Hs) as (r & m' & E & Hr & HA). unfold spin_op. rewrite E.
  eexists _, _. split; [reflexivity|]. split; [assumption|]. intros t Ht. rewrite pauli_string. specialize (HA t Ht).
  replace (m * (RtoC (pauli_scale p (map fst l)) * string_matrix (N.to_nat (2 ^ N.of_nat n)) (fun o => site_matrix 2 n (spin_half_site o)) l t s))%C
    with (RtoC (pauli_scale p (map fst l)) * (m * string_matrix (N.to_nat (2 ^ N.of_nat n)) (fun o => site_matrix 2 n (spin_half_site o)) l t s))%C by ring.
  rewrite HA. destruct (t =? r); ring.
Qed.
