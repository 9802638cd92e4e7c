(* Operator strings of the one-dimensional bases. *)
From Verif Require Import AuxN SpecC SpecBits SpecDigits SpecMaps SpecOps SpecOps1d M_bitcount M_bits1d M_ops M_ops1d P_bitcount P_next P_boson P_maps P_ops P_fermion P_bits1d P_bits1d2.
Local Open Scope nat_scope.

Lemma N_even_mod c : (N.of_nat c mod 2 =? 0)%N = negb (Nat.odd c).
Proof. rewrite N.mod_eq by lia. assert (E : N.odd (N.of_nat c) = Nat.odd c). { induction c as [|c IH]; [reflexivity|]. rewrite Nat2N.inj_succ, N.odd_succ, Nat.odd_succ, <- N.negb_odd, IH, Nat.negb_odd. reflexivity. }
  rewrite <- N.mod_eq by lia. rewrite <- N.bit0_mod, N.bit0_odd, E. destruct (Nat.odd c); reflexivity. Qed.
Lemma some_C (r : N) (a b : C) : a = b -> Some (r, a) = Some (r, b). Proof. intros ->. reflexivity. Qed.
Lemma mono_scale M A s r a (g : N -> C) : mono M A s r a -> mono M (fun t u => A t u * g u)%C s r (a * g s)%C.
Proof. intros [H1 H2]. split; [exact H1|]. intros t Ht. rewrite (H2 t Ht). destruct (t =? r)%N; ring. Qed.

Lemma hcp_local_plain w L o i r : hcp_local w false L o i r = hcb_local L o i r.
Proof.
  unfold hcp_local, hcb_local. cbv zeta iota. change (0 mod 2 =? 0)%N with true. cbv iota.
  destruct o as [[|] [|] [|] [|] [|] [|] [|] [|]]; try reflexivity; destruct (N.testbit r _); do 2 f_equal; apply C_eq; cbn; ring.
Qed.
Lemma op_loop_ext f g s rl : (forall o i r, f o i r = g o i r) -> forall r m, op_loop f s rl r m = op_loop g s rl r m.
Proof. intros H. induction rl as [|[o i] rl IH]; intros r m; [reflexivity|]. cbn [op_loop]. rewrite H. destruct (g o i r) as [[r' f']|]; [|reflexivity]. cbv zeta. rewrite IH. reflexivity. Qed.
Lemma hcp_plain w L l r m : hcp_op1 w false L l r m = hcb_op L l r m.
Proof. apply op_loop_ext. intros. apply hcp_local_plain. Qed.
Lemma hcp_plain_acts w L l : Forall (fun oi => spin_known (fst oi) /\ snd oi < L) l ->
  acts_as (N.to_nat (2 ^ N.of_nat L)) (hcp_op1 w false L l) (string_matrix (N.to_nat (2 ^ N.of_nat L)) (fun o => site_matrix 2 L (spin_half_site o)) l).
Proof. intros Hl s m Hs. rewrite hcp_plain. apply hcb_op_acts; assumption. Qed.

Lemma hcp_fermi_acts w n l : (forall p, p < n -> below w p) -> Forall (fun oi => In (fst oi) ["I"; "n"; "z"; "+"; "-"]%char /\ snd oi < n) l ->
  acts_as (N.to_nat (2 ^ N.of_nat n)) (hcp_op1 w true n l) (string_matrix (N.to_nat (2 ^ N.of_nat n)) (fermi_letter n) l).
Proof.
  intros Hw Hl. unfold hcp_op1.
  apply (loop_acts _ (hcp_local w true n) (fermi_letter n) (fun oi => In (fst oi) ["I"; "n"; "z"; "+"; "-"]%char /\ snd oi < n)); [|exact Hl].
  intros o i r [H1 H2] Hr. cbn [fst snd] in *. rewrite N2Nat.id in Hr.
  assert (K : spin_known o) by (unfold spin_known; cbn [In] in *; tauto).
  destruct (hcb_local_mono n o i r K H2 Hr) as (r' & f & E & HM).
  exists r', (f * (if ((o =? "+") || (o =? "-"))%char%bool then jw_sign n i r else C1))%C. split; [|apply (mono_scale _ _ _ _ _ (fun u => if ((o =? "+") || (o =? "-"))%char%bool then jw_sign n i u else C1) HM)].
  unfold hcp_local. cbv zeta iota. rewrite bcount_ok by (apply Hw; lia). rewrite N_even_mod. unfold jw_sign. unfold hcb_local in E. cbv zeta in E.
  set (a := N.testbit r (N.of_nat (n - i - 1))) in *. clearbody a. set (od := Nat.odd (particles r (n - i - 1))). clearbody od.
  cbn [In] in H1. destruct H1 as [<-|[<-|[<-|[<-|[<-|[]]]]]]; cbv iota in E |- *; cbn [Ascii.eqb Bool.eqb orb]; injection E as <- <-; apply some_C; destruct a, od; cbn [negb]; apply C_eq; cbn; ring.
Qed.
(* single letters *)
Lemma single_letter M op A : acts_as M op A -> meq M (op_matrix op) A.
Proof.
  intros H r s Hr Hs. destruct (H s C1 Hs) as (r' & m & E & Hr' & HA). unfold op_matrix. rewrite E. specialize (HA r Hr). rewrite <- HA. ring.
Qed.

(* ---- bosons and spin S ---- *)
Lemma Nr_nz x : Nr x = 0%R -> x = 0%N. Proof. unfold Nr. intros H. apply eq_IZR in H. lia. Qed.
Section B.
Variables (B : N) (sm : bool) (n : nat) (site : ascii -> N -> N -> C) (known : ascii -> Prop).
Hypothesis HB : (2 <= B)%N.
Let M := N.to_nat (B ^ N.of_nat n).
Notation local := (boson1_local B sm).
Hypothesis Hloc : forall o occ, known o -> (occ < B)%N -> exists fd fo mv, local o occ = Some (fd, fo, mv) /\ (0 <= fo)%R /\
  let v := match mv with Stay => occ | Up => if (occ + 1 <? B)%N then (occ + 1)%N else occ | Down => if (0 <? occ)%N then (occ - 1)%N else occ end in
  forall w, (w < B)%N -> site o w occ = if (w =? v)%N then RtoC (fd * sqrt fo) else C0.
Notation bl := (blocal B n local).
Notation runb := (run bl).
Notation okb := (fun oi : ascii * nat => known (fst oi) /\ snd oi < n).
Lemma loop1_run s rl : Forall okb rl -> forall r dg off, (0 <= off)%R -> (r < N.of_nat M)%N ->
  exists r' dg' off', boson1_loop B sm n s rl r dg off = Some (r', dg', off') /\
    ((r', RtoC (dg' * sqrt off')) = runb (rev rl) (r, RtoC (dg * sqrt off)) \/ (r' = s /\ RtoC (dg' * sqrt off') = C0 /\ snd (runb (rev rl) (r, RtoC (dg * sqrt off))) = C0)).
Proof.
  intros Hl. induction Hl as [|[o i] rl [Ho Hi] Hl IH]; intros r dg off Hoff Hr.
  - exists r, dg, off. split; [reflexivity|left; reflexivity].
  - cbn [fst snd] in Ho, Hi. cbn [boson1_loop]. cbv zeta.
    pose proof (blocal_mono B n local site known HB Hloc o i r (Logic.conj Ho Hi) Hr) as (r1 & f & E1 & M1). pose proof E1 as E1'. unfold blocal in E1. cbv zeta in E1.
    rewrite (occ_site B n local site known HB Hloc r i Hi) in E1 |- *.
    destruct (Hloc o (site_val B n r i) Ho (site_val_lt B HB n r i)) as (fd & fo & mv & E & Hfo & _). rewrite E in E1 |- *. injection E1 as E2 E3. subst f.
    replace (match mv with Stay => r | Up => if (site_val B n r i <? B - 1)%N then (r + B ^ N.of_nat (n - i - 1))%N else r | Down => if (0 <? site_val B n r i)%N then (r - B ^ N.of_nat (n - i - 1))%N else r end) with r1.
    2:{ rewrite <- E2. destruct mv; try reflexivity. destruct (N.ltb_spec (site_val B n r i + 1) B), (N.ltb_spec (site_val B n r i) (B - 1)); try lia; reflexivity. }
    assert (EM : (RtoC (dg * sqrt off) * RtoC (fd * sqrt fo))%C = RtoC ((dg * fd) * sqrt (off * fo))).
    { rewrite <- RtoC_mul. f_equal. rewrite sqrt_mult by assumption. ring. }
    assert (ER : runb (rev ((o, i) :: rl)) (r, RtoC (dg * sqrt off)) = runb (rev rl) (r1, RtoC ((dg * fd) * sqrt (off * fo)))).
    { cbn [rev]. rewrite run_app. f_equal. cbn [run fst snd]. rewrite E1'. rewrite EM. reflexivity. }
    rewrite ER. destruct (Rzero (off * fo)) eqn:Z.
    + unfold Rzero in Z. destruct (Req_EM_T (off * fo) 0) as [Z'|]; [|discriminate]. exists s, (dg * fd)%R, (off * fo)%R. split; [reflexivity|]. right. split; [reflexivity|].
      rewrite Z', sqrt_0, Rmult_0_r. split; [reflexivity|]. change (RtoC 0) with C0. apply run_zero.
    + apply IH; [apply Rmult_le_pos; assumption|exact (proj1 M1)].
Qed.
Lemma boson1_acts l : Forall okb l -> acts_as M (boson1_op B sm n l) (string_matrix M (fun o => site_matrix B n (site o)) l).
Proof.
  intros Hl s m Hs. destruct (loop1_run s (rev l) (Forall_rev Hl) s 1 1 ltac:(lra) Hs) as (r' & dg & off & E & Cs). rewrite rev_involutive in Cs. rewrite sqrt_1, Rmult_1_l in Cs. change (RtoC 1) with C1 in Cs.
  destruct (run_mono M bl (fun o => site_matrix B n (site o)) okb (fun o i r H Hr => blocal_mono B n local site known HB Hloc o i r H Hr) l s C1 Hl Hs) as (a & [Ha1 Ha2] & Ea).
  unfold boson1_op. rewrite E. exists r', (m * RtoC (dg * sqrt off))%C. split; [do 2 f_equal; rewrite RtoC_mul; ring|]. destruct Cs as [Cs|(-> & Z & Cs)].
  - rewrite <- Cs in Ha1, Ha2, Ea. cbn [fst snd] in *. split; [exact Ha1|]. intros t Ht. rewrite Ha2 by exact Ht. rewrite Ea. destruct (t =? r')%N; ring.
  - split; [exact Hs|]. intros t Ht. rewrite Ha2 by exact Ht. rewrite Cs in Ea. rewrite Z. assert (a = C0) as -> by (rewrite Ea; ring). destruct (t =? _)%N, (t =? s)%N; ring.
Qed.
End B.
Lemma boson1_site B o occ : (2 <= B)%N -> In o ["I"; "n"; "z"; "+"; "-"]%char -> (occ < B)%N ->
  exists fd fo mv, boson1_local B false o occ = Some (fd, fo, mv) /\ (0 <= fo)%R /\
  let v := match mv with Stay => occ | Up => if (occ + 1 <? B)%N then (occ + 1)%N else occ | Down => if (0 <? occ)%N then (occ - 1)%N else occ end in
  forall w, (w < B)%N -> boson_site B o w occ = if (w =? v)%N then RtoC (fd * sqrt fo) else C0.
Proof.
  intros HB Ho Hocc. cbn [In] in Ho. destruct Ho as [<-|[<-|[<-|[<-|[<-|[]]]]]]; eexists _, _, _; (split; [reflexivity|]); cbv zeta.
  - split; [lra|]. intros w Hw. cbn [boson_site]. rewrite sqrt_1, Rmult_1_l. reflexivity.
  - split; [lra|]. intros w Hw. cbn [boson_site]. rewrite sqrt_1, Rmult_1_r. reflexivity.
  - split; [lra|]. intros w Hw. cbn [boson_site]. rewrite sqrt_1, Rmult_1_r, Nr_sub by lia. reflexivity.
  - destruct (N.ltb_spec occ (B - 1)) as [H|H]; (split; [pose proof (Nr_pos (occ + 1)); lra|]); intros w Hw; cbn [boson_site]; destruct (N.ltb_spec (occ + 1) B); try lia.
    + rewrite Rmult_1_r, Rmult_1_l, Nr_add. reflexivity.
    + rewrite Rmult_0_l, sqrt_0, Rmult_0_r. destruct (N.eqb_spec w (occ + 1)); [lia|]. destruct (w =? occ)%N; reflexivity.
  - split; [pose proof (Nr_pos occ); lra|]. intros w Hw. cbn [boson_site]. rewrite Rmult_1_l, Rmult_1_r. destruct (N.ltb_spec 0 occ) as [H|H].
    + destruct (N.eqb_spec (w + 1) occ), (N.eqb_spec w (occ - 1)); try lia; reflexivity.
    + replace occ with 0%N by lia. rewrite Nr_0, sqrt_0. destruct (N.eqb_spec (w + 1) 0); [lia|]. destruct (w =? 0)%N; reflexivity.
Qed.
Lemma spin1_site B o occ : (2 <= B)%N -> In o ["I"; "z"; "+"; "-"]%char -> (occ < B)%N ->
  exists fd fo mv, boson1_local B true o occ = Some (fd, fo, mv) /\ (0 <= fo)%R /\
  let v := match mv with Stay => occ | Up => if (occ + 1 <? B)%N then (occ + 1)%N else occ | Down => if (0 <? occ)%N then (occ - 1)%N else occ end in
  forall w, (w < B)%N -> spinS_site B o w occ = if (w =? v)%N then RtoC (fd * sqrt fo) else C0.
Proof.
  intros HB Ho Hocc. cbn [In] in Ho. destruct Ho as [<-|[<-|[<-|[<-|[]]]]]; eexists _, _, _; (split; [reflexivity|]); cbv zeta.
  - split; [lra|]. intros w Hw. cbn [spinS_site]. rewrite sqrt_1, Rmult_1_l. reflexivity.
  - split; [lra|]. intros w Hw. cbn [spinS_site]. rewrite sqrt_1, Rmult_1_r, Nr_sub by lia. reflexivity.
  - assert (P1 : (0 <= (if (occ <? B - 1)%N then Nr (occ + 1) else 0) * Nr (B - 1 - occ))%R) by (destruct (occ <? B - 1)%N; [apply Rmult_le_pos; apply Nr_pos|lra]). split; [exact P1|].
    intros w Hw. cbn [spinS_site]. destruct (N.ltb_spec occ (B - 1)) as [H|H]; destruct (N.ltb_spec (occ + 1) B); try lia.
    + rewrite Rmult_1_l. replace ((Nr B - 1) / 2 * ((Nr B - 1) / 2 + 1) - (Nr occ - (Nr B - 1) / 2) * (Nr occ - (Nr B - 1) / 2 + 1))%R with (Nr (occ + 1) * Nr (B - 1 - occ))%R by (rewrite Nr_add, !Nr_sub, Nr_1 by lia; field). reflexivity.
    + rewrite Rmult_0_l, sqrt_0, Rmult_0_r. destruct (N.eqb_spec w (occ + 1)); [lia|]. destruct (w =? occ)%N; reflexivity.
  - split; [apply Rmult_le_pos; apply Nr_pos|]. intros w Hw. cbn [spinS_site]. rewrite Rmult_1_l. destruct (N.ltb_spec 0 occ) as [H|H].
    + replace ((Nr B - 1) / 2 * ((Nr B - 1) / 2 + 1) - (Nr occ - (Nr B - 1) / 2) * (Nr occ - (Nr B - 1) / 2 - 1))%R with (Nr occ * Nr (B - 1 - occ + 1))%R by (rewrite Nr_add, !Nr_sub, Nr_1 by lia; field).
      destruct (N.eqb_spec (w + 1) occ), (N.eqb_spec w (occ - 1)); try lia; reflexivity.
    + replace occ with 0%N by lia. rewrite Nr_0, Rmult_0_l, sqrt_0. destruct (N.eqb_spec (w + 1) 0); [lia|]. destruct (w =? 0)%N; reflexivity.
Qed.
Lemma boson1_op_acts B n l : (2 <= B)%N -> Forall (fun oi => In (fst oi) ["I"; "n"; "z"; "+"; "-"]%char /\ snd oi < n) l ->
  acts_as (N.to_nat (B ^ N.of_nat n)) (boson1_op B false n l) (string_matrix (N.to_nat (B ^ N.of_nat n)) (fun o => site_matrix B n (boson_site B o)) l).
Proof. intros HB Hl. apply (boson1_acts B false n (boson_site B) (fun o => In o ["I"; "n"; "z"; "+"; "-"]%char) HB); [|exact Hl]. intros o occ Ho Hocc. apply boson1_site; assumption. Qed.
Lemma spin1_op_acts B n l : (2 <= B)%N -> Forall (fun oi => In (fst oi) ["I"; "z"; "+"; "-"]%char /\ snd oi < n) l ->
  acts_as (N.to_nat (B ^ N.of_nat n)) (boson1_op B true n l) (string_matrix (N.to_nat (B ^ N.of_nat n)) (fun o => site_matrix B n (spinS_site B o)) l).
Proof. intros HB Hl. apply (boson1_acts B true n (spinS_site B) (fun o => In o ["I"; "z"; "+"; "-"]%char) HB); [|exact Hl]. intros o occ Ho Hocc. apply spin1_site; assumption. Qed.
