(* Fermionic maps as operators: transformation of the elementary operators. *)
From Verif Require Import AuxN SpecC SpecBits SpecDigits SpecMaps SpecSymm SpecOps SpecFermi SpecProj M_bitcount M_maps M_fmap M_ops M_opstr P_next P_boson P_maps P_period P_ops P_mat P_fermion P_fmap.
Local Open Scope nat_scope.

Definition cs (b : bool) : C := if b then RtoC (-1) else C1.
Lemma cs_mul a b : (cs a * cs b)%C = cs (xorb a b). Proof. destruct a, b; apply C_eq; cbn; ring. Qed.
Lemma cs_sq a : (cs a * cs a)%C = C1. Proof. rewrite cs_mul, xorb_nilpotent. reflexivity. Qed.
Lemma cs_false : cs false = C1. Proof. reflexivity. Qed.

Section Ops.
Variables (bytes : N) (n : nat) (m : list Z).
Hypothesis Hw : (N.of_nat n <= 8 * bytes)%N.
Hypothesis Hn : n <= 256.
Hypothesis Hm : signed_perm n m.
Let M := N.to_nat (2 ^ N.of_nat n).
Notation tg k := (target (nth k m 0%Z)).
Notation fl k := (flips (nth k m 0%Z)).
Notation U s := (hcb_map_bits n m s).
Notation sg s := (sgnb n m s).
Notation UM := (map_matrix (fermion_map_bits n m)).
Notation c := (cop bytes n).

Lemma UM_mono s : (s < 2 ^ N.of_nat n)%N -> mono M UM s (U s) (cs (sg s)).
Proof.
  intros Hs. split; [unfold M; rewrite N2Nat.id; apply U_lt; exact Hm|]. intros t Ht. unfold map_matrix. rewrite fermion_map_eq. cbn [fst snd].
  destruct (t =? U s)%N; [|reflexivity]. destruct (sg s); reflexivity.
Qed.
Lemma sgn_cs s i : i < n -> sgn (n - i - 1) s = cs (behind n s i).
Proof. intros Hi. unfold sgn. rewrite (behind_particles n s i Hi). destruct (behind n s i); reflexivity. Qed.
Lemma famp_pm o s i : i < n -> (o = "+" \/ o = "-")%char -> famp o (n - i - 1) s = if Bool.eqb (occ n s i) (o =? "-")%char then cs (behind n s i) else C0.
Proof.
  intros Hi Ho. unfold famp. rewrite (sgn_cs s i Hi). unfold occ. replace (n - 1 - i) with (n - i - 1) by lia. destruct Ho as [-> | ->]; destruct (occupied s (n - i - 1)); reflexivity.
Qed.
Definition eta (i : nat) : bool := xorb (fl i && Nat.odd i) (filled n m i).
Lemma mono_meq A A' : (forall s, (s < 2 ^ N.of_nat n)%N -> exists r a b, mono M A s r a /\ mono M A' s r b /\ a = b) -> meq M A A'.
Proof.
  intros H r s Hr Hs. destruct (H s) as (r' & a & b & [_ H1] & [_ H2] & ->); [unfold M in Hs; rewrite N2Nat.id in Hs; exact Hs|].
  rewrite H1, H2 by exact Hr. reflexivity.
Qed.
Lemma mono_scale x A s r a : mono M A s r a -> mono M (mscale x A) s r (x * a)%C.
Proof. intros [H1 H2]. split; [exact H1|]. intros t Ht. unfold mscale. rewrite H2 by exact Ht. destruct (t =? r)%N; [reflexivity|ring]. Qed.
Definition other (o : ascii) : ascii := if (o =? "+")%char then "-"%char else "+"%char.
Lemma law_pm o i : (o = "+" \/ o = "-")%char -> i < n ->
  meq M (mmul M UM (c o i)) (mscale (cs (eta i)) (mmul M (c (if fl i then other o else o) (tg i)) UM)).
Proof.
  intros Ho Hi. pose proof (tg_lt' n m Hm i Hi) as Ht. apply mono_meq. intros s Hs.
  set (o' := if fl i then other o else o). assert (Ho' : (o' = "+" \/ o' = "-")%char) by (unfold o', other; destruct Ho as [-> | ->], (fl i); cbn; tauto).
  pose proof (cop_mono bytes n Hw Hn o i s (pm_known _ Ho) Hi Hs) as M1. rewrite (pm_fstate o _ s Ho) in M1. replace (flipp (n - i - 1) s) with (flipo n i s) in M1 by (unfold flipo; f_equal; lia).
  assert (Hs1 : (flipo n i s < 2 ^ N.of_nat n)%N) by (apply flipp_lt; [lia|exact Hs]).
  pose proof (mono_mul _ _ _ _ _ _ _ _ M1 (UM_mono _ Hs1)) as L.
  pose proof (cop_mono bytes n Hw Hn o' (tg i) (U s) (pm_known _ Ho') Ht (U_lt n m Hm s)) as M2. rewrite (pm_fstate o' _ _ Ho') in M2.
  replace (flipp (n - tg i - 1) (U s)) with (flipo n (tg i) (U s)) in M2 by (unfold flipo; f_equal; lia).
  pose proof (mono_scale (cs (eta i)) _ _ _ _ (mono_mul _ _ _ _ _ _ _ _ (UM_mono s Hs) M2)) as R. rewrite <- (U_flip n m Hm i s Hi Hs) in R.
  do 3 eexists. split; [exact L|]. split; [exact R|].
  rewrite (famp_pm o s i Hi Ho), (famp_pm o' (U s) (tg i) Ht Ho'). rewrite (occ_U n m Hm s i Hi), (behind_U n m Hm s i Hi), (sgnb_flip n m Hm s i Hi).
  assert (E : Bool.eqb (xorb (occ n s i) (fl i)) (o' =? "-")%char = Bool.eqb (occ n s i) (o =? "-")%char).
  { unfold o', other. destruct Ho as [-> | ->], (fl i), (occ n s i); reflexivity. }
  rewrite E. destruct (Bool.eqb (occ n s i) (o =? "-")%char); [|ring]. rewrite !cs_mul. f_equal. unfold eta.
  destruct (sg s), (fl i && Nat.odd i)%bool, (behind n s i), (before n m s i), (filled n m i); reflexivity.
Qed.
(* the diagonal letters *)
Lemma famp_diag o s i : i < n -> (o = "n" \/ o = "z" \/ o = "I")%char -> famp o (n - i - 1) s =
  if (o =? "n")%char then (if occ n s i then C1 else C0) else if (o =? "z")%char then (if occ n s i then half else Copp half) else C1.
Proof.
  intros Hi Ho. unfold famp, occ. replace (n - 1 - i) with (n - i - 1) by lia. destruct Ho as [-> | [-> | ->]]; destruct (occupied s (n - i - 1)); try reflexivity; apply C_eq; cbn; ring.
Qed.
Lemma law_z i : i < n -> meq M (mmul M UM (c "z"%char i)) (mscale (cs (fl i)) (mmul M (c "z"%char (tg i)) UM)).
Proof.
  intros Hi. pose proof (tg_lt' n m Hm i Hi) as Ht. apply mono_meq. intros s Hs. assert (K : fermion_known "z") by (unfold fermion_known; cbn; tauto).
  pose proof (mono_mul _ _ _ _ _ _ _ _ (cop_mono bytes n Hw Hn "z" i s K Hi Hs) (UM_mono _ Hs)) as L.
  pose proof (mono_scale (cs (fl i)) _ _ _ _ (mono_mul _ _ _ _ _ _ _ _ (UM_mono s Hs) (cop_mono bytes n Hw Hn "z" (tg i) (U s) K Ht (U_lt n m Hm s)))) as R.
  do 3 eexists. split; [exact L|]. split; [exact R|]. rewrite (famp_diag "z" s i Hi), (famp_diag "z" (U s) (tg i) Ht) by tauto. cbn [Ascii.eqb]. rewrite (occ_U n m Hm s i Hi).
  cbn. destruct (occ n s i), (fl i); cbn [xorb cs]; apply C_eq; cbn; ring.
Qed.
(* maps without inversions *)
Hypothesis NI : no_inversion m.
Lemma fl_no k : fl k = false.
Proof. destruct (Nat.ltb_spec k (length m)) as [H|H]; [apply NI, nth_In, H|rewrite nth_overflow by exact H; reflexivity]. Qed.
Lemma eta_no i : eta i = false.
Proof. unfold eta, filled. rewrite fl_no. cbn [andb]. rewrite bsum_false; [reflexivity|]. intros k _. rewrite fl_no. reflexivity. Qed.
Lemma law_letter o i : fermion_known o -> i < n -> meq M (mmul M UM (c o i)) (mmul M (c o (tg i)) UM).
Proof.
  intros Ho Hi. unfold fermion_known in Ho. cbn [In] in Ho.
  destruct Ho as [<-|[<-|[<-|[<-|[<-|[]]]]]].
  - pose proof (tg_lt' n m Hm i Hi) as Ht. apply mono_meq. intros s Hs. assert (K : fermion_known "I") by (unfold fermion_known; cbn; tauto).
    do 3 eexists. split; [exact (mono_mul _ _ _ _ _ _ _ _ (cop_mono bytes n Hw Hn "I" i s K Hi Hs) (UM_mono _ Hs))|].
    split; [exact (mono_mul _ _ _ _ _ _ _ _ (UM_mono s Hs) (cop_mono bytes n Hw Hn "I" (tg i) (U s) K Ht (U_lt n m Hm s)))|].
    rewrite (famp_diag "I" s i Hi), (famp_diag "I" (U s) (tg i) Ht) by tauto. cbn. ring.
  - pose proof (tg_lt' n m Hm i Hi) as Ht. apply mono_meq. intros s Hs. assert (K : fermion_known "n") by (unfold fermion_known; cbn; tauto).
    do 3 eexists. split; [exact (mono_mul _ _ _ _ _ _ _ _ (cop_mono bytes n Hw Hn "n" i s K Hi Hs) (UM_mono _ Hs))|].
    split; [exact (mono_mul _ _ _ _ _ _ _ _ (UM_mono s Hs) (cop_mono bytes n Hw Hn "n" (tg i) (U s) K Ht (U_lt n m Hm s)))|].
    rewrite (famp_diag "n" s i Hi), (famp_diag "n" (U s) (tg i) Ht) by tauto. cbn. rewrite (occ_U n m Hm s i Hi), fl_no, xorb_false_r. destruct (occ n s i); ring.
  - intros r s Hr Hs. rewrite (law_z i Hi r s Hr Hs), fl_no. unfold mscale. cbn [cs]. ring.
  - intros r s Hr Hs. rewrite (law_pm "+" i ltac:(tauto) Hi r s Hr Hs), eta_no, fl_no. unfold mscale. cbn [cs]. ring.
  - intros r s Hr Hs. rewrite (law_pm "-" i ltac:(tauto) Hi r s Hr Hs), eta_no, fl_no. unfold mscale. cbn [cs]. ring.
Qed.
End Ops.
