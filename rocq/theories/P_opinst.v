(* The bases as instances of one interface: strings are products, letters on different sites (anti)commute, h.c. exchanges + and -. *)
From Verif Require Import AuxN SpecC SpecBits SpecDigits SpecMaps SpecOps M_ops M_opstr P_ops P_fermion P_mat P_opstr.
From Coq Require Import Setoid Morphisms Permutation Sorted.
Local Open Scope N_scope.

Record good_ops (M : nat) (op : opl -> N -> C -> option (N * C)) (mat : ascii -> nat -> cmat) (g : ascii -> bool) (ok : ascii * nat -> Prop) : Prop := {
  go_acts : forall l, Forall ok l -> acts_as M (op l) (string_matrix M mat l);
  go_comm : forall x y, ok x -> ok y -> snd x <> snd y ->
    meq M (mmul M (mat (fst x) (snd x)) (mat (fst y) (snd y))) (mscale (RtoC (IZR (sg g x y))) (mmul M (mat (fst y) (snd y)) (mat (fst x) (snd x))));
  go_adj : forall x, ok x -> meq M (madj (mat (fst x) (snd x))) (mat (swap_pm (fst x)) (snd x));
  go_swap : forall x, ok x -> ok (swap_pm (fst x), snd x);
  go_grade : forall o, g (swap_pm o) = g o }.

Section Generic.
Variables (M : nat) (op : opl -> N -> C -> option (N * C)) (mat : ascii -> nat -> cmat) (g : ascii -> bool) (ok : ascii * nat -> Prop).
Hypothesis G : good_ops M op mat g ok.

Lemma go_matrix l : Forall ok l -> meq M (op_matrix (op l)) (string_matrix M mat l).
Proof. intros H. apply acts_as_matrix. apply (go_acts _ _ _ _ _ G). exact H. Qed.
Lemma go_reord l l' s : reord g l l' s -> Forall ok l -> meq M (op_matrix (op l)) (mscale (RtoC (IZR s)) (op_matrix (op l'))).
Proof.
  intros H HF. assert (HF' : Forall ok l') by (eapply Permutation_Forall; [eapply reord_perm; exact H|exact HF]).
  rewrite (go_matrix l HF), (go_matrix l' HF'). apply (reord_matrix M mat g ok); [apply (go_comm _ _ _ _ _ G)|exact H|exact HF].
Qed.
Lemma hc_ok l : Forall ok l -> Forall ok (hc_list l).
Proof.
  intros H. unfold hc_list. apply Forall_rev. rewrite Forall_map. eapply Forall_impl; [|exact H]. intros x Hx. apply (go_swap _ _ _ _ _ G). exact Hx.
Qed.
Lemma go_hc l : Forall ok l -> meq M (op_matrix (op (hc_list l))) (madj (op_matrix (op l))).
Proof.
  intros H. rewrite (go_matrix _ (hc_ok l H)), (go_matrix _ H). symmetry. apply (hc_list_matrix M mat ok); [apply (go_adj _ _ _ _ _ G)|exact H].
Qed.
End Generic.

(* site matrices on different sites commute *)
Section SiteComm.
Variables (B : N) (n : nat).
Hypothesis HB : 2 <= B.
Let M := N.to_nat (B ^ N.of_nat n).
Definition same_except2 (i j : nat) (r s : N) : bool :=
  forallb (fun q => (q =? i) || (q =? j) || (site_val B n r q =? site_val B n s q)%N)%nat%bool (seq 0 n).
Lemma same_except2_spec i j r s : same_except2 i j r s = true <-> (forall q, (q < n)%nat -> q <> i -> q <> j -> site_val B n r q = site_val B n s q).
Proof.
  unfold same_except2. rewrite forallb_forall. split; intros H q Hq.
  - intros Ni Nj. specialize (H q ltac:(apply in_seq; lia)). destruct (Nat.eqb_spec q i); [contradiction|]. destruct (Nat.eqb_spec q j); [contradiction|].
    cbn in H. apply N.eqb_eq. exact H.
  - apply in_seq in Hq. destruct (Nat.eqb_spec q i); [reflexivity|]. destruct (Nat.eqb_spec q j); [reflexivity|]. cbn. apply N.eqb_eq. apply H; lia.
Qed.
Lemma site_product loc loc' i j r s : (i < n)%nat -> (j < n)%nat -> i <> j -> r < B ^ N.of_nat n -> s < B ^ N.of_nat n ->
  mmul M (site_matrix B n loc i) (site_matrix B n loc' j) r s =
  if same_except2 i j r s then (loc (site_val B n r i) (site_val B n s i) * loc' (site_val B n r j) (site_val B n s j))%C else C0.
Proof.
  intros Hi Hj Ne Hr Hs. unfold mmul. set (v := site_val B n s i). assert (Hv : v < B) by (apply site_val_lt; exact HB).
  set (k0 := set_site B n i r v). assert (Hk0 : k0 < B ^ N.of_nat n) by (apply set_site_lt; assumption).
  assert (V : forall q, (q < n)%nat -> site_val B n k0 q = if (q =? i)%nat then v else site_val B n r q) by (intros q Hq; apply set_site_val; assumption).
  rewrite (Csum_single _ _ k0).
  - unfold site_matrix at 1. replace (same_except B n i r k0) with true.
    2:{ symmetry. apply (proj2 (same_except_spec B HB n i r k0)). intros q Hq Nq. rewrite V by exact Hq. destruct (Nat.eqb_spec q i); [contradiction|reflexivity]. }
    rewrite (V i Hi), Nat.eqb_refl. unfold site_matrix. rewrite (V j Hj). destruct (Nat.eqb_spec j i); [congruence|].
    destruct (same_except B n j k0 s) eqn:E.
    + replace (same_except2 i j r s) with true; [reflexivity|]. symmetry. apply (proj2 (same_except2_spec i j r s)). intros q Hq Ni Nj.
      rewrite <- (proj1 (same_except_spec B HB n j k0 s) E q Hq Nj), V by exact Hq. destruct (Nat.eqb_spec q i); [contradiction|reflexivity].
    + destruct (same_except2 i j r s) eqn:E2; [|ring]. exfalso. enough (X : same_except B n j k0 s = true) by congruence.
      apply (proj2 (same_except_spec B HB n j k0 s)). intros q Hq Nj. rewrite V by exact Hq. destruct (Nat.eqb_spec q i) as [->|Ni]; [reflexivity|].
      exact (proj1 (same_except2_spec i j r s) E2 q Hq Ni Nj).
  - apply NoDup_all_states.
  - apply In_all_states. unfold M. rewrite N2Nat.id. exact Hk0.
  - intros k Hk Nk. apply In_all_states in Hk. unfold M in Hk. rewrite N2Nat.id in Hk. unfold site_matrix.
    destruct (same_except B n i r k) eqn:E1; [|ring]. destruct (same_except B n j k s) eqn:E2; [|ring]. exfalso. apply Nk.
    apply (site_ext B HB n); [exact Hk|exact Hk0|]. intros q Hq. rewrite V by exact Hq. destruct (Nat.eqb_spec q i) as [->|Nq].
    + apply (proj1 (same_except_spec B HB n j k s) E2 i Hq Ne).
    + symmetry. apply (proj1 (same_except_spec B HB n i r k) E1 q Hq Nq).
Qed.
Lemma site_commute loc loc' i j : (i < n)%nat -> (j < n)%nat -> i <> j ->
  meq M (mmul M (site_matrix B n loc i) (site_matrix B n loc' j)) (mmul M (site_matrix B n loc' j) (site_matrix B n loc i)).
Proof.
  intros Hi Hj Ne r s Hr Hs. unfold M in Hr, Hs. rewrite N2Nat.id in Hr, Hs. rewrite !site_product by (assumption || congruence).
  replace (same_except2 j i r s) with (same_except2 i j r s); [destruct (same_except2 i j r s); [ring|reflexivity]|].
  unfold same_except2. clear. induction (seq 0 n) as [|q l IH]; [reflexivity|]. cbn [forallb]. rewrite IH, (orb_comm (q =? i)%nat). reflexivity.
Qed.
Lemma site_adj loc i : meq M (madj (site_matrix B n loc i)) (site_matrix B n (fun a b => Cconj (loc b a)) i).
Proof.
  intros r s Hr Hs. unfold madj, site_matrix. replace (same_except B n i s r) with (same_except B n i r s).
  - destruct (same_except B n i r s); [reflexivity|apply C_eq; cbn; ring].
  - unfold same_except. clear. induction (seq 0 n) as [|q l IH]; [reflexivity|]. cbn. rewrite IH, (N.eqb_sym (site_val B n r q)). reflexivity.
Qed.
Lemma site_ext_loc loc loc' i : (forall a b, a < B -> b < B -> loc a b = loc' a b) -> meq M (site_matrix B n loc i) (site_matrix B n loc' i).
Proof. intros H r s Hr Hs. unfold site_matrix. destruct (same_except B n i r s); [|reflexivity]. apply H; apply site_val_lt; exact HB. Qed.

(* letters given by local matrices *)
Lemma site_good (op : opl -> N -> C -> option (N * C)) site (known : ascii -> Prop) :
  (forall l, Forall (fun oi => known (fst oi) /\ (snd oi < n)%nat) l -> acts_as M (op l) (string_matrix M (fun o => site_matrix B n (site o)) l)) ->
  (forall o, known o -> known (swap_pm o)) ->
  (forall o a b, known o -> a < B -> b < B -> Cconj (site o b a) = site (swap_pm o) a b) ->
  good_ops M op (fun o => site_matrix B n (site o)) nograde (fun oi => known (fst oi) /\ (snd oi < n)%nat).
Proof.
  intros H1 H2 H3. split.
  - exact H1.
  - intros [o i] [o' j] [Hx Hi] [Hy Hj] Ne. cbn [fst snd] in *. rewrite sg_nograde. change (RtoC 1) with C1. rewrite mscale_1. apply site_commute; assumption.
  - intros [o i] [Hx Hi]. cbn [fst snd] in *. rewrite site_adj. apply site_ext_loc. intros a b Ha Hb. apply H3; assumption.
  - intros [o i] [Hx Hi]. cbn [fst snd] in *. split; [apply H2; exact Hx|exact Hi].
  - intros o. reflexivity.
Qed.
End SiteComm.

Lemma eqb01 a : a < 2 -> a = 0 \/ a = 1. Proof. lia. Qed.

Lemma spin_good p n : good_ops (N.to_nat (2 ^ N.of_nat n)) (spin_op p n) (fun o => site_matrix 2 n (pauli_site p o)) nograde
  (fun oi => spin_known (fst oi) /\ (snd oi < n)%nat).
Proof.
  apply (site_good 2 n ltac:(lia) (spin_op p n) (pauli_site p) spin_known).
  - intros l Hl. apply spin_op_acts. exact Hl.
  - intros o Ho. unfold spin_known in *. cbn [In] in *. destruct Ho as [<-|[<-|[<-|[<-|[<-|[<-|[<-|[]]]]]]]]; cbn; tauto.
  - intros o a b Ho Ha Hb. unfold pauli_site. assert (D : doubled p (swap_pm o) = doubled p o).
    { unfold spin_known in Ho. cbn [In] in Ho. unfold doubled. destruct (p =? 1)%Z, (p =? -1)%Z; destruct Ho as [<-|[<-|[<-|[<-|[<-|[<-|[<-|[]]]]]]]]; reflexivity. }
    assert (E : Cconj (spin_half_site o b a) = spin_half_site (swap_pm o) a b).
    { unfold spin_known in Ho. cbn [In] in Ho. apply eqb01 in Ha. apply eqb01 in Hb.
      destruct Ho as [<-|[<-|[<-|[<-|[<-|[<-|[<-|[]]]]]]]], Ha as [-> | ->], Hb as [-> | ->]; apply C_eq; cbn; lra. }
    rewrite D. destruct (doubled p o); [rewrite Cconj_mul, E; f_equal; apply C_eq; cbn; lra|exact E].
Qed.

(* the letters of the boson basis as computed: z has the extra factor n *)
Definition boson_code_site (B : N) (o : ascii) (a b : N) : C :=
  if (o =? "z")%char then (if a =? b then RtoC ((Nr b - (Nr B - 1) / 2) * Nr b) else C0) else boson_site B o a b.
Definition boson_known (o : ascii) : Prop := In o ["I"; "n"; "z"; "+"; "-"]%char.
Lemma boson_good B n : 2 <= B -> good_ops (N.to_nat (B ^ N.of_nat n)) (boson_op B n) (fun o => site_matrix B n (boson_code_site B o)) nograde
  (fun oi => boson_known (fst oi) /\ (snd oi < n)%nat).
Proof.
  intros HB. apply (site_good B n HB (boson_op B n) (boson_code_site B) boson_known).
  - intros l Hl. apply (diag_op_acts B n (M_ops.boson_local B) (boson_code_site B) boson_known HB); [|exact Hl]. intros o occ Ho Hocc.
    unfold boson_known in Ho. cbn [In] in Ho. destruct (Ascii.eqb_spec o "z"%char) as [->|Nz].
    + eexists _, _, _. split; [reflexivity|]. split; [lra|]. cbv zeta. intros w Hw. cbn. rewrite sqrt_1, Rmult_1_r. reflexivity.
    + assert (Ho' : In o ["I"; "n"; "+"; "-"]%char) by (cbn; destruct Ho as [<-|[<-|[<-|[<-|[<-|[]]]]]]; tauto).
      destruct (boson_local_ok B o occ HB Ho' Hocc) as (fd & fo & mv & E & F & K). exists fd, fo, mv. split; [exact E|]. split; [exact F|].
      cbv zeta in *. intros w Hw. unfold boson_code_site. destruct (Ascii.eqb_spec o "z"%char); [contradiction|]. apply K. exact Hw.
  - intros o Ho. unfold boson_known in *. cbn [In] in *. destruct Ho as [<-|[<-|[<-|[<-|[<-|[]]]]]]; cbn; tauto.
  - intros o a b Ho Ha Hb. unfold boson_known in Ho. cbn [In] in Ho. destruct Ho as [<-|[<-|[<-|[<-|[<-|[]]]]]]; unfold boson_code_site; cbn.
    + rewrite N.eqb_sym. destruct (a =? b); apply C_eq; cbn; ring.
    + rewrite N.eqb_sym. destruct (N.eqb_spec a b) as [->|]; apply C_eq; cbn; ring.
    + rewrite N.eqb_sym. destruct (N.eqb_spec a b) as [->|]; apply C_eq; cbn; ring.
    + destruct (N.eqb_spec b (a + 1)) as [E1|E1], (N.eqb_spec (a + 1) b) as [E2|E2]; try congruence; try (apply C_eq; cbn; ring). subst b.
      rewrite Nr_add, Nr_1. apply C_eq; cbn; ring.
    + destruct (N.eqb_spec (b + 1) a) as [E1|E1], (N.eqb_spec a (b + 1)) as [E2|E2]; try congruence; try (apply C_eq; cbn; ring). subst a.
      rewrite Nr_add, Nr_1. apply C_eq; cbn; ring.
Qed.

Definition spinS_known (o : ascii) : Prop := In o ["I"; "z"; "+"; "-"]%char.
Lemma higher_spin_good B n : 2 <= B -> good_ops (N.to_nat (B ^ N.of_nat n)) (higher_spin_op B n) (fun o => site_matrix B n (spinS_site B o)) nograde
  (fun oi => spinS_known (fst oi) /\ (snd oi < n)%nat).
Proof.
  intros HB. apply (site_good B n HB (higher_spin_op B n) (spinS_site B) spinS_known).
  - intros l Hl. apply higher_spin_op_acts; assumption.
  - intros o Ho. unfold spinS_known in *. cbn [In] in *. destruct Ho as [<-|[<-|[<-|[<-|[]]]]]; cbn; tauto.
  - intros o a b Ho Ha Hb. unfold spinS_known in Ho. cbn [In] in Ho. destruct Ho as [<-|[<-|[<-|[<-|[]]]]]; cbn.
    + rewrite N.eqb_sym. destruct (a =? b); apply C_eq; cbn; ring.
    + rewrite N.eqb_sym. destruct (N.eqb_spec a b) as [->|]; apply C_eq; cbn; ring.
    + destruct (N.eqb_spec b (a + 1)) as [E1|E1], (N.eqb_spec (a + 1) b) as [E2|E2]; try congruence; try (apply C_eq; cbn; ring). subst b.
      rewrite Nr_add, Nr_1, Cconj_RtoC. f_equal. f_equal. field.
    + destruct (N.eqb_spec (b + 1) a) as [E1|E1], (N.eqb_spec a (b + 1)) as [E2|E2]; try congruence; try (apply C_eq; cbn; ring). subst a.
      rewrite Nr_add, Nr_1, Cconj_RtoC. f_equal. f_equal. field.
Qed.

(* fermions *)
Section FermionGood.
Variables (bytes : N) (n : nat).
Hypothesis Hw : N.of_nat n <= 8 * bytes.
Hypothesis Hn : (n <= 256)%nat.
Let M := N.to_nat (2 ^ N.of_nat n).
Notation cop := (cop bytes n).

Lemma fermion_cases o : fermion_known o -> (o = "+" \/ o = "-")%char /\ is_pm o = true \/ (o = "I" \/ o = "n" \/ o = "z")%char /\ is_pm o = false.
Proof. unfold fermion_known. cbn [In]. intros [<-|[<-|[<-|[<-|[<-|[]]]]]]; cbn; tauto. Qed.
Lemma diag_fstate o p s : is_pm o = false -> fstate o p s = s.
Proof. unfold is_pm, fstate. intros ->. reflexivity. Qed.
Lemma diag_famp_other o p q s : (o = "I" \/ o = "n" \/ o = "z")%char -> p <> q -> famp o q (flipp p s) = famp o q s.
Proof.
  intros Ho Ne. unfold famp. rewrite flipp_occ. destruct (Nat.eqb_spec q p); [lia|]. destruct Ho as [->|[->| ->]]; reflexivity.
Qed.
Lemma prod_mono' o o' i j s : fermion_known o -> fermion_known o' -> (i < n)%nat -> (j < n)%nat -> s < 2 ^ N.of_nat n ->
  mono M (mmul M (cop o i) (cop o' j)) s (fstate o (n - i - 1) (fstate o' (n - j - 1) s)) (famp o (n - i - 1) (fstate o' (n - j - 1) s) * famp o' (n - j - 1) s)%C.
Proof.
  intros Ho Ho' Hi Hj Hs. eapply mono_mul; [exact (cop_mono bytes n Hw Hn o' j s Ho' Hj Hs)|].
  apply (cop_mono bytes n Hw Hn o i _ Ho Hi). apply fstate_lt; [lia|exact Hs].
Qed.
Lemma fermion_comm o o' i j : fermion_known o -> fermion_known o' -> (i < n)%nat -> (j < n)%nat -> i <> j ->
  meq M (mmul M (cop o i) (cop o' j)) (mscale (RtoC (IZR (sg is_pm (o, i) (o', j)))) (mmul M (cop o' j) (cop o i))).
Proof.
  intros Ho Ho' Hi Hj Ne r s Hr Hs. unfold M in Hr, Hs. rewrite N2Nat.id in Hr, Hs. unfold mscale.
  rewrite (mono_entry n _ _ _ _ r (prod_mono' o o' i j s Ho Ho' Hi Hj Hs) Hr), (mono_entry n _ _ _ _ r (prod_mono' o' o j i s Ho' Ho Hj Hi Hs) Hr).
  set (p := (n - i - 1)%nat). set (q := (n - j - 1)%nat). assert (Npq : p <> q) by (unfold p, q; lia).
  unfold sg. cbn [fst]. destruct (fermion_cases o Ho) as [[Hc E]|[Hc E]], (fermion_cases o' Ho') as [[Hc' E']|[Hc' E']]; rewrite E, E'; cbn [andb].
  - rewrite !(pm_fstate o), !(pm_fstate o') by assumption. rewrite (flipp_comm q p). destruct (r =? _); [|ring].
    rewrite !(famp_other bytes n Hw Hn) by (assumption || lia). destruct (Nat.ltb_spec q p), (Nat.ltb_spec p q); try lia; apply C_eq; cbn; ring.
  - rewrite !(diag_fstate o') by assumption. rewrite !(pm_fstate o) by assumption. destruct (r =? _); [|apply C_eq; cbn; ring].
    rewrite (diag_famp_other o' p q) by assumption. apply C_eq; cbn; ring.
  - rewrite !(diag_fstate o) by assumption. rewrite !(pm_fstate o') by assumption. destruct (r =? _); [|apply C_eq; cbn; ring].
    rewrite (diag_famp_other o q p) by (assumption || congruence). apply C_eq; cbn; ring.
  - rewrite !(diag_fstate o), !(diag_fstate o') by assumption. destruct (r =? s); apply C_eq; cbn; ring.
Qed.
Lemma diag_adj o i : (o = "I" \/ o = "n" \/ o = "z")%char -> (i < n)%nat -> meq M (madj (cop o i)) (cop o i).
Proof.
  intros Ho Hi r s Hr Hs. unfold M in Hr, Hs. rewrite N2Nat.id in Hr, Hs. unfold madj.
  assert (K : fermion_known o) by (unfold fermion_known; cbn; destruct Ho as [->|[->| ->]]; tauto).
  assert (E : is_pm o = false) by (destruct Ho as [->|[->| ->]]; reflexivity).
  rewrite (mono_entry n _ _ _ _ s (cop_mono bytes n Hw Hn o i r K Hi Hr) Hs), (mono_entry n _ _ _ _ r (cop_mono bytes n Hw Hn o i s K Hi Hs) Hr).
  rewrite !diag_fstate by exact E. rewrite N.eqb_sym. destruct (N.eqb_spec r s) as [->|_]; [|apply C_eq; cbn; ring].
  destruct Ho as [->|[->| ->]]; unfold famp; destruct (occupied s (n - i - 1)); apply C_eq; cbn; ring.
Qed.
Lemma fermion_good : good_ops M (fermion_op bytes n) cop is_pm (fun oi => fermion_known (fst oi) /\ (snd oi < n)%nat).
Proof.
  split.
  - intros l Hl. apply fermion_string_acts; assumption.
  - intros [o i] [o' j] [Hx Hi] [Hy Hj] Ne. cbn [fst snd] in *. apply fermion_comm; assumption.
  - intros [o i] [Hx Hi]. cbn [fst snd] in *. unfold fermion_known in Hx. cbn [In] in Hx. destruct Hx as [<-|[<-|[<-|[<-|[<-|[]]]]]].
    + apply diag_adj; [tauto|exact Hi].
    + apply diag_adj; [tauto|exact Hi].
    + apply diag_adj; [tauto|exact Hi].
    + change (swap_pm "+") with "-"%char. transitivity (madj (madj (cop "-" i))); [apply madj_proper; apply adjoint_op; assumption|apply madj_invol].
    + change (swap_pm "-") with "+"%char. symmetry. apply adjoint_op; assumption.
  - intros [o i] [Hx Hi]. cbn [fst snd] in *. split; [|exact Hi]. unfold fermion_known in *. cbn [In] in *. destruct Hx as [<-|[<-|[<-|[<-|[<-|[]]]]]]; cbn; tauto.
  - apply swap_pm_is_pm.
Qed.
End FermionGood.
