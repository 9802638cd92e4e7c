(* C55: what the constructors of the one-dimensional bases build from their arguments. *)
From Verif Require Import AuxN SpecDigits SpecChain M_bits1d SpecChain1d SpecCheck1d SpecBlock1d SpecSpan1d P_check1d C39_checks C52_sectors C52_complete SpecInit1d M_init1d M_alloc1d SpecAlloc1d P_alloc1d4.
From Coq Require Import Reals Lra.
From Flocq Require Import Core.
Local Open Scope Z_scope.

(* ---- the base class ---- *)
Lemma bad_none x : bad x = None -> x = Absent \/ exists v, x = Int v /\ (v = 1 \/ v = -1).
Proof. destruct x as [|v|]; cbn; [left; reflexivity| |discriminate]. destruct (Z.eqb_spec (Z.abs v) 1); [|discriminate]. intros _. right. exists v. split; [reflexivity|lia]. Qed.
Lemma base_built {P} sps L (np : option (list P)) a l b kb T np' : base_init sps L np a l = Built b kb T np' ->
  (1 <= L)%nat /\ 2 <= sps /\ a <> 0 /\ Z.of_nat L mod a = 0 /\ bad (l_p l) = None /\ bad (l_z l) = None /\ bad (l_A l) = None /\ bad (l_B l) = None /\ bad (l_pz l) = None /\
  l_k l <> Other /\ (is_int (l_p l) && (is_int (l_A l) || is_int (l_B l)))%bool = false /\ np <> Some [] /\
  b = branch l (match np with None => true | Some _ => false end) /\ kb = val (l_k l) mod (Z.of_nat L / a) /\ T = a /\ np' = np.
Proof.
  unfold base_init. destruct (Nat.eqb_spec L 0); [discriminate|]. destruct (Z.ltb_spec sps 2); [discriminate|]. destruct (Z.eqb_spec a 0); [discriminate|]. destruct (Z.eqb_spec (Z.of_nat L mod a) 0); [|discriminate]. cbn [negb first_bad].
  destruct (bad (l_p l)); [discriminate|]. destruct (bad (l_z l)); [discriminate|]. destruct (bad (l_A l)); [discriminate|]. destruct (bad (l_B l)); [discriminate|]. destruct (bad (l_pz l)); [discriminate|].
  destruct (l_k l) as [|vk|] eqn:Ek; [| |discriminate]; (destruct np as [[|x0 xs]|]; [discriminate| |]); (destruct (is_int (l_p l) && (is_int (l_A l) || is_int (l_B l)))%bool; [discriminate|]); intros E; injection E as <- <- <- <-; repeat split; try assumption; try congruence; lia.
Qed.
Lemma bad_pm v : bad (Int v) = None -> pm v. Proof. intros H. destruct (bad_none _ H) as [E|(v' & E & H')]; [discriminate|]. injection E as <-. exact H'. Qed.
Lemma branch_ok w k L a l full : (1 <= L)%nat -> 1 <= a -> Z.of_nat L mod a = 0 -> bad (l_p l) = None -> bad (l_z l) = None -> bad (l_A l) = None -> bad (l_B l) = None -> bad (l_pz l) = None ->
  l_k l <> Other -> shift_fits w k L (- a) -> (is_int (l_z l) || is_int (l_pz l) = true -> has_inversion k)%bool -> (is_int (l_A l) || is_int (l_B l) = true -> has_sublattices k)%bool ->
  (is_int (l_k l) && (is_int (l_A l) || is_int (l_B l)) = true -> a mod 2 = 0)%bool ->
  block_ok w k L (Z.to_nat a) (branch l full).
Proof.
  intros HL Ha Hd Gp Gz GA GB Gpz Hk SF HI HS HE. assert (HC : cells w k L (Z.to_nat a)).
  { split; [rewrite Z2Nat.id by lia; exact SF|]. split; [lia|]. exists (Z.to_nat (Z.of_nat L / a)). apply Nat2Z.inj. rewrite Nat2Z.inj_mul, !Z2Nat.id; [|apply Z.div_pos; lia|lia]. pose proof (Z.div_mod (Z.of_nat L) a ltac:(lia)). lia. }
  assert (EV : (is_int (l_k l) && (is_int (l_A l) || is_int (l_B l)))%bool = true -> Nat.even L = true /\ Nat.even (Z.to_nat a) = true).
  { intros H. specialize (HE H). assert (E2 : exists c, a = 2 * c) by (exists (a / 2); pose proof (Z.div_mod a 2 ltac:(lia)); lia). destruct E2 as [c Ec]. assert (EL : exists d, Z.of_nat L = a * d) by (exists (Z.of_nat L / a); pose proof (Z.div_mod (Z.of_nat L) a ltac:(lia)); lia). destruct EL as [d Ed]. split; apply Nat.even_spec.
    - exists (Z.to_nat (c * d)). apply Nat2Z.inj. rewrite Nat2Z.inj_mul, Z2Nat.id by nia. nia.
    - exists (Z.to_nat c). apply Nat2Z.inj. rewrite Nat2Z.inj_mul, !Z2Nat.id by lia. lia. }
  split; [exact (proj1 SF)|]. split; [intros _; exact HC|]. destruct l as [lk lp lz lA lB lpz]. cbn [l_k l_p l_z l_A l_B l_pz] in *.
  destruct lk as [|vk|]; [| |congruence]; (destruct lp as [|vp|]; [| |discriminate]); (destruct lz as [|vz|]; [| |discriminate]); (destruct lA as [|vA|]; [| |discriminate]); (destruct lB as [|vB|]; [| |discriminate]); (destruct lpz as [|vpz|]; [| |discriminate]);
    cbn [branch l_k l_p l_z l_A l_B l_pz is_int val andb orb] in *; try (destruct full); try exact I;
    repeat match goal with H : bad (Int _) = None |- _ => apply bad_pm in H end;
    try (specialize (HI eq_refl)); try (specialize (HS eq_refl)); try (destruct (EV eq_refl) as [E1 E2]); repeat split; assumption.
Qed.
Lemma branch_honoured l : l_k l <> Other -> bad (l_p l) = None -> bad (l_z l) = None -> bad (l_A l) = None -> bad (l_B l) = None -> bad (l_pz l) = None ->
  (is_int (l_p l) && (is_int (l_A l) || is_int (l_B l)))%bool = false -> separate l -> forall full, honoured l (branch l full).
Proof.
  destruct l as [lk lp lz lA lB lpz]. unfold separate. cbn [l_k l_p l_z l_A l_B l_pz]. intros Hk Gp Gz GA GB Gpz.
  destruct lk as [|vk|]; [| |congruence]; (destruct lp as [|vp|]; [| |discriminate]); (destruct lz as [|vz|]; [| |discriminate]); (destruct lA as [|vA|]; [| |discriminate]); (destruct lB as [|vB|]; [| |discriminate]); (destruct lpz as [|vpz|]; [| |discriminate]);
    cbn [is_int andb orb]; intros HPA [S1 S2]; try discriminate HPA; try (exfalso; destruct S1 as [S1|(S1 & S1' & S1'' & S1''')]; discriminate); try (exfalso; destruct S2 as [S2|(S2 & S2')]; discriminate); clear HPA S1 S2 Gp Gz GA GB Gpz Hk;
    intros full; unfold branch; cbn [l_k l_p l_z l_A l_B l_pz is_int val andb orb]; try destruct full;
    unfold honoured; cbn [translates l_k]; (split; [|split; [|split; [intros H; try discriminate H; try congruence|intros H; try reflexivity; congruence]]]);
    try (intros v word HW; unfold wants in HW; cbn [l_k l_p l_z l_A l_B l_pz] in HW; repeat (destruct HW as [HW|HW]); destruct HW as [HW ->]; try discriminate HW; injection HW as <-; cbn [symmetries In]; tauto);
    try (intros word HW; cbn [generators translates app In] in HW; repeat (destruct HW as [<-|HW]); try contradiction; try (left; split; [reflexivity|discriminate]); right; eexists; unfold wants; cbn [l_k l_p l_z l_A l_B l_pz]; eauto 10).
Qed.
Lemma spin_built sps L Nup a c l b kb T np : spin_init sps L Nup a c l = Built b kb T np ->
  let pz := if (is_int (l_p l) && is_int (l_z l))%bool then Int (val (l_p l) * val (l_z l)) else l_pz l in
  let z := if (is_int (l_A l) && is_int (l_B l))%bool then Int (val (l_A l) * val (l_B l)) else l_z l in
  number_list (wrap_arg ((sps - 1) * Z.of_nat L) Nup) = Some np /\
  (c = true -> z_checks (fun n => if n =? Z.of_nat L * (sps - 1) / 2 then None else Some ValueErr) L sps np a (l_k l) z (l_A l) (l_B l) pz = None) /\
  base_init sps L np a (Labels (l_k l) (l_p l) z (l_A l) (l_B l) pz) = Built b kb T np.
Proof.
  unfold spin_init. destruct (number_list _) as [np0|]; [|discriminate]. cbv zeta. intros H.
  assert (E : base_init sps L np0 a (Labels (l_k l) (l_p l) (if (is_int (l_A l) && is_int (l_B l))%bool then Int (val (l_A l) * val (l_B l)) else l_z l) (l_A l) (l_B l) (if (is_int (l_p l) && is_int (l_z l))%bool then Int (val (l_p l) * val (l_z l)) else l_pz l)) = Built b kb T np).
  { destruct (if c then _ else None); [discriminate|exact H]. }
  assert (En : np = np0) by (apply base_built in E; apply E). subst np0. split; [reflexivity|]. split; [|exact E]. intros ->. destruct (z_checks _ _ _ _ _ _ _ _ _); [discriminate|reflexivity].
Qed.
Lemma checks_none {P} (half : P -> option exn) L sps np a k z A B pz : z_checks half L sps np a k z A B pz = None ->
  (np <> None -> (is_int z || is_int pz)%bool = true -> (Z.of_nat L * (sps - 1)) mod 2 = 0 /\ exists n ns, np = Some (n :: ns) /\ half n = None) /\
  (np <> None -> (is_int A || is_int B)%bool = false) /\ ((is_int k && (is_int A || is_int B))%bool = true -> a mod 2 = 0).
Proof.
  unfold z_checks. destruct np as [ns|]; cbn [given andb].
  - destruct (is_int z || is_int pz)%bool.
    + destruct ns as [|n ns]; [discriminate|]. destruct (Z.eqb_spec ((Z.of_nat L * (sps - 1)) mod 2) 0); [|discriminate]. cbn [negb]. destruct (half n) eqn:Eh; [discriminate|]. destruct (is_int A || is_int B)%bool; [discriminate|]. intros _. split; [intros _ _; split; [assumption|]; exists n, ns; split; [reflexivity|exact Eh]|]. split; [reflexivity|]. rewrite andb_false_r. discriminate.
    + destruct (is_int A || is_int B)%bool; [discriminate|]. intros _. split; [discriminate|]. split; [reflexivity|]. rewrite andb_false_r. discriminate.
  - intros H. split; [congruence|]. split; [congruence|]. intros Hk. rewrite Hk in H. cbn [andb] in H. destruct (Z.eqb_spec (a mod 2) 0); [assumption|discriminate].
Qed.
Lemma hasi sps : has_inversion (site_kind sps). Proof. unfold site_kind. destruct (sps <=? 2); exact I. Qed.
Lemma hass sps : has_sublattices (site_kind sps). Proof. unfold site_kind. destruct (sps <=? 2); exact I. Qed.
Lemma kind_levels sps : 2 <= sps -> Z.of_N (levels (site_kind sps)) = sps. Proof. unfold site_kind. destruct (Z.leb_spec sps 2); intros; cbn [levels]; [cbn; lia|rewrite Z2N.id; lia]. Qed.
Lemma kind_spf sps : site_kind sps <> Spf. Proof. unfold site_kind. destruct (sps <=? 2); discriminate. Qed.

Lemma good_labels l : separate l -> bad (l_p l) = None -> bad (if (is_int (l_A l) && is_int (l_B l))%bool then Int (val (l_A l) * val (l_B l)) else l_z l) = None -> bad (l_A l) = None -> bad (l_B l) = None ->
  bad (if (is_int (l_p l) && is_int (l_z l))%bool then Int (val (l_p l) * val (l_z l)) else l_pz l) = None -> bad (l_z l) = None /\ bad (l_pz l) = None.
Proof.
  intros [S1 S2] Gp Gz GA GB Gpz. split.
  - destruct S2 as [->|[EA _]]; [reflexivity|]. rewrite EA in Gz. exact Gz.
  - destruct S1 as [->|[EA _]]; [reflexivity|]. rewrite EA in Gpz. exact Gpz.
Qed.
(* An accepted call of spin_basis_1d builds a valid block: labels +-1, the unit cell divides the chain, sublattice
   inversions with momentum only for an even unit cell; kblock is the momentum asked for modulo the number of cells.  If
   no two labels overlap, every label that was passed is an int, and +-1 except for kblock. *)
Theorem C55_spin_block : forall sps L Nup a l b kb T np w,
  spin_init sps L Nup a true l = Built b kb T np -> 1 <= a -> shift_fits w (site_kind sps) L (- a) ->
  T = a /\ block_ok w (site_kind sps) L (Z.to_nat T) b /\ 0 <= kb < Z.of_nat L / a /\ (forall v, l_k l = Int v -> exists m, v = kb + m * (Z.of_nat L / a)) /\
  (separate l -> integers l /\ forall v word, wants l v word -> v = 1 \/ v = -1).
Proof.
  intros sps L Nup a l b kb T np w E Ha SF. destruct (spin_built _ _ _ _ _ _ _ _ _ _ E) as (_ & Ec & Eb). specialize (Ec eq_refl). pose proof (checks_none _ _ _ _ _ _ _ _ _ _ Ec) as (_ & _ & HE). clear E Ec.
  destruct (base_built _ _ _ _ _ _ _ _ _ Eb) as (HL & Hs & _ & Hd & Gp & Gz & GA & GB & Gpz & Hk & HPA & _ & -> & -> & -> & _). cbn [l_k l_p l_z l_A l_B l_pz] in *.
  assert (Pn : 0 < Z.of_nat L / a) by (pose proof (Z.div_mod (Z.of_nat L) a ltac:(lia)); nia).
  split; [reflexivity|]. split; [|split; [apply Z.mod_pos_bound, Pn|split]].
  - apply branch_ok; cbn [l_k l_p l_z l_A l_B l_pz]; try assumption; intros _; [apply hasi|apply hass].
  - intros v ->. cbn [val]. exists (v / (Z.of_nat L / a)). pose proof (Z.div_mod v (Z.of_nat L / a) ltac:(lia)). lia.
  - intros Sep. destruct (good_labels l Sep Gp Gz GA GB Gpz) as (Gz' & Gpz'). assert (G : forall x, bad x = None -> integer x) by (intros x H Ex; rewrite Ex in H; discriminate H). split; [repeat split; try (apply G; assumption); exact Hk|].
    intros v word HW. unfold wants in HW. repeat (destruct HW as [HW|HW]); destruct HW as [HW _]; rewrite HW in *; apply bad_pm; assumption.
Qed.
Print Assumptions C55_spin_block.
Lemma base_honoured {P} sps L (np : option (list P)) a l b kb T np' : separate l ->
  base_init sps L np a (Labels (l_k l) (l_p l) (if (is_int (l_A l) && is_int (l_B l))%bool then Int (val (l_A l) * val (l_B l)) else l_z l) (l_A l) (l_B l) (if (is_int (l_p l) && is_int (l_z l))%bool then Int (val (l_p l) * val (l_z l)) else l_pz l)) = Built b kb T np' -> honoured l b.
Proof.
  intros Sep Eb.
  destruct (base_built _ _ _ _ _ _ _ _ _ Eb) as (_ & _ & _ & _ & Gp & Gz & GA & GB & Gpz & Hk & HPA & _ & -> & _). cbn [l_k l_p l_z l_A l_B l_pz] in *.
  destruct (good_labels l Sep Gp Gz GA GB Gpz) as (Gz' & Gpz').
  assert (EB : forall full, branch (Labels (l_k l) (l_p l) (if (is_int (l_A l) && is_int (l_B l))%bool then Int (val (l_A l) * val (l_B l)) else l_z l) (l_A l) (l_B l) (if (is_int (l_p l) && is_int (l_z l))%bool then Int (val (l_p l) * val (l_z l)) else l_pz l)) full = branch l full).
  { intros full. destruct l as [lk lp lz lA lB lpz]. unfold separate in Sep. cbn [l_k l_p l_z l_A l_B l_pz] in *. unfold branch. cbn [l_k l_p l_z l_A l_B l_pz].
    destruct lk as [|vk|]; [| |congruence]; (destruct lp as [|vp|]; [| |discriminate]); (destruct lz as [|vz|]; [| |discriminate]); (destruct lA as [|vA|]; [| |discriminate]); (destruct lB as [|vB|]; [| |discriminate]); (destruct lpz as [|vpz|]; [| |discriminate]); cbn [is_int andb orb val] in *; try reflexivity; try discriminate HPA; exfalso; clear - Sep; intuition discriminate. }
  rewrite EB. apply branch_honoured; assumption.
Qed.
(* The block has the labels that were passed, and no others.  Missing: overlapping labels, for which the claim is false
   (C55_overlapping_labels_refuted) *)
Theorem C55_spin_labels_partial : forall sps L Nup a c l b kb T np,
  spin_init sps L Nup a c l = Built b kb T np -> separate l -> honoured l b.
Proof. intros sps L Nup a c l b kb T np E Sep. destruct (spin_built _ _ _ _ _ _ _ _ _ _ E) as (_ & _ & Eb). exact (base_honoured _ _ _ _ _ _ _ _ _ Sep Eb). Qed.
Print Assumptions C55_spin_labels_partial.

(* The particle numbers are those passed; a negative number counts from the top, -1 is the largest number (2S L) *)
Theorem C55_spin_numbers : forall sps L Nup a c l b kb T np,
  spin_init sps L Nup a c l = Built b kb T np ->
  match Nup with
  | N_none => np = None
  | N_one n => np = Some [if n <? 0 then (sps - 1) * Z.of_nat L + 1 + n else n]
  | N_list ns => ns <> [] /\ np = Some (map (fun n => if n <? 0 then (sps - 1) * Z.of_nat L + 1 + n else n) ns)
  | N_other => False
  end.
Proof.
  intros sps L Nup a c l b kb T np E. destruct (spin_built _ _ _ _ _ _ _ _ _ _ E) as (En & _ & Eb). destruct (base_built _ _ _ _ _ _ _ _ _ Eb) as (_ & _ & _ & _ & _ & _ & _ & _ & _ & _ & _ & Nn & _). clear E Eb.
  assert (W : forall n, wrap_number ((sps - 1) * Z.of_nat L) n = if n <? 0 then (sps - 1) * Z.of_nat L + 1 + n else n) by (intros n; unfold wrap_number; destruct (n <? 0); lia).
  destruct Nup as [|n|ns|]; cbn [wrap_arg number_list] in En; [| | |discriminate]; injection En as <-; [reflexivity|rewrite W; reflexivity|]. split; [intros ->; apply Nn; reflexivity|]. f_equal. apply map_ext, W.
Qed.
Print Assumptions C55_spin_numbers.

(* With particle numbers: inversion needs the first of them to be half filling, sublattice inversions are rejected *)
Theorem C55_spin_half_filling : forall sps L Nup a l b kb T n ns,
  spin_init sps L Nup a true l = Built b kb T (Some (n :: ns)) ->
  (wants_inversion l -> 2 * n = Z.of_nat L * (sps - 1)) /\ ~ wants_sublattice l.
Proof.
  intros sps L Nup a l b kb T n ns E. destruct (spin_built _ _ _ _ _ _ _ _ _ _ E) as (_ & Ec & Eb). specialize (Ec eq_refl). pose proof (checks_none _ _ _ _ _ _ _ _ _ _ Ec) as (H1 & H2 & _). clear E Ec Eb.
  specialize (H1 ltac:(discriminate)). specialize (H2 ltac:(discriminate)). split.
  - intros (v & word & HW & HZ). destruct H1 as (Ev & n' & ns' & En & Hh).
    + unfold wants in HW. apply orb_true_iff. destruct HW as [[_ ->]|[[EW _]|[[_ ->]|[[_ ->]|[EW _]]]]]; try (cbn in HZ; intuition discriminate).
      * left. destruct (is_int (l_A l) && is_int (l_B l))%bool; [reflexivity|]. rewrite EW. reflexivity.
      * right. destruct (is_int (l_p l) && is_int (l_z l))%bool; [reflexivity|]. rewrite EW. reflexivity.
    + injection En as <- <-. destruct (Z.eqb_spec n (Z.of_nat L * (sps - 1) / 2)) as [->|]; [|discriminate]. pose proof (Z.div_mod (Z.of_nat L * (sps - 1)) 2 ltac:(lia)). lia.
  - intros (v & word & HW & HAB). apply orb_false_iff in H2. destruct H2 as [HA HB]. unfold wants in HW. destruct HW as [[_ ->]|[[_ ->]|[[EW _]|[[EW _]|[_ ->]]]]]; try (cbn in HAB; intuition discriminate); rewrite EW in *; discriminate.
Qed.
Print Assumptions C55_spin_half_filling.

(* Without particle number, or with one, the states enumerated are closed under the symmetries of the block: the
   hypothesis of the completeness theorems of C52 is met by every accepted call *)
Theorem C55_spin_closed : forall sps L Nup a l b kb T np w states,
  spin_init sps L Nup a true l = Built b kb T np -> 1 <= a -> shift_fits w (site_kind sps) L (- a) -> separate l ->
  (np = None /\ (forall s, In s states <-> is_state (site_kind sps) L s)) \/
  (exists n : nat, np = Some [Z.of_nat n] /\ forall s, In s states <-> in_number (site_kind sps) L (n, 0%nat) s) ->
  closed w (site_kind sps) L (Z.to_nat T) b states.
Proof.
  intros sps L Nup a l b kb T np w states E Ha SF Sep H. destruct (C55_spin_block _ _ _ _ _ _ _ _ _ w E Ha SF) as (_ & OK & _). destruct H as [[-> Hall]|(n & -> & Hall)]; [apply C52_full_closed; assumption|].
  destruct (C55_spin_half_filling _ _ _ _ _ _ _ _ _ _ E) as [HZ HAB]. destruct (C55_spin_labels_partial _ _ _ _ _ _ _ _ _ _ E Sep) as (_ & HG & _).
  assert (Hs : 2 <= sps) by (destruct (spin_built _ _ _ _ _ _ _ _ _ _ E) as (_ & _ & Eb); apply base_built in Eb; apply Eb).
  apply (C52_number_closed w (site_kind sps) L (Z.to_nat T) b states (N.of_nat n) OK (kind_spf sps)).
  - intros g Hg. destruct (HG g Hg) as [[-> _]|(v & HW)]; [cbn; intuition discriminate|]. split; intros I; apply HAB; exists v, g; split; try exact HW; [left|right]; exact I.
  - intros g Hg I. assert (WI : wants_inversion l) by (destruct (HG g Hg) as [[-> _]|(v & HW)]; [cbn in I; intuition discriminate|exists v, g; split; assumption]). specialize (HZ WI). pose proof (kind_levels sps Hs) as KL. apply N2Z.inj. rewrite !N2Z.inj_mul, N2Z.inj_sub by lia. rewrite KL, !nat_N_Z. exact HZ.
  - intros s. rewrite Hall. unfold in_number. cbn [fst]. pose proof (kind_spf sps). destruct (site_kind sps); [reflexivity|reflexivity|congruence].
Qed.
Print Assumptions C55_spin_closed.

(* ---- valid arguments are accepted ---- *)
Lemma base_accepts {P} sps L (np : option (list P)) a l : (1 <= L)%nat -> 2 <= sps -> a <> 0 -> Z.of_nat L mod a = 0 ->
  bad (l_p l) = None -> bad (l_z l) = None -> bad (l_A l) = None -> bad (l_B l) = None -> bad (l_pz l) = None -> l_k l <> Other ->
  (is_int (l_p l) && (is_int (l_A l) || is_int (l_B l)))%bool = false -> np <> Some [] -> exists b kb T, base_init sps L np a l = Built b kb T np.
Proof.
  intros HL Hs Ha Hd Gp Gz GA GB Gpz Hk HPA Nn. unfold base_init. destruct (Nat.eqb_spec L 0); [lia|]. destruct (Z.ltb_spec sps 2); [lia|]. destruct (Z.eqb_spec a 0); [lia|]. rewrite Hd. cbn [Z.eqb negb first_bad]. rewrite Gp, Gz, GA, GB, Gpz, HPA. cbv zeta.
  destruct (l_k l); [| |congruence]; (destruct np as [[|x0 xs]|]; [congruence| |]); repeat eexists.
Qed.
Lemma pm_good x : x <> Other -> (forall v, x = Int v -> v = 1 \/ v = -1) -> bad x = None.
Proof. intros Hx Hv. destruct x as [|v|]; [reflexivity| |congruence]. cbn [bad]. destruct (Hv v eq_refl) as [->| ->]; reflexivity. Qed.
Lemma prod_good x y : bad x = None -> bad y = None -> is_int x = true -> is_int y = true -> bad (Int (val x * val y)) = None.
Proof. intros Hx Hy. destruct (bad_none _ Hx) as [->|(v & -> & Hv)]; [discriminate|]. destruct (bad_none _ Hy) as [->|(u & -> & Hu)]; [discriminate|]. intros _ _. cbn [val]. destruct Hv as [->| ->], Hu as [->| ->]; reflexivity. Qed.
Lemma int_absent x : x = Absent -> is_int x = false. Proof. intros ->. reflexivity. Qed.
(* Labels as the documentation allows them *)
Definition allowed (l : labels) : Prop :=
  integers l /\ separate l /\ (forall v word, wants l v word -> v = 1 \/ v = -1) /\ (l_p l = Absent \/ l_A l = Absent /\ l_B l = Absent).
Lemma allowed_good l : allowed l -> bad (l_p l) = None /\ bad (l_z l) = None /\ bad (l_A l) = None /\ bad (l_B l) = None /\ bad (l_pz l) = None /\ l_k l <> Other /\ (is_int (l_p l) && (is_int (l_A l) || is_int (l_B l)))%bool = false.
Proof.
  intros ((Ik & Ip & Iz & IA & IB & Ipz) & _ & Hv & Hpa). unfold wants in Hv. split; [apply pm_good; [assumption|intros v E; apply (Hv v [LP]); tauto]|]. split; [apply pm_good; [assumption|intros v E; apply (Hv v [LZ]); tauto]|]. split; [apply pm_good; [assumption|intros v E; apply (Hv v [LA]); tauto]|]. split; [apply pm_good; [assumption|intros v E; apply (Hv v [LB]); tauto]|]. split; [apply pm_good; [assumption|intros v E; apply (Hv v [LP; LZ]); tauto]|]. split; [exact Ik|]. destruct Hpa as [->|[-> ->]]; [reflexivity|apply andb_false_r].
Qed.
Theorem C55_spin_accepts : forall sps L Nup a c l,
  (1 <= L)%nat -> 2 <= sps -> 1 <= a -> Z.of_nat L mod a = 0 -> allowed l -> Nup <> N_other -> Nup <> N_list [] ->
  (Nup <> N_none -> ~ wants_sublattice l) ->
  (Nup <> N_none -> wants_inversion l -> forall n ns, number_list (wrap_arg ((sps - 1) * Z.of_nat L) Nup) = Some (Some (n :: ns)) -> 2 * n = Z.of_nat L * (sps - 1)) ->
  (l_k l <> Absent -> wants_sublattice l -> a mod 2 = 0) ->
  exists b kb T np, spin_init sps L Nup a c l = Built b kb T np.
Proof.
  intros sps L Nup a c l HL Hs Ha Hd Al N1 N2 HAB HZ HE. destruct (allowed_good l Al) as (Gp & Gz & GA & GB & Gpz & Hk & HPA). destruct Al as (_ & Sep & _). unfold spin_init.
  assert (En : exists np, number_list (wrap_arg ((sps - 1) * Z.of_nat L) Nup) = Some np /\ np <> Some [] /\ (np <> None -> Nup <> N_none)).
  { destruct Nup as [|n|ns|]; [| | |congruence]; cbn [wrap_arg number_list]; eexists; (split; [reflexivity|]); (split; [|congruence]); try discriminate. destruct ns; [congruence|discriminate]. }
  destruct En as (np & En & Nn & Ng). rewrite En in *. cbv zeta. set (pz := if (is_int (l_p l) && _)%bool then _ else _). set (z := if (_ && is_int (l_B l))%bool then _ else _).
  assert (Gz' : bad z = None) by (unfold z; destruct (is_int (l_A l)) eqn:EA, (is_int (l_B l)) eqn:EB; cbn [andb]; try exact Gz; apply prod_good; assumption).
  assert (Gpz' : bad pz = None) by (unfold pz; destruct (is_int (l_p l)) eqn:EA, (is_int (l_z l)) eqn:EB; cbn [andb]; try exact Gpz; apply prod_good; assumption).
  assert (Iv : forall x, is_int x = true -> exists v, x = Int v) by (intros [|v|]; cbn; try discriminate; intros _; exists v; reflexivity).
  assert (WA : (is_int (l_A l) || is_int (l_B l))%bool = true -> wants_sublattice l).
  { intros H. apply orb_true_iff in H. destruct H as [H|H]; destruct (Iv _ H) as [v Ev]; unfold wants_sublattice, wants; [exists v, [LA]|exists v, [LB]]; (split; [rewrite Ev; tauto|cbn; tauto]). }
  assert (Chk : z_checks (fun n => if n =? Z.of_nat L * (sps - 1) / 2 then None else Some ValueErr) L sps np a (l_k l) z (l_A l) (l_B l) pz = None).
  { unfold z_checks. destruct np as [[|n ns]|]; [congruence| |].
    - specialize (Ng ltac:(discriminate)). assert (NA : (is_int (l_A l) || is_int (l_B l))%bool = false) by (destruct (is_int (l_A l) || is_int (l_B l))%bool; [exfalso; apply (HAB Ng), WA; reflexivity|reflexivity]). rewrite NA. cbn [given andb]. rewrite andb_false_r. cbn [andb].
      destruct (is_int z || is_int pz)%bool eqn:Ez; [|reflexivity]. assert (WI : wants_inversion l).
      { apply orb_false_iff in NA. destruct NA as [NA NB]. unfold z, pz in Ez. rewrite NA in Ez. cbn [andb] in Ez. unfold wants_inversion, wants. destruct (is_int (l_z l)) eqn:EZ.
        - destruct (Iv _ EZ) as [v Ev]. exists v, [LZ]. split; [rewrite Ev; tauto|cbn; tauto].
        - rewrite andb_false_r in Ez. cbn [orb] in Ez. destruct (Iv _ Ez) as [v Ev]. exists v, [LP; LZ]. split; [rewrite Ev; tauto|cbn; tauto]. }
      specialize (HZ Ng WI n ns eq_refl). rewrite <- HZ. replace (2 * n) with (n * 2) by lia. rewrite Z.mod_mul, Z.div_mul by lia. cbn [Z.eqb negb]. rewrite Z.eqb_refl. reflexivity.
    - cbn [given andb]. destruct (is_int (l_k l)) eqn:EK; cbn [andb]; [|reflexivity]. destruct (is_int (l_A l) || is_int (l_B l))%bool eqn:EA; cbn [andb]; [|reflexivity]. rewrite HE; [reflexivity| |apply WA; exact eq_refl]. intros Ek. rewrite Ek in EK. discriminate. }
  rewrite Chk. replace (if c then None else None) with (@None exn) by (destruct c; reflexivity).
  destruct (base_accepts sps L np a (Labels (l_k l) (l_p l) z (l_A l) (l_B l) pz)) as (b & kb & T & Eb); cbn [l_k l_p l_z l_A l_B l_pz]; try assumption; [lia|]. exists b, kb, T, np. exact Eb.
Qed.
Print Assumptions C55_spin_accepts.
