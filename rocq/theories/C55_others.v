(* C55, continued: bosons and fermions, and calls for which the claim is false. *)
From Verif Require Import AuxN SpecDigits SpecChain M_bits1d SpecChain1d SpecCheck1d SpecBlock1d SpecSpan1d P_check1d C39_checks C52_sectors C52_complete SpecInit1d M_init1d M_alloc1d SpecAlloc1d P_alloc1d4 C55_init.
From Coq Require Import Reals Lra.
From Flocq Require Import Core.
Local Open Scope Z_scope.

Definition only_kp (k p : label) : labels := Labels k p Absent Absent Absent Absent.
(* Spinless fermions: an accepted call builds the valid block with the labels, momentum and particle numbers passed, on
   states that are closed under its symmetries *)
Theorem C55_fermion_block : forall L Nf a k p b kb T np w,
  fermion_init L Nf a k p = Built b kb T np -> 1 <= a -> shift_fits w (Hcp true) L (- a) ->
  T = a /\ block_ok w (Hcp true) L (Z.to_nat T) b /\ honoured (only_kp k p) b /\ integer k /\ integer p /\
  0 <= kb < Z.of_nat L / a /\ (forall v, k = Int v -> exists m, v = kb + m * (Z.of_nat L / a)) /\
  match Nf with N_none => np = None | N_one n => np = Some [n] | N_list ns => ns <> [] /\ np = Some ns | N_other => False end /\
  (forall states, (np = None /\ (forall s, In s states <-> is_state (Hcp true) L s)) \/
                  (exists n : nat, np = Some [Z.of_nat n] /\ forall s, In s states <-> in_number (Hcp true) L (n, 0%nat) s) -> closed w (Hcp true) L (Z.to_nat T) b states).
Proof.
  intros L Nf a k p b kb T np w E Ha SF. unfold fermion_init in E. destruct (number_list Nf) as [np0|] eqn:En; [|discriminate].
  destruct (base_built _ _ _ _ _ _ _ _ _ E) as (HL & _ & _ & Hd & Gp & _ & _ & _ & _ & Hk & _ & Nn & -> & -> & -> & ->). cbn [l_k l_p l_z l_A l_B l_pz] in *.
  assert (Pn : 0 < Z.of_nat L / a) by (pose proof (Z.div_mod (Z.of_nat L) a ltac:(lia)); nia).
  assert (Sep : separate (only_kp k p)) by (split; left; reflexivity).
  assert (Ho : honoured (only_kp k p) (branch (only_kp k p) (match np0 with None => true | Some _ => false end))) by (apply branch_honoured; try assumption; try reflexivity; apply andb_false_r).
  assert (OK : block_ok w (Hcp true) L (Z.to_nat a) (branch (only_kp k p) (match np0 with None => true | Some _ => false end))).
  { apply branch_ok; try assumption; try reflexivity; try discriminate. cbn. rewrite andb_false_r. discriminate. }
  split; [reflexivity|]. split; [exact OK|]. split; [exact Ho|]. split; [exact Hk|]. split; [intros ->; discriminate Gp|]. split; [apply Z.mod_pos_bound, Pn|]. split; [|split].
  - intros v ->. cbn [val]. exists (v / (Z.of_nat L / a)). pose proof (Z.div_mod v (Z.of_nat L / a) ltac:(lia)). lia.
  - destruct Nf; cbn in En; try discriminate En; injection En as <-; try reflexivity. split; [intros ->; apply Nn; reflexivity|reflexivity].
  - intros states [[_ Hall]|(n & _ & Hall)]; [apply C52_full_closed; assumption|]. destruct Ho as (_ & HG & _).
    assert (Hw : forall g, In g (generators (branch (only_kp k p) (match np0 with None => true | Some _ => false end))) -> g = [LT] \/ g = [LP]).
    { intros g Hg. destruct (HG g Hg) as [[-> _]|(v & HW)]; [left; reflexivity|]. unfold wants, only_kp in HW. cbn in HW. intuition discriminate. }
    apply (C52_number_closed w (Hcp true) L (Z.to_nat a) _ states (N.of_nat n) OK ltac:(discriminate)); [| |exact Hall]; intros g Hg; destruct (Hw g Hg) as [-> | ->]; cbn; intuition discriminate.
Qed.
Print Assumptions C55_fermion_block.
Theorem C55_fermion_accepts : forall L Nf a k p,
  (1 <= L)%nat -> 1 <= a -> Z.of_nat L mod a = 0 -> integer k -> (p = Absent \/ p = Int 1 \/ p = Int (-1)) -> Nf <> N_other -> Nf <> N_list [] ->
  exists b kb T np, fermion_init L Nf a k p = Built b kb T np.
Proof.
  intros L Nf a k p HL Ha Hd Hk Hp N1 N2. unfold fermion_init. destruct (number_list Nf) as [np|] eqn:En; [|destruct Nf; cbn in En; congruence].
  destruct (base_accepts 2 L np a (only_kp k p)) as (b & kb & T & Eb); cbn [only_kp l_k l_p l_z l_A l_B l_pz]; try assumption; try reflexivity; try lia; try (apply andb_false_r); [destruct Hp as [->|[->| ->]]; reflexivity| |exists b, kb, T, np; exact Eb].
  intros ->. destruct Nf as [|n|[|]|]; cbn in En; congruence.
Qed.
Print Assumptions C55_fermion_accepts.

(* ---- spinful fermions: sblock is the inversion, psblock its product with the reflection ---- *)
Lemma spinful_built L Nf a c k p s ps b kb T np : spinful_init L Nf a c k p s ps = Built b kb T np ->
  let pz := if (is_int p && is_int s)%bool then Int (val p * val s) else ps in
  (match Nf with F_none => np = None | F_pair u d => np = Some [(u, d)] /\ u <= Z.of_nat L /\ d <= Z.of_nat L | F_list l => np = Some l /\ forall n, In n l -> 0 <= fst n <= Z.of_nat L /\ 0 <= snd n <= Z.of_nat L end) /\
  (c = true -> z_checks (fun n => if ((fst n =? Z.of_nat L / 2) && (snd n =? Z.of_nat L / 2))%bool then None else Some ValueErr) L 2 np a k s Absent Absent pz = None) /\
  base_init 2 L np a (Labels k p s Absent Absent pz) = Built b kb T np.
Proof.
  unfold spinful_init. cbv zeta.
  set (arg := match Nf with F_none => Some None | F_pair u d => _ | F_list [] => None | F_list (x :: y) => _ end).
  assert (HN : forall np0, arg = Some np0 -> match Nf with F_none => np0 = None | F_pair u d => np0 = Some [(u, d)] /\ u <= Z.of_nat L /\ d <= Z.of_nat L | F_list l => np0 = Some l /\ forall n, In n l -> 0 <= fst n <= Z.of_nat L /\ 0 <= snd n <= Z.of_nat L end).
  { intros np0. unfold arg. destruct Nf as [|u d|l].
    - intros E. injection E as <-. reflexivity.
    - destruct (Z.ltb_spec (Z.of_nat L) u), (Z.ltb_spec (Z.of_nat L) d); cbn [orb]; try discriminate. intros E. injection E as <-. split; [reflexivity|lia].
    - destruct l as [|n l]; [discriminate|]. destruct (existsb _ (n :: l)) eqn:Ex; [discriminate|]. intros E. injection E as <-. split; [reflexivity|]. intros m Hm.
      assert (Hf : ((Z.of_nat L <? fst m) || (fst m <? 0) || (Z.of_nat L <? snd m) || (snd m <? 0))%bool = false).
      { destruct ((Z.of_nat L <? fst m) || (fst m <? 0) || (Z.of_nat L <? snd m) || (snd m <? 0))%bool eqn:Em; [|reflexivity]. rewrite <- Ex. symmetry. apply existsb_exists. exists m. split; [exact Hm|exact Em]. }
      repeat (apply orb_false_iff in Hf; destruct Hf as [Hf ?]). repeat match goal with H : (_ <? _) = false |- _ => apply Z.ltb_ge in H end. lia. }
  destruct arg as [np0|]; [|discriminate]. intros H.
  assert (E : base_init 2 L np0 a (Labels k p s Absent Absent (if (is_int p && is_int s)%bool then Int (val p * val s) else ps)) = Built b kb T np) by (destruct (if c then _ else None); [discriminate|exact H]).
  assert (En : np = np0) by (apply base_built in E; apply E). subst np0. split; [apply HN; reflexivity|]. split; [|exact E]. intros ->. destruct (z_checks _ _ _ _ _ _ _ _ _ _); [discriminate|reflexivity].
Qed.
Theorem C55_spinful_block : forall L Nf a k p s ps b kb T np w,
  spinful_init L Nf a true k p s ps = Built b kb T np -> 1 <= a -> shift_fits w Spf L (- a) ->
  let l := Labels k p s Absent Absent ps in
  T = a /\ block_ok w Spf L (Z.to_nat T) b /\ 0 <= kb < Z.of_nat L / a /\ (forall v, k = Int v -> exists m, v = kb + m * (Z.of_nat L / a)) /\
  (match Nf with F_none => np = None | F_pair u d => np = Some [(u, d)] | F_list ns => ns <> [] /\ np = Some ns end) /\
  (separate l -> honoured l b /\ integers l /\
     forall states, (np = None /\ (forall s, In s states <-> is_state Spf L s)) \/
       (exists u d : nat, np = Some [(Z.of_nat u, Z.of_nat d)] /\ forall s, In s states <-> in_number Spf L (u, d) s) -> closed w Spf L (Z.to_nat T) b states).
Proof.
  intros L Nf a k p s ps b kb T np w E Ha SF l. destruct (spinful_built _ _ _ _ _ _ _ _ _ _ _ _ E) as (HN & Ec & Eb). specialize (Ec eq_refl). pose proof (checks_none _ _ _ _ _ _ _ _ _ _ Ec) as (H1 & _ & _). clear E Ec.
  destruct (base_built _ _ _ _ _ _ _ _ _ Eb) as (HL & _ & _ & Hd & Gp & Gz & GA & GB & Gpz & Hk & _ & Nn & -> & -> & -> & _). cbn [l_k l_p l_z l_A l_B l_pz] in *. set (pz := if (is_int p && is_int s)%bool then _ else ps) in *.
  assert (Pn : 0 < Z.of_nat L / a) by (pose proof (Z.div_mod (Z.of_nat L) a ltac:(lia)); nia). set (full := match np with None => true | Some _ => false end).
  assert (OK : block_ok w Spf L (Z.to_nat a) (branch (Labels k p s Absent Absent pz) full)).
  { apply branch_ok; try assumption; try reflexivity; try discriminate; cbn [is_int l_k l_A l_B l_z l_pz]; try (intros _; exact I); cbn; rewrite andb_false_r; discriminate. }
  split; [reflexivity|]. split; [exact OK|]. split; [apply Z.mod_pos_bound, Pn|]. split; [|split].
  - intros v ->. cbn [val]. exists (v / (Z.of_nat L / a)). pose proof (Z.div_mod v (Z.of_nat L / a) ltac:(lia)). lia.
  - destruct Nf as [|u d|ns]; [exact HN|apply HN|]. destruct HN as [-> _]. split; [intros ->; apply Nn; reflexivity|reflexivity].
  - intros Sep. destruct (good_labels l Sep Gp Gz GA GB Gpz) as (Gz' & Gpz'). cbn [l l_z l_pz] in Gz', Gpz'.
    assert (EB : branch (Labels k p s Absent Absent pz) full = branch l full).
    { unfold l, pz, branch. unfold separate in Sep. cbn [l l_k l_p l_z l_A l_B l_pz] in *. destruct k as [|vk|]; [| |congruence]; (destruct p as [|vp|]; [| |discriminate]); (destruct s as [|vz|]; [| |discriminate]); (destruct ps as [|vpz|]; [| |discriminate]); cbn [is_int andb orb val] in *; try reflexivity; exfalso; clear - Sep; intuition discriminate. }
    assert (Ho : honoured l (branch l full)) by (apply branch_honoured; try assumption; try reflexivity; apply andb_false_r).
    rewrite EB in *. split; [exact Ho|]. split; [repeat split; cbn [l l_k l_p l_z l_A l_B l_pz]; try exact Hk; try discriminate; intros ->; discriminate|].
    intros states [[_ Hall]|(u & d & En & Hall)]; [apply C52_full_closed; assumption|].
    apply (C52_species_closed w L (Z.to_nat a) _ states (N.of_nat u) (N.of_nat d) OK); [|exact Hall]. intros g Hg IZ. destruct Ho as (_ & HG & _).
    assert (Zi : (is_int s || is_int pz)%bool = true).
    { destruct (HG g Hg) as [[-> _]|(v & HW)]; [cbn in IZ; intuition discriminate|]. unfold wants in HW. cbn [l l_k l_p l_z l_A l_B l_pz] in HW. destruct HW as [[_ ->]|[[-> _]|[[HW _]|[[HW _]|[-> _]]]]]; try discriminate HW; try (exfalso; cbn in IZ; intuition discriminate); try reflexivity. unfold pz. destruct (is_int p && is_int s)%bool; apply orb_true_r. }
    destruct (H1 ltac:(rewrite En; discriminate) Zi) as (_ & n & ns & En' & Hh). rewrite En in En'. injection En' as <- <-. cbn [fst snd] in Hh. destruct (Z.eqb_spec (Z.of_nat u) (Z.of_nat L / 2)), (Z.eqb_spec (Z.of_nat d) (Z.of_nat L / 2)); try discriminate Hh. lia.
Qed.
Print Assumptions C55_spinful_block.

Theorem C55_spinful_accepts : forall L Nf a c k p s ps,
  let l := Labels k p s Absent Absent ps in
  (1 <= L)%nat -> 1 <= a -> Z.of_nat L mod a = 0 -> allowed l ->
  (forall u d, Nf = F_pair u d -> 0 <= u <= Z.of_nat L /\ 0 <= d <= Z.of_nat L) ->
  (forall ns, Nf = F_list ns -> ns <> [] /\ forall n, In n ns -> 0 <= fst n <= Z.of_nat L /\ 0 <= snd n <= Z.of_nat L) ->
  (wants_inversion l -> Nf = F_none \/ exists h, Z.of_nat L = 2 * h /\ Nf = F_pair h h) ->
  exists b kb T np, spinful_init L Nf a c k p s ps = Built b kb T np.
Proof.
  intros L Nf a c k p s ps l HL Ha Hd Al HP HLs HZ. destruct (allowed_good l Al) as (Gp & Gz & GA & GB & Gpz & Hk & HPA). cbn [l l_k l_p l_z l_A l_B l_pz] in *. unfold spinful_init. cbv zeta.
  set (arg := match Nf with F_none => Some None | F_pair u d => _ | F_list [] => None | F_list (x :: y) => _ end).
  assert (HN : exists np, arg = Some np /\ np <> Some [] /\ (Nf = F_none -> np = None) /\ forall u d, Nf = F_pair u d -> np = Some [(u, d)]).
  { unfold arg. destruct Nf as [|u d|ns].
    - exists None. repeat split; discriminate.
    - destruct (HP u d eq_refl) as [[_ H1] [_ H2]]. destruct (Z.ltb_spec (Z.of_nat L) u); [lia|]. destruct (Z.ltb_spec (Z.of_nat L) d); [lia|]. cbn [orb]. exists (Some [(u, d)]). repeat split; try discriminate. intros u' d' E. injection E as <- <-. reflexivity.
    - destruct (HLs ns eq_refl) as [Hn Hb]. destruct ns as [|n ns]; [congruence|]. destruct (existsb _ (n :: ns)) eqn:Ex.
      + exfalso. apply existsb_exists in Ex. destruct Ex as (m & Hm & Em). specialize (Hb m Hm). repeat (apply orb_true_iff in Em; destruct Em as [Em|Em]); apply Z.ltb_lt in Em; lia.
      + exists (Some (n :: ns)). repeat split; discriminate. }
  destruct HN as (np & -> & Nn & N0 & N1). set (pz := if (is_int p && is_int s)%bool then _ else ps).
  assert (Gpz' : bad pz = None) by (unfold pz; destruct (is_int p) eqn:EA, (is_int s) eqn:EB; cbn [andb]; try exact Gpz; apply prod_good; assumption).
  assert (Iv : forall x, is_int x = true -> exists v, x = Int v) by (intros [|v|]; cbn; try discriminate; intros _; exists v; reflexivity).
  assert (Chk : z_checks (fun n => if ((fst n =? Z.of_nat L / 2) && (snd n =? Z.of_nat L / 2))%bool then None else Some ValueErr) L 2 np a k s Absent Absent pz = None).
  { unfold z_checks. cbn [is_int orb]. rewrite !andb_false_r. cbn [andb]. destruct np as [[|n ns]|]; [congruence| |reflexivity]. destruct (is_int s || is_int pz)%bool eqn:Ez; [|reflexivity].
    assert (WI : wants_inversion l).
    { unfold wants_inversion, wants. cbn [l l_k l_p l_z l_A l_B l_pz]. destruct (is_int s) eqn:EZ.
      - destruct (Iv _ EZ) as [v Ev]. exists v, [LZ]. split; [rewrite Ev; tauto|cbn; tauto].
      - unfold pz in Ez. rewrite andb_false_r in Ez. cbn [orb] in Ez. destruct (Iv _ Ez) as [v Ev]. exists v, [LP; LZ]. split; [rewrite Ev; tauto|cbn; tauto]. }
    destruct (HZ WI) as [E|(h & Eh & E)]; [specialize (N0 E); discriminate|]. specialize (N1 h h E). injection N1 as -> ->. rewrite Eh. replace (2 * h * (2 - 1)) with (h * 2) by lia. replace (2 * h) with (h * 2) by lia. rewrite Z.mod_mul, Z.div_mul by lia. cbn [Z.eqb negb fst snd]. rewrite Z.eqb_refl. reflexivity. }
  rewrite Chk. replace (if c then None else None) with (@None exn) by (destruct c; reflexivity).
  destruct (base_accepts 2 L np a (Labels k p s Absent Absent pz)) as (b & kb & T & Eb); cbn [l_k l_p l_z l_A l_B l_pz]; try assumption; try reflexivity; try lia; try (apply andb_false_r). exists b, kb, T, np. exact Eb.
Qed.
Print Assumptions C55_spinful_accepts.

(* ---- bosons: cblock, cAblock, cBblock and pcblock are the inversions and the product with the reflection ---- *)
Lemma boson_built q L Nb a l b kb T np : boson_init (Some q) L Nb a true l = Built b kb T np -> integers l -> l_pz l = Absent ->
  number_list Nb = Some np /\ ((2 <? q) && (is_int (l_z l) || is_int (l_A l) || is_int (l_B l)))%bool = false /\
  z_checks (fun _ => Some NameErr) L q np a (l_k l) (l_z l) (l_A l) (l_B l) (l_pz l) = None /\
  base_init q L np a (Labels (l_k l) (l_p l) (if (is_int (l_A l) && is_int (l_B l))%bool then Int (val (l_A l) * val (l_B l)) else l_z l) (l_A l) (l_B l) (if (is_int (l_p l) && is_int (l_z l))%bool then Int (val (l_p l) * val (l_z l)) else l_pz l)) = Built b kb T np.
Proof.
  intros E (_ & _ & Iz & IA & IB & _) Epz. unfold boson_init in E. destruct (number_list Nb) as [np0|]; [|discriminate]. destruct ((2 <? q) && _)%bool; [discriminate|]. cbv zeta in E.
  assert (R : forall x, integer x -> rename x = x) by (intros [|v|] H; [reflexivity|reflexivity|destruct H; reflexivity]). rewrite !R in E by assumption. rewrite Epz in *. destruct (z_checks _ _ _ _ _ _ _ _ _ _) eqn:Ez; [discriminate|].
  assert (En : np = np0) by (apply base_built in E; apply E). subst np0. repeat split; [exact Ez|exact E].
Qed.
(* An accepted call builds the valid block with the labels passed, on states closed under its symmetries.  Missing: the
   label pcblock (C55_boson_product_refuted), labels that are not ints (C55_boson_integer_refuted); with a particle number and
   cblock no call is accepted (C55_boson_half_filling_refuted) *)
Theorem C55_boson_block_partial : forall q L Nb a l b kb T np w,
  boson_init (Some q) L Nb a true l = Built b kb T np -> 1 <= a -> shift_fits w (site_kind q) L (- a) -> integers l -> separate l -> l_pz l = Absent ->
  T = a /\ block_ok w (site_kind q) L (Z.to_nat T) b /\ honoured l b /\ 0 <= kb < Z.of_nat L / a /\ (forall v, l_k l = Int v -> exists m, v = kb + m * (Z.of_nat L / a)) /\
  match Nb with N_none => np = None | N_one n => np = Some [n] | N_list ns => ns <> [] /\ np = Some ns | N_other => False end /\
  (forall states, (np = None /\ (forall s, In s states <-> is_state (site_kind q) L s)) \/
                  (exists n : nat, np = Some [Z.of_nat n] /\ forall s, In s states <-> in_number (site_kind q) L (n, 0%nat) s) -> closed w (site_kind q) L (Z.to_nat T) b states).
Proof.
  intros q L Nb a l b kb T np w E Ha SF Int Sep Epz. destruct (boson_built _ _ _ _ _ _ _ _ _ E Int Epz) as (En & _ & Ec & Eb). pose proof (checks_none _ _ _ _ _ _ _ _ _ _ Ec) as (H1 & H2 & HE). clear E Ec.
  pose proof (base_honoured _ _ _ _ _ _ _ _ _ Sep Eb) as Ho.
  destruct (base_built _ _ _ _ _ _ _ _ _ Eb) as (HL & Hs & _ & Hd & Gp & Gz & GA & GB & Gpz & Hk & HPA & Nn & Ebr & -> & -> & _). cbn [l_k l_p l_z l_A l_B l_pz] in *.
  assert (Pn : 0 < Z.of_nat L / a) by (pose proof (Z.div_mod (Z.of_nat L) a ltac:(lia)); nia).
  assert (OK : block_ok w (site_kind q) L (Z.to_nat a) b) by (rewrite Ebr; apply branch_ok; cbn [l_k l_p l_z l_A l_B l_pz]; try assumption; intros _; [apply hasi|apply hass]).
  split; [reflexivity|]. split; [exact OK|]. split; [exact Ho|]. split; [apply Z.mod_pos_bound, Pn|]. split; [|split].
  - intros v ->. cbn [val]. exists (v / (Z.of_nat L / a)). pose proof (Z.div_mod v (Z.of_nat L / a) ltac:(lia)). lia.
  - destruct Nb; cbn in En; try discriminate En; injection En as <-; try reflexivity. split; [intros ->; apply Nn; reflexivity|reflexivity].
  - intros states [[_ Hall]|(n & Enp & Hall)]; [apply C52_full_closed; assumption|]. destruct Ho as (_ & HG & _).
    assert (Nz : np <> None) by (rewrite Enp; discriminate). specialize (H2 Nz). apply orb_false_iff in H2. destruct H2 as [NA NB].
    assert (NZ : is_int (l_z l) = false) by (destruct (is_int (l_z l)) eqn:Ez; [|reflexivity]; destruct (H1 Nz ltac:(reflexivity)) as (_ & ? & ? & _ & X); discriminate X).
    assert (Hw : forall g, In g (generators b) -> g = [LT] \/ g = [LP]).
    { intros g Hg. destruct (HG g Hg) as [[-> _]|(v & HW)]; [left; reflexivity|]. unfold wants in HW. destruct HW as [[_ ->]|[[HW _]|[[HW _]|[[HW _]|[HW _]]]]]; [right; reflexivity| | | |]; rewrite HW in *; discriminate. }
    apply (C52_number_closed w (site_kind q) L (Z.to_nat a) _ states (N.of_nat n) OK (kind_spf q)).
    + intros g Hg; destruct (Hw g Hg) as [-> | ->]; cbn; intuition discriminate.
    + intros g Hg; destruct (Hw g Hg) as [-> | ->]; cbn; intuition discriminate.
    + intros s. rewrite Hall. unfold in_number. cbn [fst]. pose proof (kind_spf q). destruct (site_kind q); [reflexivity|reflexivity|congruence].
Qed.
Print Assumptions C55_boson_block_partial.

(* ---- where the claim is false ---- *)
(* Overlapping labels are accepted and one of them is dropped: pblock=1, pzblock=-1 builds the block of the reflection only;
   pblock=1, zblock=1, pzblock=-1, which no state satisfies, builds the block of the first two; zblock=1, zAblock=1 the block of zblock;
   with kblock, pblock=1 and pzblock=-1 build the block of pzblock *)
Theorem C55_overlapping_labels_refuted :
  let call k p z A pz := spin_init 2 4 N_none 1 true (Labels k p z A Absent pz) in
  (call Absent (Int 1) Absent Absent (Int (-1)) = Built (BP 1) 0 1 None /\ ~ honoured (Labels Absent (Int 1) Absent Absent Absent (Int (-1))) (BP 1)) /\
  (call Absent (Int 1) (Int 1) Absent (Int (-1)) = Built (BP_Z 1 1) 0 1 None /\ ~ honoured (Labels Absent (Int 1) (Int 1) Absent Absent (Int (-1))) (BP_Z 1 1)) /\
  (call Absent Absent (Int 1) (Int 1) Absent = Built (BZ 1) 0 1 None /\ ~ honoured (Labels Absent Absent (Int 1) (Int 1) Absent Absent) (BZ 1)) /\
  (call (Int 0) (Int 1) Absent Absent (Int (-1)) = Built (BT_PZ (-1)) 0 1 None /\ ~ honoured (Labels (Int 0) (Int 1) Absent Absent Absent (Int (-1))) (BT_PZ (-1))).
Proof.
  cbv zeta. repeat split; try reflexivity; intros (H & _).
  - specialize (H (-1) [LP; LZ] ltac:(unfold wants; cbn; tauto)). cbn in H. intuition discriminate.
  - specialize (H (-1) [LP; LZ] ltac:(unfold wants; cbn; tauto)). cbn in H. intuition discriminate.
  - specialize (H 1 [LA] ltac:(unfold wants; cbn; tauto)). cbn in H. intuition discriminate.
  - specialize (H 1 [LP] ltac:(unfold wants; cbn; tauto)). cbn in H. intuition discriminate.
Qed.
Print Assumptions C55_overlapping_labels_refuted.

(* boson_basis_1d accepts pcblock and ignores it: sps=2, L=4, pcblock=1 builds the basis without symmetries *)
Theorem C55_boson_product_refuted : let l := Labels Absent Absent Absent Absent Absent (Int 1) in
  boson_init (Some 2) 4 N_none 1 true l = Built BFull 0 1 None /\ separate l /\ ~ honoured l BFull.
Proof.
  cbv zeta. split; [reflexivity|]. split; [split; cbn; tauto|]. intros (H & _). specialize (H 1 [LP; LZ] ltac:(unfold wants; cbn; tauto)). cbn in H. intuition discriminate.
Qed.
Print Assumptions C55_boson_product_refuted.
(* boson_basis_1d accepts a cblock that is not an int, such as numpy.int64(1), and ignores it; spin_basis_1d rejects it *)
Theorem C55_boson_integer_refuted : let l := Labels Absent Absent Other Absent Absent Absent in
  boson_init (Some 2) 4 N_none 1 true l = Built BFull 0 1 None /\ ~ integers l /\ spin_init 2 4 N_none 1 true l = Raises TypeErr.
Proof. cbv zeta. split; [reflexivity|]. split; [|reflexivity]. intros (_ & _ & H & _). apply H. reflexivity. Qed.
Print Assumptions C55_boson_integer_refuted.
(* boson_basis_1d with cblock at half filling raises NameError, whatever the chain, the number of bosons and the other labels *)
Theorem C55_boson_half_filling_refuted : forall L n a l,
  (exists v, l_z l = Int v) -> (Z.of_nat L) mod 2 = 0 -> boson_init (Some 2) L (N_one n) a true l = Raises NameErr.
Proof.
  intros L n a l [v Ev] HL. unfold boson_init. cbn [number_list]. change (2 <? 2) with false. cbn [andb]. cbv zeta. unfold z_checks. rewrite Ev. cbn [is_int orb]. replace (Z.of_nat L * (2 - 1)) with (Z.of_nat L) by lia. rewrite HL. reflexivity.
Qed.
Print Assumptions C55_boson_half_filling_refuted.

(* A second particle number is not checked (the ValueError is built but not raised): spin_basis_1d(4, Nup=[2,3], zblock=1) builds
   the inversion block on states that inversion does not map into each other, so that the basis is not a symmetry sector *)
Theorem C55_two_numbers_refuted : exists s t,
  spin_init 2 4 (N_list [2; 3]) 1 true (Labels Absent Absent (Int 1) Absent Absent Absent) = Built (BZ 1) 0 1 (Some [2; 3]) /\
  in_number (Hcp false) 4 (3%nat, 0%nat) s /\ reaches U32 (Hcp false) 4 1 [LZ] s t 1 /\
  ~ in_number (Hcp false) 4 (2%nat, 0%nat) t /\ ~ in_number (Hcp false) 4 (3%nat, 0%nat) t.
Proof.
  exists 7%N, 8%N. split; [reflexivity|]. split; [split; [cbn; lia|vm_compute; reflexivity]|]. split; [vm_compute; reflexivity|]. split; intros (_ & H); vm_compute in H; discriminate H.
Qed.
Print Assumptions C55_two_numbers_refuted.

(* ---- densities ---- *)
Lemma float_rep m e : Z.abs m < 2 ^ 53 -> -1074 <= e -> float64 (IZR m * bpow radix2 e) = (IZR m * bpow radix2 e)%R.
Proof.
  intros Hm He. unfold float64. apply round_generic; [apply valid_rnd_N|]. apply generic_format_FLT. apply (FLT_spec radix2 (-1074) 53 _ (Float radix2 m e)); [reflexivity|exact Hm|exact He].
Qed.
(* If m+S is the exact density n/L, the number is n *)
Theorem C55_density_partial : forall S m L n,
  (1 <= L)%nat -> 0 <= n < 2 ^ 53 -> float64 (m + S) = (IZR n / INR L)%R -> count_of_density S m L = n.
Proof.
  intros S m L n HL Hn E. unfold count_of_density. rewrite E. assert (N1 : (0 < INR L)%R) by (apply lt_0_INR; lia). replace (IZR n / INR L * INR L)%R with (IZR n * bpow radix2 0)%R by (cbn; field; lra). rewrite float_rep by lia. cbn [bpow]. rewrite Rmult_1_r. apply Ztrunc_IZR.
Qed.
Print Assumptions C55_density_partial.
(* spin_basis_1d(L=10, m=-0.4) asks for one spin up, (m + 1/2) L = 1, and gets none: int(0.9999999999999998) = 0 *)
Theorem C55_density_refuted : ((-2 / 5 + 1 / 2) * 10 = 1)%R /\ count_of_density (1 / 2) (float64 (-2 / 5)) 10 = 0.
Proof.
  split; [lra|]. assert (E : float64 (-2 / 5) = (IZR (-7205759403792794) * bpow radix2 (-54))%R).
  { unfold float64, round, scaled_mantissa, cexp. rewrite (mag_unique radix2 _ (-1)); [|cbn [bpow Z.sub]; cbn; split_Rabs; lra]. change (FLT_exp (-1074) 53 (-1)) with (-54). rewrite (Znearest_imp _ _ (-7205759403792794)); [reflexivity|]. cbn [bpow Z.opp]. cbn. split_Rabs; lra. }
  unfold count_of_density. rewrite E. replace (IZR (-7205759403792794) * bpow radix2 (-54) + 1 / 2)%R with (IZR 1801439850948198 * bpow radix2 (-54))%R by (cbn; lra). rewrite float_rep by lia.
  replace (IZR 1801439850948198 * bpow radix2 (-54) * INR 10)%R with (IZR 4503599627370495 * bpow radix2 (-52))%R by (cbn; lra). rewrite float_rep by lia. rewrite Ztrunc_floor by (cbn; lra). apply Zfloor_imp. cbn. lra.
Qed.
Print Assumptions C55_density_refuted.

(* ---- the integer type ---- *)
Lemma pow2_bits L d : (2 ^ N.of_nat L - 1 < 2 ^ N.of_nat d)%N -> (L <= d)%nat.
Proof.
  intros H. destruct (le_lt_dec L d) as [Hl|Hl]; [exact Hl|]. exfalso. assert (2 ^ N.of_nat (S d) <= 2 ^ N.of_nat L)%N by (apply N.pow_le_mono_r; lia). rewrite Nat2N.inj_succ, N.pow_succ_r' in H0. assert (2 ^ N.of_nat d <> 0)%N by (apply N.pow_nonzero; lia). lia.
Qed.
(* Without particle number the type chosen holds every state of a spin or boson chain; spinless fermions need one bit more,
   which is there except for 32 and 64 sites *)
Theorem C55_basis_type : forall L, (1 <= L)%nat ->
  states_fit (full_type 2 L) (Hcp false) L /\ (forall q, (2 <= q)%N -> states_fit (full_type q L) (Boson q) L) /\
  (L <> 32%nat -> L <> 64%nat -> states_fit (full_type 2 L) (Hcp true) L).
Proof.
  intros L HL. assert (F : forall q, full_type q L = U32 /\ (q ^ N.of_nat L - 1 < 2 ^ N.of_nat 32)%N \/ full_type q L = U64 /\ (q ^ N.of_nat L - 1 < 2 ^ N.of_nat 64)%N \/ full_type q L = PyInt).
  { intros q. unfold full_type. change (2 ^ 32)%N with (2 ^ N.of_nat 32)%N. change (2 ^ 64)%N with (2 ^ N.of_nat 64)%N. destruct (N.ltb_spec (q ^ N.of_nat L - 1) (2 ^ N.of_nat 32)); [left; split; [reflexivity|assumption]|]. right. destruct (N.ltb_spec (q ^ N.of_nat L - 1) (2 ^ N.of_nat 64)); [left; split; [reflexivity|assumption]|right; reflexivity]. }
  split; [|split].
  - split; [exact HL|]. destruct (F 2%N) as [[-> H]|[[-> H]| ->]]; cbn [at_most word_bits]; [apply pow2_bits, H|apply pow2_bits, H|exact I].
  - intros q Hq. split; [exact HL|]. split; [exact Hq|]. destruct (F q) as [[-> H]|[[-> H]| ->]]; cbn [word_bits]; [clear - H; lia|clear - H; lia|exact I].
  - intros N1 N2. split; [exact HL|]. destruct (F 2%N) as [[-> H]|[[-> H]| ->]]; cbn [less_than word_bits]; [apply pow2_bits in H; unfold less_than; cbn [word_bits]; clear - H N1; lia|apply pow2_bits in H; unfold less_than; cbn [word_bits]; clear - H N2; lia|exact I].
Qed.
Print Assumptions C55_basis_type.
(* spinful fermions: the type is chosen for sps**L states with sps = 2, but the states have 2 L bits; 17 sites get uint32 and
   have states beyond it (spinful_fermion_basis_1d(17) without particle numbers) *)
Theorem C55_spinful_type_refuted : full_type 2 17 = U32 /\ exists s, is_state Spf 17 s /\ (2 ^ 32 <= s)%N.
Proof. split; [reflexivity|]. exists (2 ^ 33)%N. split; vm_compute; [reflexivity|discriminate]. Qed.
Print Assumptions C55_spinful_type_refuted.

(* ---- a call that meets the hypotheses ---- *)
Example C55_case : let l := Labels (Int 5) (Int 1) (Int (-1)) Absent Absent Absent in
  spin_init 2 6 (N_one 3) 2 true l = Built (BT_P_Z 1 (-1)) 2 2 (Some [3]) /\ separate l /\ allowed l /\ shift_fits U32 (site_kind 2) 6 (- (2)) /\ honoured l (BT_P_Z 1 (-1)).
Proof.
  cbv zeta. assert (E : spin_init 2 6 (N_one 3) 2 true (Labels (Int 5) (Int 1) (Int (-1)) Absent Absent Absent) = Built (BT_P_Z 1 (-1)) 2 2 (Some [3])) by reflexivity. assert (Sep : separate (Labels (Int 5) (Int 1) (Int (-1)) Absent Absent Absent)) by (split; cbn; tauto).
  split; [exact E|]. split; [exact Sep|]. split; [split; [repeat split; discriminate|split; [exact Sep|split; [|cbn; tauto]]]|].
  - intros v word H. unfold wants in H. cbn in H. destruct H as [[H _]|[[H _]|[[H _]|[[H _]|[H _]]]]]; try discriminate H; injection H as <-; tauto.
  - split; [split; [split; [lia|cbn; lia]|left; cbn; lia]|]. exact (C55_spin_labels_partial _ _ _ _ _ _ _ _ _ _ E Sep).
Qed.
Example C55_fermion_case : fermion_init 6 (N_one 2) 1 (Int 1) Absent = Built BT 1 1 (Some [2]).
Proof. reflexivity. Qed.
Example C55_spinful_case : spinful_init 4 (F_pair 2 2) 1 true Absent (Int 1) (Int (-1)) Absent = Built (BP_Z 1 (-1)) 0 1 (Some [(2, 2)]).
Proof. reflexivity. Qed.
Example C55_boson_case : boson_init (Some 2) 4 N_none 2 true (Labels (Int 1) Absent Absent (Int 1) Absent Absent) = Built (BT_A 1) 1 2 None.
Proof. reflexivity. Qed.
