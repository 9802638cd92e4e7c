(* C52: the symmetries of a block map the particle sectors of a one-dimensional basis onto themselves. *)
From Verif Require Import AuxN SpecC SpecDigits SpecOps SpecMaps SpecFermi SpecChain M_bits1d SpecChain1d SpecCheck1d SpecBlock1d SpecSpan1d P_maps P_bits1d P_bits1d4 P_bits1d5 P_bits1d6 C38_chain C39_checks.
Local Open Scope nat_scope.

(* the sum of the values at the sites of a list *)
Definition on_sites (k : kind) (L : nat) (s : N) (l : list nat) : N := fold_right (fun j a => (site_val (levels k) (sites k L) s j + a)%N) 0%N l.
Definition number (k : kind) (L : nat) (s : N) : N := on_sites k L s (seq 0 (sites k L)).
Definition ups (L : nat) (s : N) : N := on_sites Spf L s (seq 0 L).
Definition downs (L : nat) (s : N) : N := on_sites Spf L s (seq L L).

Lemma on_perm k L s l l' : Permutation l l' -> on_sites k L s l = on_sites k L s l'.
Proof. induction 1; cbn [on_sites fold_right] in *; unfold on_sites in *; lia. Qed.
Lemma on_moved k L m s t : moved (levels k) (sites k L) m s t -> forall l, (forall j, In j l -> j < sites k L /\ flips (nth j m 0%Z) = false) -> on_sites k L t (map (fun j => target (nth j m 0%Z)) l) = on_sites k L s l.
Proof.
  intros [_ H] l Hl. induction l as [|j l IH]; [reflexivity|]. cbn [map]. unfold on_sites in *. cbn [fold_right]. rewrite IH by (intros i Hi; apply Hl; right; exact Hi). destruct (Hl j (or_introl eq_refl)) as [Hj Hf]. rewrite (H j Hj), Hf. reflexivity.
Qed.
Lemma site_le k L s j : (1 <= levels k)%N -> (site_val (levels k) (sites k L) s j <= levels k - 1)%N.
Proof. intros H. unfold site_val, digit. pose proof (N.mod_upper_bound (s / levels k ^ N.of_nat (sites k L - 1 - j)) (levels k) ltac:(lia)). lia. Qed.
Lemma on_inv k L m s t : (1 <= levels k)%N -> moved (levels k) (sites k L) m s t -> forall l, (forall j, In j l -> j < sites k L /\ flips (nth j m 0%Z) = true) -> (on_sites k L t (map (fun j => target (nth j m 0%Z)) l) + on_sites k L s l = N.of_nat (length l) * (levels k - 1))%N.
Proof.
  intros HB [_ H] l Hl. induction l as [|j l IH]; [cbn; lia|]. cbn [map length]. unfold on_sites in *. cbn [fold_right]. destruct (Hl j (or_introl eq_refl)) as [Hj Hf]. rewrite (H j Hj), Hf. specialize (IH (fun i Hi => Hl i (or_intror Hi))). pose proof (site_le k L s j HB). lia.
Qed.
Lemma all_targets n m : signed_perm n m -> Permutation (map (fun j => target (nth j m 0%Z)) (seq 0 n)) (seq 0 n).
Proof.
  intros P. pose proof (signed_perm_length n m P) as Ln. replace (map (fun j => target (nth j m 0%Z)) (seq 0 n)) with (map target m); [exact P|].
  apply (nth_ext _ _ (target 0%Z) 0); [rewrite !map_length, seq_length; lia|]. intros j Hj. rewrite map_length, Ln in Hj. rewrite (map_nth target). rewrite (nth_ms (fun j => target (nth j m 0%Z)) n j 0 Hj). reflexivity.
Qed.
Lemma num_keep k L m s t : signed_perm (sites k L) m -> no_inversion m -> moved (levels k) (sites k L) m s t -> number k L t = number k L s.
Proof.
  intros P NI Hm. unfold number. rewrite <- (on_perm k L t _ _ (all_targets _ m P)). apply (on_moved k L m s t Hm). intros j Hj. apply in_seq in Hj. split; [lia|]. apply NI, nth_In. rewrite (signed_perm_length _ _ P). lia.
Qed.
Lemma levels_pos w k L : states_fit w k L -> (1 <= levels k)%N.
Proof. intros (_ & H). destruct k; cbn in *; lia. Qed.
Lemma img_perm n m l l' : signed_perm n m -> NoDup l -> (forall j, In j l -> j < n /\ In (target (nth j m 0%Z)) l') -> length l' <= length l -> Permutation (map (fun j => target (nth j m 0%Z)) l) l'.
Proof.
  intros P ND H Ln. apply NoDup_Permutation_bis.
  - apply NoDup_map_in; [|exact ND]. intros i j Hi Hj. apply (nth_perm_inj n m i j P); apply H; assumption.
  - rewrite map_length. exact Ln.
  - intros z Hz. apply in_map_iff in Hz. destruct Hz as (j & <- & Hj). apply H, Hj.
Qed.
Lemma on_keep k L m s t l l' : signed_perm (sites k L) m -> no_inversion m -> moved (levels k) (sites k L) m s t -> NoDup l -> (forall j, In j l -> j < sites k L /\ In (target (nth j m 0%Z)) l') -> length l' <= length l -> on_sites k L t l' = on_sites k L s l.
Proof.
  intros P NI Mv ND H Ln. rewrite <- (on_perm k L t _ _ (img_perm _ m l l' P ND H Ln)). apply (on_moved k L m s t Mv). intros j Hj. split; [apply H, Hj|]. apply NI, nth_In. rewrite (signed_perm_length _ _ P). apply H, Hj.
Qed.
(* letters act as site maps *)
Lemma letter_map w k L T b l : block_ok w k L T b -> (exists g, In g (generators b) /\ In l g) -> l <> LA -> l <> LB ->
  exists m, acts (fermionic k) (levels k) (sites k L) m (act w k L T l) /\
    ((l <> LZ /\ (exists m0, signed_perm L m0 /\ no_inversion m0 /\ m = match k with Spf => both_species L m0 | _ => m0 end)) \/ (l = LZ /\ m = inv_map k L)).
Proof.
  intros (SF & HC & HB) (g & Hg & Hl) NA NB. destruct (C38_operations_act w k L SF) as (A1 & A2 & A3 & _). assert (HL : 1 <= L) by apply SF. destruct l; try congruence.
  - assert (Et : translates b = true).
    { unfold generators in Hg. destruct b; cbn [translates app In] in Hg |- *; try reflexivity; repeat destruct Hg as [<-|Hg]; try contradiction; cbn in Hl; intuition discriminate. }
    destruct (HC Et) as (F & H1 & n & Hn). exists (shift_map k L (- Z.of_nat T)). split; [apply A1; [|exact F]; destruct n; nia|]. left. split; [discriminate|]. exists (chain_shift L (- Z.of_nat T)). split; [apply shift_perm, HL|]. split; [apply shift_no, HL|]. destruct k; reflexivity.
  - exists (flip_map k L). split; [exact A2|]. left. split; [discriminate|]. exists (chain_flip L). split; [apply flip_perm|]. split; [apply flip_no|]. destruct k; reflexivity.
  - exists (inv_map k L). split; [|right; split; reflexivity]. apply A3. unfold generators in Hg. destruct b; cbn [translates app In] in Hg; cbn in HB; try (apply HB); repeat destruct Hg as [<-|Hg]; try contradiction; cbn in Hl; intuition discriminate.
Qed.
Lemma run_closed w k L T (P : N -> Prop) word : (forall l, In l word -> forall s sg t sg', P s -> act w k L T l (s, sg) = Some (t, sg') -> P t) ->
  forall s sg t sg', P s -> run_ops (map (act w k L T) word) (s, sg) = Some (t, sg') -> P t.
Proof.
  unfold run_ops. induction word as [|l word IH]; intros Hl s sg t sg' Ps E; [cbn in E; injection E as <- _; exact Ps|]. cbn [map fold_left] in E.
  destruct (act w k L T l (s, sg)) as [[u g]|] eqn:El.
  - apply (IH (fun l' Hl' => Hl l' (or_intror Hl')) u g t sg'); [apply (Hl l (or_introl eq_refl) s sg u g Ps El)|exact E].
  - exfalso. clear - E. induction word as [|l' word IH]; [discriminate E|]. cbn [map fold_left] in E. apply IH, E.
Qed.

(* Spins, bosons and spinless fermions: translations and reflections keep the number of particles, inversion turns it into
   (levels - 1) L - N, so that it maps a half-filled sector onto itself *)
Theorem C52_number_closed : forall w k L T b states (n : N),
  block_ok w k L T b -> k <> Spf -> (forall g, In g (generators b) -> ~ In LA g /\ ~ In LB g) ->
  (forall g, In g (generators b) -> In LZ g -> (2 * n = N.of_nat L * (levels k - 1))%N) ->
  (forall s, In s states <-> is_state k L s /\ number k L s = n) -> closed w k L T b states.
Proof.
  intros w k L T b states n OK NS NAB HZ Hall s t g sign Hs Hg Hr. apply Hall. apply Hall in Hs. pose proof (proj1 OK) as SF. pose proof (levels_pos w k L SF) as LP1. assert (Es : sites k L = L) by (destruct k; try reflexivity; congruence).
  refine (run_closed w k L T (fun s => is_state k L s /\ number k L s = n) g _ s 1%Z t sign Hs Hr). clear s t sign Hs Hr. intros l Hl s sg t sg' (Hst & Hn) E.
  assert (NAl : l <> LA) by (intros ->; apply (proj1 (NAB g Hg) Hl)). assert (NBl : l <> LB) by (intros ->; apply (proj2 (NAB g Hg) Hl)).
  destruct (letter_map w k L T b l OK (ex_intro _ g (Logic.conj Hg Hl)) NAl NBl) as (m & A & Hm). destruct (A s sg Hst) as (t' & Mv & E'). rewrite E in E'. injection E' as <- _. split; [exact (proj1 Mv)|].
  destruct Hm as [(_ & m0 & P0 & N0 & Em)|(-> & Em)].
  - assert (Em' : m = m0) by (destruct k; try exact Em; congruence). subst m. rewrite Em' in Mv. rewrite <- Hn. apply (num_keep k L m0 s t); [rewrite Es; exact P0|exact N0|exact Mv].
  - assert (Em' : m = chain_inv L (fun _ => true)) by (destruct k; try exact Em; congruence). subst m. rewrite Em' in Mv. pose proof (on_inv k L _ s t LP1 Mv (seq 0 (sites k L))) as Q. assert (Pi : signed_perm (sites k L) (chain_inv L (fun _ => true))) by (rewrite Es; apply inv_perm). rewrite (on_perm k L t _ _ (all_targets _ _ Pi)) in Q.
    fold (number k L t) in Q. fold (number k L s) in Q. rewrite Hn, seq_length, Es in Q. pose proof (HZ g Hg Hl) as H2. assert (Q' : (number k L t + n = N.of_nat L * (levels k - 1))%N) by (apply Q; intros j Hj; apply in_seq in Hj; split; [lia|]; apply inv_flips; lia). lia.
Qed.
Print Assumptions C52_number_closed.

(* spinful fermions: translations and reflections keep both numbers, inversion exchanges them *)
Theorem C52_species_closed : forall w L T b states (nu nd : N),
  block_ok w Spf L T b -> (forall g, In g (generators b) -> In LZ g -> nu = nd) ->
  (forall s, In s states <-> is_state Spf L s /\ ups L s = nu /\ downs L s = nd) -> closed w Spf L T b states.
Proof.
  intros w L T b states nu nd OK HZ Hall s t g sign Hs Hg Hr. apply Hall. apply Hall in Hs. pose proof (proj1 OK) as SF.
  assert (NAB : ~ In LA g /\ ~ In LB g).
  { destruct OK as (_ & _ & HB). unfold generators in Hg. destruct b; cbn [translates app In] in Hg; cbn in HB; try (destruct HB as [[] _]); repeat destruct Hg as [<-|Hg]; try contradiction; cbn; intuition discriminate. }
  refine (run_closed w Spf L T (fun s => is_state Spf L s /\ ups L s = nu /\ downs L s = nd) g _ s 1%Z t sign Hs Hr). clear s t sign Hs Hr. intros l Hl s sg t sg' (Hst & Hu & Hd) E.
  assert (NAl : l <> LA) by (intros ->; apply (proj1 NAB Hl)). assert (NBl : l <> LB) by (intros ->; apply (proj2 NAB Hl)).
  destruct (letter_map w Spf L T b l OK (ex_intro _ g (Logic.conj Hg Hl)) NAl NBl) as (m & A & Hm). destruct (A s sg Hst) as (t' & Mv & E'). rewrite E in E'. injection E' as <- _. split; [exact (proj1 Mv)|].
  destruct Hm as [(_ & m0 & P0 & N0 & ->)|(-> & ->)].
  - pose proof (signed_perm_length L m0 P0) as Ln. pose proof (both_perm L m0 P0 N0) as P. pose proof (both_no L m0 N0) as NI. split.
    + rewrite <- Hu. apply (on_keep Spf L _ s t _ _ P NI Mv (seq_NoDup _ _)); [|rewrite !seq_length; lia]. intros j Hj. apply in_seq in Hj. split; [cbn; lia|]. rewrite (both_target L m0 j Ln N0) by lia. destruct (Nat.ltb_spec j L); [|lia]. apply in_seq. pose proof (signed_perm_lt L m0 j P0 ltac:(lia)). lia.
    + rewrite <- Hd. apply (on_keep Spf L _ s t _ _ P NI Mv (seq_NoDup _ _)); [|rewrite !seq_length; lia]. intros j Hj. apply in_seq in Hj. split; [cbn; lia|]. rewrite (both_target L m0 j Ln N0) by lia. destruct (Nat.ltb_spec j L); [lia|]. apply in_seq. pose proof (signed_perm_lt L m0 (j - L) P0 ltac:(lia)). lia.
  - pose proof (HZ g Hg Hl) as E2. pose proof (exch_perm L) as P. pose proof (exch_no L) as NI. split.
    + rewrite E2, <- Hd. apply (on_keep Spf L _ s t _ _ P NI Mv (seq_NoDup _ _)); [|rewrite !seq_length; lia]. intros j Hj. apply in_seq in Hj. split; [cbn; lia|]. rewrite exch_nth, target_nat by lia. unfold rot. destruct (Nat.ltb_spec j L); [lia|]. apply in_seq. lia.
    + rewrite <- E2, <- Hu. apply (on_keep Spf L _ s t _ _ P NI Mv (seq_NoDup _ _)); [|rewrite !seq_length; lia]. intros j Hj. apply in_seq in Hj. split; [cbn; lia|]. rewrite exch_nth, target_nat by lia. unfold rot. destruct (Nat.ltb_spec j L); [|lia]. apply in_seq. lia.
Qed.
Print Assumptions C52_species_closed.

(* four spins with two up, momentum and spin inversion *)
Example C52_number_met : block_ok U32 (Hcp false) 4 1 (BT_Z (-1)) /\ (forall g, In g (generators (BT_Z (-1))) -> ~ In LA g /\ ~ In LB g) /\
  (2 * 2 = N.of_nat 4 * (levels (Hcp false) - 1))%N /\
  (forall s, In s [3; 5; 6; 9; 10; 12]%N <-> is_state (Hcp false) 4 s /\ number (Hcp false) 4 s = 2%N).
Proof.
  split; [split; [split; [lia|cbn; lia]|]; split; [intros _; split; [split; [split; [lia|cbn; lia]|left; cbn; lia]|]; split; [lia|exists 4; reflexivity]|]; split; [exact I|right; reflexivity]|].
  split; [intros g [<-|[<-|[]]]; cbn; intuition discriminate|]. split; [reflexivity|]. intros s. split.
  - intros [<-|[<-|[<-|[<-|[<-|[<-|[]]]]]]]; split; vm_compute; reflexivity.
  - intros [H1 H2]. assert (C : In s (map N.of_nat (seq 0 16))) by (apply in_map_iff; exists (N.to_nat s); split; [lia|apply in_seq; cbn in H1; lia]). cbn in C. repeat (destruct C as [<-|C]; [vm_compute in H2; try discriminate H2; cbn; tauto|]). destruct C.
Qed.
