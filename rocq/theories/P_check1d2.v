(* The loops of the representative checks, over any family of words with normal forms. *)
From Verif Require Import AuxN SpecMaps SpecFermi SpecChain M_bits1d SpecChain1d SpecCheck1d M_check1d P_maps P_square P_bits1d P_bits1d4 P_bits1d5 P_check1d.
Local Open Scope nat_scope.

Lemma rep_app (i j : nat) : repeat LT i ++ repeat LT j = repeat LT (i + j). Proof. symmetry. apply repeat_app. Qed.
Section R.
Variables (w : btype) (k : kind) (L T : nat).
Hypothesis SF : states_fit w k L.
Notation A := (act w k L T).
Notation st s := (s < levels k ^ N.of_nat (sites k L))%N.
Notation sto := (sto w k L T).
Notation sgo := (sgo w k L T).
Notation lok := (lok w k L T).
Notation rep := (repeat LT).

(* comparisons *)
Lemma run_one word s : Forall lok word -> st s -> run_ops (map A word) (s, 1%Z) = Some (sto word s, sgo word s).
Proof. intros H Hs. rewrite (run_sto w k L T SF word s 1%Z H Hs), Z.mul_1_l. reflexivity. Qed.
Definition cmpv (q : Z) (s t : N) (g : Z) : Z := if (t <? s)%N then 2%Z else if (t =? s)%N then (if negb (q * g =? -1)%Z then 4%Z else (-1)%Z) else (-1)%Z.

Section One.
Variable s : N.
Hypothesis Hs : st s.
Definition tr (pre : list letter) (i : nat) : N := sto (pre ++ rep i) s.
Definition sr (pre : list letter) (i : nat) : Z := sgo (pre ++ rep i) s.
Hypothesis HT : lok LT.
Lemma rep_ok i : Forall lok (rep i). Proof. induction i; cbn; constructor; auto. Qed.
Lemma pre_ok pre i : Forall lok pre -> Forall lok (pre ++ rep i). Proof. intros H. apply Forall_app. split; [exact H|apply rep_ok]. Qed.
Lemma next_T pre i : Forall lok pre -> T_ w k L T (tr pre i, sr pre i) = Some (tr pre (S i), sr pre (S i)).
Proof.
  intros Hp. pose proof (pre_ok pre i Hp) as Ho. pose proof (sto_lt w k L T SF _ s Ho Hs) as Hl.
  pose proof (run_sto w k L T SF [LT] (tr pre i) (sr pre i) ltac:(repeat constructor; apply HT) Hl) as E. cbn [map] in E. rewrite run_cons in E. change (T_ w k L T) with (A LT).
  destruct (A LT (tr pre i, sr pre i)) as [x|]; [|discriminate]. cbn [run_ops fold_left] in E. rewrite E. unfold tr, sr.
  replace (S i) with (i + 1) by lia. rewrite <- rep_app, app_assoc. destruct (sto_app w k L T SF (pre ++ rep i) (rep 1) s Ho (rep_ok 1) Hs) as [-> ->]. reflexivity.
Qed.
Lemma tloop_gen pre : Forall lok pre -> forall cnt i,
  match tloop (T_ w k L T) s cnt (S i) (tr pre i, sr pre i) with
  | TUndef => False
  | TGreater => exists j, i < j <= i + cnt /\ (s < tr pre j)%N
  | TBack j g => i < j <= i + cnt /\ tr pre j = s /\ g = sr pre j /\ forall j', i < j' < j -> (tr pre j' < s)%N
  | TEnd => forall j', i < j' <= i + cnt -> (tr pre j' < s)%N
  end.
Proof.
  intros Hp. induction cnt as [|c IH]; intros i; [cbn [tloop]; intros; lia|]. cbn [tloop]. rewrite (next_T pre i Hp).
  destruct (N.ltb_spec s (tr pre (S i))) as [G|G]; [exists (S i); split; [lia|exact G]|]. destruct (N.eqb_spec (tr pre (S i)) s) as [E|E].
  - split; [lia|]. split; [exact E|]. split; [reflexivity|]. intros; lia.
  - specialize (IH (S i)). assert (Lt : (tr pre (S i) < s)%N) by lia. destruct (tloop _ _ _ _ _).
    + exact IH.
    + destruct IH as (j & Hj & Gj). exists j. split; [lia|exact Gj].
    + destruct IH as (Hj & E1 & E2 & E3). split; [lia|]. split; [exact E1|]. split; [exact E2|]. intros j' Hj'. destruct (Nat.eq_dec j' (S i)) as [->|]; [exact Lt|]. apply E3. lia.
    + intros j' Hj'. destruct (Nat.eq_dec j' (S i)) as [->|]; [exact Lt|]. apply IH. lia.
Qed.
Lemma iloop_gen pre : Forall lok pre -> forall cnt i,
  match iloop (T_ w k L T) s cnt i (tr pre i, sr pre i) with
  | TUndef => False
  | TGreater => exists j, i <= j < i + cnt /\ (s < tr pre j)%N
  | TBack j g => i <= j < i + cnt /\ tr pre j = s /\ g = sr pre j /\ forall j', i <= j' < j -> (tr pre j' < s)%N
  | TEnd => forall j', i <= j' < i + cnt -> (tr pre j' < s)%N
  end.
Proof.
  intros Hp. induction cnt as [|c IH]; intros i; [cbn [iloop]; intros; lia|]. cbn [iloop fst snd].
  destruct (N.ltb_spec s (tr pre i)) as [G|G]; [exists i; split; [lia|exact G]|]. destruct (N.eqb_spec (tr pre i) s) as [E|E].
  - split; [lia|]. split; [exact E|]. split; [reflexivity|]. intros; lia.
  - rewrite (next_T pre i Hp). specialize (IH (S i)). assert (Lt : (tr pre i < s)%N) by lia. destruct (iloop _ _ _ _ _).
    + exact IH.
    + destruct IH as (j & Hj & Gj). exists j. split; [lia|exact Gj].
    + destruct IH as (Hj & E1 & E2 & E3). split; [lia|]. split; [exact E1|]. split; [exact E2|]. intros j' Hj'. destruct (Nat.eq_dec j' i) as [->|]; [exact Lt|]. apply E3. lia.
    + intros j' Hj'. destruct (Nat.eq_dec j' i) as [->|]; [exact Lt|]. apply IH. lia.
Qed.
Lemma istart_gen pre r : Forall lok pre ->
  match (match run_ops (map A pre) (s, 1%Z) with None => TUndef | Some x => iloop (T_ w k L T) s r 0 x end) with
  | TUndef => False
  | TGreater => exists j, j < r /\ (s < tr pre j)%N
  | TBack j g => j < r /\ tr pre j = s /\ g = sr pre j /\ forall j', j' < j -> (tr pre j' < s)%N
  | TEnd => forall j', j' < r -> (tr pre j' < s)%N
  end.
Proof.
  intros Hp. rewrite (run_one pre s Hp Hs). assert (E : (sto pre s, sgo pre s) = (tr pre 0, sr pre 0)) by (unfold tr, sr; cbn [repeat]; rewrite app_nil_r; reflexivity). rewrite E.
  pose proof (iloop_gen pre Hp r 0) as I. destruct (iloop _ _ _ _ _).
  - exact I.
  - destruct I as (j & Hj & G). exists j. split; [lia|exact G].
  - destruct I as (Hj & E1 & E2 & E3). repeat split; try assumption; try lia. intros j' Hj'. apply E3. lia.
  - intros j' Hj'. apply I. lia.
Qed.

(* ---- periods ---- *)
Variable n : nat.
Hypothesis Hn : 1 <= n.
Hypothesis Tn : forall x, st x -> sto (rep n) x = x /\ sgo (rep n) x = 1%Z.
Lemma tr0 : tr [] 0 = s /\ sr [] 0 = 1%Z. Proof. unfold tr, sr, P_check1d.sto, P_check1d.sgo. cbn. auto. Qed.
Lemma tr_shift pre i j : Forall lok pre -> tr pre (i + j) = sto (rep j) (tr pre i) /\ sr pre (i + j) = (sr pre i * sgo (rep j) (tr pre i))%Z.
Proof. intros Hp. unfold tr, sr. rewrite <- rep_app, app_assoc. apply sto_app; [exact SF|apply pre_ok, Hp|apply rep_ok|exact Hs]. Qed.
Lemma sto_rep_nil (x : N) j : sto (rep j) s = tr [] j /\ sgo (rep j) s = sr [] j /\ x = x. Proof. unfold tr, sr. cbn [app]. auto. Qed.
Section Period.
Variable R : nat.
Hypothesis HR : 1 <= R.
Hypothesis ER : tr [] R = s.
Hypothesis LR : forall j, 0 < j < R -> (tr [] j < s)%N.
Lemma per_add j : tr [] (R + j) = tr [] j /\ sr [] (R + j) = (sr [] R * sr [] j)%Z.
Proof. destruct (tr_shift [] R j ltac:(constructor)) as [E1 E2]. rewrite E1, E2, ER. destruct (sto_rep_nil s j) as (-> & -> & _). auto. Qed.
Fixpoint zpow (g : Z) (m : nat) : Z := match m with O => 1%Z | S m => (g * zpow g m)%Z end.
Lemma per_mul m j : tr [] (m * R + j) = tr [] j /\ sr [] (m * R + j) = (zpow (sr [] R) m * sr [] j)%Z.
Proof.
  induction m as [|m [IH1 IH2]]; [cbn [Nat.mul Nat.add zpow]; rewrite Z.mul_1_l; auto|]. replace (S m * R + j) with (R + (m * R + j)) by lia. destruct (per_add (m * R + j)) as [-> ->]. rewrite IH1, IH2. cbn [zpow]. split; [reflexivity|lia].
Qed.
Lemma per_le j : (tr [] j <= s)%N.
Proof.
  pose proof (Nat.div_mod j R ltac:(lia)) as D. rewrite D. replace (R * (j / R) + j mod R) with (j / R * R + j mod R) by lia. rewrite (proj1 (per_mul _ _)). pose proof (Nat.mod_upper_bound j R ltac:(lia)) as B.
  destruct (Nat.eq_dec (j mod R) 0) as [E|E]; [rewrite E, (proj1 tr0); lia|]. specialize (LR (j mod R) ltac:(lia)). lia.
Qed.
Lemma per_eq j : tr [] j = s -> exists m, j = m * R.
Proof.
  intros E. exists (j / R). pose proof (Nat.div_mod j R ltac:(lia)) as D. pose proof (Nat.mod_upper_bound j R ltac:(lia)) as B. destruct (Nat.eq_dec (j mod R) 0) as [Z0|Z0]; [lia|].
  rewrite D in E. replace (R * (j / R) + j mod R) with (j / R * R + j mod R) in E by lia. rewrite (proj1 (per_mul _ _)) in E. specialize (LR (j mod R) ltac:(lia)). lia.
Qed.
(* a word pre that conjugates the translation into a power of it *)
Variables (pre : list letter) (c : nat).
Hypothesis Hp : Forall lok pre.
Hypothesis Conj : forall i, sto (pre ++ rep i) s = sto (rep (c * i) ++ pre) s.
Lemma pre_per j : tr pre (R + j) = tr pre j.
Proof.
  rewrite (proj1 (tr_shift pre R j Hp)). assert (E : tr pre R = tr pre 0).
  { unfold tr at 1. rewrite Conj. rewrite (proj1 (sto_app w k L T SF (rep (c * R)) pre s (rep_ok _) Hp Hs)). destruct (sto_rep_nil s (c * R)) as (-> & _). replace (c * R) with (c * R + 0) by lia. rewrite (proj1 (per_mul c 0)), (proj1 tr0). unfold tr. cbn [repeat]. rewrite app_nil_r. reflexivity. }
  rewrite E. rewrite <- (proj1 (tr_shift pre 0 j Hp)). reflexivity.
Qed.
Lemma pre_mul m j : tr pre (m * R + j) = tr pre j.
Proof. induction m as [|m IH]; [reflexivity|]. replace (S m * R + j) with (R + (m * R + j)) by lia. rewrite pre_per. exact IH. Qed.
Lemma pre_mod j : tr pre j = tr pre (j mod R).
Proof. pose proof (Nat.div_mod j R ltac:(lia)) as D. rewrite D at 1. replace (R * (j / R) + j mod R) with (j / R * R + j mod R) by lia. apply pre_mul. Qed.
Lemma hit_le i : tr pre i = s -> forall j, (tr pre j <= s)%N.
Proof.
  intros E j. rewrite <- (pre_mul i j). assert (Ge : i <= i * R) by (destruct R; [lia|]; lia). replace (i * R + j) with (i + (i * R - i + j)) by lia. rewrite (proj1 (tr_shift pre i _ Hp)), E. destruct (sto_rep_nil s (i * R - i + j)) as (-> & _). apply per_le.
Qed.
(* the result of the second loop *)
Lemma second_loop :
  match (match run_ops (map A pre) (s, 1%Z) with None => TUndef | Some x => iloop (T_ w k L T) s R 0 x end) with
  | TUndef => False
  | TGreater => exists j, (s < tr pre j)%N
  | TBack i g => tr pre i = s /\ g = sr pre i /\ (forall j, j < i -> tr pre j <> s) /\ forall j, (tr pre j <= s)%N
  | TEnd => forall j, (tr pre j < s)%N
  end.
Proof.
  pose proof (istart_gen pre R Hp) as I. destruct (match run_ops (map A pre) (s, 1%Z) with None => TUndef | Some x => _ end) as [| |i g|].
  - exact I.
  - destruct I as (j & _ & G). exists j. exact G.
  - destruct I as (Hi & E & Eg & Lt). split; [exact E|]. split; [exact Eg|]. split; [|apply (hit_le i E)]. intros j Hj X. specialize (Lt j Hj). lia.
  - intros j. rewrite pre_mod. apply I, Nat.mod_upper_bound. lia.
Qed.
End Period.
Lemma first_loop :
  match tloop (T_ w k L T) s n 1 (s, 1%Z) with
  | TUndef | TEnd => False
  | TGreater => exists j, (s < tr [] j)%N
  | TBack R g => 1 <= R <= n /\ tr [] R = s /\ g = sr [] R /\ forall j, 0 < j < R -> (tr [] j < s)%N
  end.
Proof.
  pose proof (tloop_gen [] ltac:(constructor) n 0) as I. destruct tr0 as [E1 E2]. rewrite E1, E2 in I. destruct (tloop _ _ _ _ _) as [| |R g|].
  - exact I.
  - destruct I as (j & _ & G). exists j. exact G.
  - destruct I as (Hj & E & Eg & Lt). repeat split; try assumption; lia.
  - specialize (I n ltac:(lia)). unfold tr in I. cbn [app] in I. rewrite (proj1 (Tn s Hs)) in I. lia.
Qed.
End One.
End R.
