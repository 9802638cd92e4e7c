(* Sums over configurations of a lattice and of its two parts; Gram matrices. *)
From Verif Require Import AuxN SpecC SpecTrace M_trace P_trace.
Local Open Scope nat_scope.

Lemma configs_app sps m n : configs sps (m + n) = flat_map (fun a => map (app a) (configs sps n)) (configs sps m).
Proof.
  induction m as [|m IH]; cbn [Nat.add configs flat_map]; [rewrite app_nil_r, map_id; reflexivity|].
  rewrite IH. generalize (seq 0 sps). intros l. induction l as [|d l IHl]; [reflexivity|]. cbn [flat_map]. rewrite IHl, flat_map_app. f_equal. clear.
  generalize (configs sps m). intros k. induction k as [|a k IHk]; [reflexivity|]. cbn [flat_map map]. rewrite map_app, IHk, map_map. reflexivity.
Qed.
Lemma configs_nodup sps L : NoDup (configs sps L).
Proof. apply (NoDup_map_inv (enc sps)). rewrite enc_configs. apply seq_NoDup. Qed.
Lemma Csum_flat_map {X Y} (g : X -> list Y) l (f : Y -> C) : Csum (flat_map g l) f = Csum l (fun x => Csum (g x) f).
Proof. induction l as [|x l IH]; [reflexivity|]. cbn [flat_map]. rewrite Csum_app, Csum_cons, IH. reflexivity. Qed.
Lemma Csum_numbers sps n (f : nat -> C) : Csum (seq 0 (sps ^ n)) f = Csum (configs sps n) (fun c => f (enc sps c)).
Proof. rewrite <- enc_configs, Csum_map. reflexivity. Qed.

Section Place.
Variables (sps L : nat) (A B : list nat).
Hypothesis Hp : 0 < sps.
Hypothesis P : Permutation (A ++ B) (seq 0 L).
Lemma find_comb (S0 vals : list nat) : NoDup S0 -> length S0 = length vals -> forall k, k < length S0 -> find (fun x => fst x =? nth k S0 0) (combine S0 vals) = Some (nth k S0 0, nth k vals 0).
Proof.
  intros H. revert vals. induction H as [|s S0 Hs HS IH]; intros [|v vals] Ln k Hk; try discriminate; [cbn in Hk; lia|]. cbn [combine find fst]. destruct k as [|k]; cbn [nth]; [rewrite Nat.eqb_refl; reflexivity|]. cbn in Ln, Hk.
  destruct (Nat.eqb_spec s (nth k S0 0)) as [E|E]; [exfalso; apply Hs; rewrite E; apply nth_In; lia|]. apply IH; lia.
Qed.
Lemma AB_len : length A + length B = L. Proof. rewrite <- app_length, (Permutation_length P), seq_length. reflexivity. Qed.
Lemma AB_nodup : NoDup (A ++ B). Proof. apply (Permutation_NoDup (Permutation_sym P)), seq_NoDup. Qed.
Lemma place_nth a b k : length a = length A -> length b = length B -> k < L -> nth (nth k (A ++ B) 0) (place L A B a b) 0 = nth k (a ++ b) 0.
Proof.
  intros Ha Hb Hk. assert (Hi : nth k (A ++ B) 0 < L). { assert (H : In (nth k (A ++ B) 0) (seq 0 L)) by (apply (Permutation_in _ P), nth_In; rewrite app_length, AB_len; exact Hk). apply in_seq in H. lia. }
  unfold place. rewrite (nth_map _ (seq 0 L) _ 0 0) by (rewrite seq_length; exact Hi). rewrite seq_nth by exact Hi. cbn [Nat.add]. rewrite find_comb; [reflexivity|apply AB_nodup|rewrite !app_length; congruence|rewrite app_length, AB_len; exact Hk].
Qed.
Lemma place_levels a b : length a = length A -> length b = length B -> levels_at (place L A B a b) (A ++ B) = a ++ b.
Proof.
  intros Ha Hb. pose proof AB_len as HL. apply (nth_ext _ _ 0 0); [rewrite levels_len, !app_length; congruence|]. intros k Hk. rewrite levels_len in Hk. unfold levels_at. rewrite (nth_map _ (A ++ B) k 0 0) by exact Hk. apply place_nth; [exact Ha|exact Hb|]. rewrite app_length in Hk. lia.
Qed.
Lemma place_config a b : config sps (length A) a -> config sps (length B) b -> config sps L (place L A B a b).
Proof.
  intros [Ha Fa] [Hb Fb]. split; [unfold place; rewrite map_length, seq_length; reflexivity|]. apply Forall_forall. intros d Hd. unfold place in Hd. apply in_map_iff in Hd. destruct Hd as (i & <- & _).
  destruct (find _ _) as [[x d]|] eqn:E; [|exact Hp]. apply find_some in E. destruct E as [E _]. apply in_combine_r in E. assert (F : Forall (fun d => d < sps) (a ++ b)) by (apply Forall_app; split; assumption). rewrite Forall_forall in F. apply F, E.
Qed.
Lemma place_A a b : length a = length A -> length b = length B -> levels_at (place L A B a b) A = a /\ levels_at (place L A B a b) B = b.
Proof.
  intros Ha Hb. pose proof (place_levels a b Ha Hb) as E. rewrite levels_app in E. assert (X : forall (u u' v v' : list nat), length u = length u' -> u ++ v = u' ++ v' -> u = u' /\ v = v').
  { clear. induction u as [|x u IH]; intros [|y u'] v v' Ln E; try discriminate; [auto|]. cbn in E. injection E as -> E. injection Ln as Ln. destruct (IH u' v v' Ln E) as [-> ->]. auto. }
  apply X in E; [exact E|]. rewrite levels_len. congruence.
Qed.
Lemma levels_config c s : config sps L c -> config sps (length s) (levels_at c s).
Proof. intros Hc. split; [apply levels_len|apply (levels_ok sps L); assumption]. Qed.
Lemma place_of c : config sps L c -> place L A B (levels_at c A) (levels_at c B) = c.
Proof.
  intros Hc. apply (levels_inj sps L _ _ (A ++ B)); [apply place_config; apply levels_config, Hc|exact Hc|exact P|]. rewrite place_levels by apply levels_len. symmetry. apply levels_app.
Qed.
Lemma reorder_perm : Permutation (map (fun c => levels_at c (A ++ B)) (configs sps L)) (configs sps L).
Proof.
  assert (N : NoDup (map (fun c => levels_at c (A ++ B)) (configs sps L))).
  { assert (X : forall l, (forall c, In c l -> config sps L c) -> NoDup l -> NoDup (map (fun c => levels_at c (A ++ B)) l)).
    { induction l as [|c l IH]; intros Hl Hn; [constructor|]. inversion Hn; subst. cbn [map]. constructor; [|apply IH; [intros x Hx; apply Hl; right; exact Hx|assumption]].
      intros H. apply in_map_iff in H. destruct H as (c' & E & Hc'). apply (levels_inj sps L) in E; [subst; contradiction|apply Hl; right; exact Hc'|apply Hl; left; reflexivity|exact P]. }
    apply X; [intros c; apply configs_iff|apply configs_nodup]. }
  apply NoDup_Permutation_bis; [exact N|rewrite map_length; reflexivity|]. intros d Hd. apply in_map_iff in Hd. destruct Hd as (c & <- & Hc). apply configs_iff in Hc. apply configs_iff. rewrite <- AB_len, <- app_length. apply levels_config, Hc.
Qed.
Lemma sum_place (F : list nat -> C) : Csum (configs sps L) F = Csum (configs sps (length A)) (fun a => Csum (configs sps (length B)) (fun b => F (place L A B a b))).
Proof.
  set (G := fun d => F (place L A B (firstn (length A) d) (skipn (length A) d))).
  transitivity (Csum (configs sps L) (fun c => G (levels_at c (A ++ B)))).
  - apply Csum_ext. intros c Hc. apply configs_iff in Hc. unfold G. rewrite levels_app, firstn_app, skipn_app, levels_len, Nat.sub_diag, firstn_all2, skipn_all2 by (rewrite levels_len; lia). cbn [firstn skipn app]. rewrite app_nil_r, place_of by exact Hc. reflexivity.
  - rewrite <- (Csum_map (fun c => levels_at c (A ++ B)) _ G), (Csum_perm _ _ _ reorder_perm). rewrite <- AB_len at 1. rewrite configs_app, Csum_flat_map. apply Csum_ext. intros a Ha. rewrite Csum_map. apply Csum_ext. intros b Hb. apply configs_iff in Ha, Hb. destruct Ha as [Ha _]. unfold G. rewrite <- Ha at 1 2.
    rewrite firstn_app, skipn_app, Nat.sub_diag, firstn_all, skipn_all. cbn [firstn skipn app]. rewrite app_nil_r. reflexivity.
Qed.
End Place.

(* ---- Gram matrices ---- *)
Definition gram (m : nat) (u : nat -> nat -> C) (i k : nat) : C := Csum (seq 0 m) (fun j => u i j * Cconj (u k j))%C.
Lemma gram_hermitian n m u : hermitian n (gram m u).
Proof. intros i k _ _. unfold gram. rewrite Csum_conj. apply Csum_ext. intros j _. rewrite Cconj_mul, Cconj_invol. ring. Qed.
Lemma norm_real z : (0 <= fst (z * Cconj z)%C)%R /\ snd (z * Cconj z)%C = 0%R.
Proof. destruct z as [x y]. cbn. split; [nra|ring]. Qed.
Lemma sum_positive {X} (l : list X) f : (forall x, In x l -> (0 <= fst (f x))%R /\ snd (f x) = 0%R) -> (0 <= fst (Csum l f))%R /\ snd (Csum l f) = 0%R.
Proof.
  induction l as [|x l IH]; intros H; [cbn; lra|]. rewrite Csum_cons. destruct (H x (or_introl eq_refl)) as [H1 H2]. destruct IH as [I1 I2]; [intros y Hy; apply H; right; exact Hy|]. cbn [Cadd fst snd]. lra.
Qed.
Lemma gram_form n m u x : form n (gram m u) x = Csum (seq 0 m) (fun j => let z := Csum (seq 0 n) (fun i => Cconj (x i) * u i j)%C in z * Cconj z)%C.
Proof.
  unfold form, gram. rewrite (Csum_ext (seq 0 m) _ (fun j => Csum (seq 0 n) (fun i => Csum (seq 0 n) (fun k => Cconj (x i) * (u i j * Cconj (u k j)) * x k))%C)).
  - rewrite (Csum_swap (seq 0 m) (seq 0 n)). apply Csum_ext. intros i _. rewrite (Csum_swap (seq 0 m) (seq 0 n)). apply Csum_ext. intros k _. rewrite Csum_mul_r, Csum_mul_l. reflexivity.
  - intros j _. cbn zeta. rewrite Csum_conj, <- Csum_mul_r. apply Csum_ext. intros i _. rewrite <- Csum_mul_l. apply Csum_ext. intros k _. rewrite Cconj_mul, Cconj_invol. ring.
Qed.
Lemma gram_positive n m u : positive n (gram m u).
Proof. intros x. rewrite gram_form. apply sum_positive. intros j _. cbn zeta. apply norm_real. Qed.
Lemma form_ext n M M' x : (forall i k, i < n -> k < n -> M i k = M' i k) -> form n M x = form n M' x.
Proof. intros H. unfold form. apply Csum_ext. intros i Hi. apply Csum_ext. intros k Hk. apply in_seq in Hi, Hk. rewrite H by lia. reflexivity. Qed.

(* the digits of a number *)
Lemma enc_digit sps c i : 0 < sps -> Forall (fun d => d < sps) c -> i < length c -> (enc sps c / sps ^ (length c - i - 1)) mod sps = nth i c 0.
Proof.
  intros Hp. revert i. induction c as [|d c IH]; intros i F Hi; [cbn in Hi; lia|]. inversion F as [|? ? Hd Fc]; subst. rewrite enc_cons. pose proof (enc_lt sps c Fc) as B. destruct i as [|i].
  - cbn [length nth]. replace (S (length c) - 0 - 1) with (length c) by lia. rewrite Nat.div_add_l by lia. rewrite Nat.div_small by exact B. rewrite Nat.add_0_r. apply Nat.mod_small, Hd.
  - cbn [length nth] in *. replace (S (length c) - S i - 1) with (length c - i - 1) by lia. rewrite <- (IH i Fc) by lia.
    assert (E : sps ^ length c = sps ^ (length c - i - 1) * sps * sps ^ i). { rewrite <- (Nat.pow_1_r sps) at 3. rewrite <- !Nat.pow_add_r. f_equal. lia. }
    rewrite E. replace (d * (sps ^ (length c - i - 1) * sps * sps ^ i)) with (d * sps ^ i * sps * sps ^ (length c - i - 1)) by lia. rewrite Nat.div_add_l by (apply Nat.pow_nonzero; lia). rewrite (Nat.add_comm _ (_ / _)), Nat.mod_add by lia. reflexivity.
Qed.
