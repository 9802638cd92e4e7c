(* The maps of the square lattice: what they do to sites, relations between them on states, and their periods. *)
From Verif Require Import AuxN SpecDigits SpecMaps SpecLattice M_maps M_square P_maps P_period P_square.
Local Open Scope nat_scope.

Section L.
Variables Lx Ly : nat.
Hypothesis HLx : 1 <= Lx.
Hypothesis HLy : 1 <= Ly.
Definition good (m : list Z) (l : lat) : Prop := acts_as Lx Ly m (fst l) (snd l) /\ in_range Lx Ly (fst l) /\ signed_perm (Lx * Ly) m.
Lemma good_intro m g inv : acts_as Lx Ly m g inv -> in_range Lx Ly g -> injective Lx Ly g -> good m (g, inv).
Proof. intros A R I. split; [exact A|]. split; [exact R|]. exact (acts_perm Lx Ly HLx HLy m g inv A R I). Qed.
Lemma good_perm m l : good m l -> signed_perm (Lx * Ly) m. Proof. intros H. apply H. Qed.
Lemma relation ms ls ms' ls' : Forall2 good ms ls -> Forall2 good ms' ls' -> (forall x y, x < Lx -> y < Ly -> lwalk ls (x, y, false) = lwalk ls' (x, y, false)) ->
  forall B s, (2 <= B)%N -> (s < B ^ N.of_nat (Lx * Ly))%N -> run_maps B (Lx * Ly) ms s = run_maps B (Lx * Ly) ms' s.
Proof.
  intros G G' E B s HB Hs. assert (P : forall ms ls, Forall2 good ms ls -> forall m, In m ms -> signed_perm (Lx * Ly) m).
  { clear - HLx. intros ms ls G. induction G as [|m l ms ls H G IH]; intros m' I; [destruct I|]. destruct I as [<- |I]; [apply H|apply IH, I]. }
  assert (Q : forall ms ls, Forall2 good ms ls -> Forall2 (fun m l => acts_as Lx Ly m (fst l) (snd l) /\ in_range Lx Ly (fst l)) ms ls).
  { clear. intros ms ls G. induction G as [|m l ms ls H G IH]; constructor; [split; apply H|exact IH]. }
  apply walk_states; [exact HB|exact (P _ _ G)|exact (P _ _ G')| |exact Hs]. intros j Hj. destruct (site_of Lx Ly HLx HLy j Hj) as (Hx & Hy & Ej). rewrite Ej.
  destruct (walk_lat Lx Ly _ _ (Q _ _ G) _ _ false Hx Hy) as [W _]. destruct (walk_lat Lx Ly _ _ (Q _ _ G') _ _ false Hx Hy) as [W' _]. rewrite W, W', (E _ _ Hx Hy). reflexivity.
Qed.
Lemma period_lat m l p : good m l -> 1 <= p -> (forall x y, x < Lx -> y < Ly -> lwalk (repeat l p) (x, y, false) = (x, y, false)) ->
  (forall q, 1 <= q < p -> exists x y, x < Lx /\ y < Ly /\ lwalk (repeat l q) (x, y, false) <> (x, y, false)) -> exists fuel0, forall fuel, fuel0 <= fuel -> process_map fuel m = PM_period p.
Proof.
  intros G Hp Hid Hno. destruct G as (A & R & P). assert (F : forall q, Forall2 (fun m l => acts_as Lx Ly m (fst l) (snd l) /\ in_range Lx Ly (fst l)) (repeat m q) (repeat l q)).
  { intros q. induction q; cbn [repeat]; constructor; auto. }
  apply (period_of_walk (Lx * Ly) m p P Hp).
  - intros j Hj. destruct (site_of Lx Ly HLx HLy j Hj) as (Hx & Hy & Ej). rewrite Ej. destruct (walk_lat Lx Ly _ _ (F p) _ _ false Hx Hy) as [W _]. rewrite W, (Hid _ _ Hx Hy). reflexivity.
  - intros q Hq. destruct (Hno q Hq) as (x & y & Hx & Hy & D). exists (site Lx x y). split; [apply site_lt; assumption|]. destruct (walk_lat Lx Ly _ _ (F q) x y false Hx Hy) as (W & W1 & W2). rewrite W. intros E. apply D.
    injection E as E1 E2. apply (site_inj Lx Ly) in E1; [|assumption..]. destruct (lwalk (repeat l q) (x, y, false)) as [[a b] c]. cbn in *. destruct E1. subst. reflexivity.
Qed.
(* numbers that are never negative *)
Lemma target_nat k : target (Z.of_nat k) = k. Proof. unfold target. rewrite (proj2 (Z.ltb_ge _ _)) by lia. apply Nat2Z.id. Qed.
Lemma flips_nat k : flips (Z.of_nat k) = false. Proof. unfold flips. apply Z.ltb_ge. lia. Qed.
Lemma target_inv k : target (- (Z.of_nat k + 1)) = k. Proof. unfold target. rewrite (proj2 (Z.ltb_lt _ _)) by lia. lia. Qed.
Lemma flips_inv k : flips (- (Z.of_nat k + 1)) = true. Proof. unfold flips. apply Z.ltb_lt. lia. Qed.
Lemma X_site x y : x < Lx -> X Lx (site Lx x y) = x. Proof. apply (site_x Lx Ly); assumption. Qed.
Lemma Y_site x y : x < Lx -> Y Lx (site Lx x y) = y. Proof. apply (site_y Lx Ly); assumption. Qed.
Lemma arr_acts f g : (forall x y, x < Lx -> y < Ly -> f (site Lx x y) = site Lx (fst (g x y)) (snd (g x y))) -> acts_as Lx Ly (arr Lx Ly f) g no_inv.
Proof.
  intros H. split; [unfold arr, sites; rewrite map_length, seq_length; reflexivity|]. intros x y Hx Hy. cbv zeta. unfold arr. rewrite nth_sites by (apply site_lt; assumption). rewrite target_nat, flips_nat. split; [apply H; assumption|reflexivity].
Qed.
Lemma inv_acts (c : nat -> bool) (d : nat -> nat -> bool) : (forall x y, x < Lx -> y < Ly -> c (site Lx x y) = d x y) ->
  acts_as Lx Ly (map (fun i => if c i then (- (Z.of_nat i + 1))%Z else Z.of_nat i) (sites Lx Ly)) (fun x y => (x, y)) d.
Proof.
  intros H. split; [unfold sites; rewrite map_length, seq_length; reflexivity|]. intros x y Hx Hy. cbv zeta. rewrite nth_sites by (apply site_lt; assumption). rewrite H by assumption.
  destruct (d x y); [rewrite target_inv, flips_inv|rewrite target_nat, flips_nat]; split; reflexivity.
Qed.
Notation even_site := sub_A.
Notation odd_site := sub_B.
Lemma mod2_even k : (k mod 2 =? 0) = Nat.even k. Proof. destruct (Nat.even k) eqn:E. - apply Nat.even_spec in E. destruct E as [j ->]. rewrite Nat.mul_comm, Nat.mod_mul by lia. reflexivity.
  - assert (O : Nat.odd k = true) by (unfold Nat.odd; rewrite E; reflexivity). apply Nat.odd_spec in O. destruct O as [j ->]. rewrite Nat.add_comm, Nat.mul_comm, Nat.mod_add by lia. reflexivity. Qed.
Lemma mod2_odd k : (k mod 2 =? 1) = Nat.odd k. Proof. unfold Nat.odd. rewrite <- mod2_even. pose proof (Nat.mod_upper_bound k 2 ltac:(lia)). destruct (k mod 2) as [|[|?]]; try reflexivity. lia. Qed.
Lemma wrap L x : 1 <= L -> x < L -> (x + 1) mod L = right_of L x.
Proof. intros H1 H2. unfold right_of. destruct (Nat.eqb_spec (x + 1) L) as [-> |D]; [apply Nat.mod_same; lia|apply Nat.mod_small; lia]. Qed.
Lemma right_lt L x : 1 <= L -> x < L -> right_of L x < L. Proof. unfold right_of. destruct (Nat.eqb_spec (x + 1) L); lia. Qed.

Definition lTx : lat := (fun x y => (right_of Lx x, y), no_inv).
Definition lTy : lat := (fun x y => (x, right_of Ly y), no_inv).
Definition lPx : lat := (fun x y => (Lx - 1 - x, y), no_inv).
Definition lPy : lat := (fun x y => (x, Ly - 1 - y), no_inv).
Definition lPd : lat := (fun x y => (y, x), no_inv).
Definition lPe : lat := (fun x y => (Ly - 1 - y, Lx - 1 - x), no_inv).
Definition lZ : lat := (fun x y => (x, y), all_inv).
Definition lZA : lat := (fun x y => (x, y), even_site).
Definition lZB : lat := (fun x y => (x, y), odd_site).
Ltac inr := unfold in_range; cbn [fst snd]; intros x y Hx Hy; split; try assumption; try (apply right_lt; assumption); lia.
Ltac inj2 := unfold injective; intros x y x' y' Hx Hy Hx' Hy' EE; injection EE as E1 E2; unfold right_of in *; repeat match goal with H : context [?a =? ?b] |- _ => destruct (Nat.eqb_spec a b) end; lia.
Lemma Tx_acts : acts_as Lx Ly (sq_Tx Lx Ly) (fst lTx) no_inv. Proof. apply arr_acts. intros x y Hx Hy. cbn [lTx fst snd]. rewrite X_site, Y_site, wrap by assumption. reflexivity. Qed.
Lemma Ty_acts : acts_as Lx Ly (sq_Ty Lx Ly) (fst lTy) no_inv. Proof. apply arr_acts. intros x y Hx Hy. cbn [lTy fst snd]. rewrite X_site, Y_site, wrap by assumption. reflexivity. Qed.
Lemma Px_acts : acts_as Lx Ly (sq_Px Lx Ly) (fst lPx) no_inv. Proof. apply arr_acts. intros x y Hx Hy. cbn [lPx fst snd]. rewrite X_site, Y_site by assumption. unfold site. lia. Qed.
Lemma Py_acts : acts_as Lx Ly (sq_Py Lx Ly) (fst lPy) no_inv. Proof. apply arr_acts. intros x y Hx Hy. cbn [lPy fst snd]. rewrite X_site, Y_site by assumption. unfold site. f_equal. f_equal. lia. Qed.
Lemma Pd_acts m : sq_Pd Lx Ly = Some m -> acts_as Lx Ly m (fst lPd) no_inv.
Proof. unfold sq_Pd. destruct (Lx =? Ly); [|discriminate]. intros E. injection E as <-. apply arr_acts. intros x y Hx Hy. cbn [lPd fst snd]. rewrite X_site, Y_site by assumption. unfold site. lia. Qed.
Lemma Pe_acts m : sq_Pe Lx Ly = Some m -> acts_as Lx Ly m (fst lPe) no_inv.
Proof. unfold sq_Pe. destruct (Lx =? Ly); [|discriminate]. intros E. injection E as <-. apply arr_acts. intros x y Hx Hy. cbn [lPe fst snd]. rewrite X_site, Y_site by assumption. unfold site. rewrite (Nat.mul_comm Lx). f_equal; [lia|]. f_equal. lia. Qed.
Lemma Z_acts : acts_as Lx Ly (sq_Z Lx Ly) (fst lZ) all_inv. Proof. exact (inv_acts (fun _ => true) all_inv (fun _ _ _ _ => eq_refl)). Qed.
Lemma ZA_acts : acts_as Lx Ly (sq_ZA Lx Ly) (fst lZA) even_site. Proof. apply (inv_acts (fun i => (X Lx i + Y Lx i) mod 2 =? 0)). intros x y Hx Hy. rewrite X_site, Y_site by assumption. apply mod2_even. Qed.
Lemma ZB_acts : acts_as Lx Ly (sq_ZB Lx Ly) (fst lZB) odd_site. Proof. apply (inv_acts (fun i => (X Lx i + Y Lx i) mod 2 =? 1)). intros x y Hx Hy. rewrite X_site, Y_site by assumption. apply mod2_odd. Qed.
Lemma gTx : good (sq_Tx Lx Ly) lTx. Proof. apply good_intro; [exact Tx_acts|inr|inj2]. Qed.
Lemma gTy : good (sq_Ty Lx Ly) lTy. Proof. apply good_intro; [exact Ty_acts|inr|inj2]. Qed.
Lemma gPx : good (sq_Px Lx Ly) lPx. Proof. apply good_intro; [exact Px_acts|inr|inj2]. Qed.
Lemma gPy : good (sq_Py Lx Ly) lPy. Proof. apply good_intro; [exact Py_acts|inr|inj2]. Qed.
Lemma sq_eq m : sq_Pd Lx Ly = Some m \/ sq_Pe Lx Ly = Some m -> Lx = Ly. Proof. unfold sq_Pd, sq_Pe. destruct (Nat.eqb_spec Lx Ly); intros [H|H]; try discriminate; assumption. Qed.
Lemma gPd m : sq_Pd Lx Ly = Some m -> good m lPd. Proof. intros E. pose proof (sq_eq m (or_introl E)). apply good_intro; [exact (Pd_acts m E)|inr|inj2]. Qed.
Lemma gPe m : sq_Pe Lx Ly = Some m -> good m lPe. Proof. intros E. pose proof (sq_eq m (or_intror E)). apply good_intro; [exact (Pe_acts m E)|inr|inj2]. Qed.
Lemma gZ : good (sq_Z Lx Ly) lZ. Proof. apply good_intro; [exact Z_acts|inr|inj2]. Qed.
Lemma gZA : good (sq_ZA Lx Ly) lZA. Proof. apply good_intro; [exact ZA_acts|inr|inj2]. Qed.
Lemma gZB : good (sq_ZB Lx Ly) lZB. Proof. apply good_intro; [exact ZB_acts|inr|inj2]. Qed.

Lemma even_or k : exists j, (k = 2 * j /\ Nat.even k = true) \/ (k = 2 * j + 1 /\ Nat.even k = false).
Proof. destruct (Nat.even k) eqn:E; [apply Nat.even_spec in E; destruct E as [j E]; exists j; auto|]. assert (O : Nat.odd k = true) by (unfold Nat.odd; rewrite E; reflexivity). apply Nat.odd_spec in O. destruct O as [j O]. exists j. auto. Qed.
Ltac even_tac := repeat match goal with |- context [Nat.even ?k] => let j := fresh "j" in let E := fresh "E" in destruct (even_or k) as (j & [[? E]|[? E]]); rewrite E in *; clear E end;
  try match goal with H : Nat.even ?k = _ |- _ => let j := fresh "j" in let E := fresh "E" in destruct (even_or k) as (j & [[? E]|[? E]]); rewrite E in H; try discriminate H end; first [reflexivity | exfalso; lia].
Notation n := (Lx * Ly).
Definition on_states (f g : N -> N -> N) : Prop := forall B s, (2 <= B)%N -> (s < B ^ N.of_nat n)%N -> f B s = g B s.
Ltac par := unfold sub_A, sub_B, right_of, Nat.odd; repeat match goal with |- context [?a =? ?b] => destruct (Nat.eqb_spec a b) end; rewrite ?xorb_false_r, ?xorb_false_l; even_tac.
Lemma trip (a b a' b' : nat) (c c' : bool) : a = a' -> b = b' -> c = c' -> (a, b, c) = (a', b', c'). Proof. intros -> -> ->. reflexivity. Qed.
Ltac rel2 := intros x y Hx Hy; cbn [lwalk fold_left]; unfold lstep, lTx, lTy, lPx, lPy, lPd, lPe, lZ, lZA, lZB, no_inv, all_inv, right_of; cbn [fst snd xorb negb]; repeat match goal with |- context [?a =? ?b] => destruct (Nat.eqb_spec a b) | H : context [?a =? ?b] |- _ => destruct (Nat.eqb_spec a b) end; apply trip; first [reflexivity | lia | par].
Ltac parl := intros x y Hx Hy; cbn [lwalk fold_left]; unfold lstep, lTx, lTy, lPx, lPy, lZA, lZB, no_inv; cbn [fst snd xorb negb]; f_equal; par.
Ltac gd := repeat first [apply Forall2_nil | apply Forall2_cons; [solve [auto using gTx, gTy, gPx, gPy, gPd, gPe, gZ, gZA, gZB]|]].
Lemma TxTy B s : (2 <= B)%N -> (s < B ^ N.of_nat n)%N -> boson_map_bits B n (sq_Tx Lx Ly) (boson_map_bits B n (sq_Ty Lx Ly) s) = boson_map_bits B n (sq_Ty Lx Ly) (boson_map_bits B n (sq_Tx Lx Ly) s).
Proof. intros HB Hs. refine (relation [sq_Ty Lx Ly; sq_Tx Lx Ly] [lTy; lTx] [sq_Tx Lx Ly; sq_Ty Lx Ly] [lTx; lTy] _ _ _ B s HB Hs); [gd|gd|rel2]. Qed.
Lemma TxPxTx B s : (2 <= B)%N -> (s < B ^ N.of_nat n)%N -> boson_map_bits B n (sq_Tx Lx Ly) (boson_map_bits B n (sq_Px Lx Ly) (boson_map_bits B n (sq_Tx Lx Ly) s)) = boson_map_bits B n (sq_Px Lx Ly) s.
Proof. intros HB Hs. refine (relation [sq_Tx Lx Ly; sq_Px Lx Ly; sq_Tx Lx Ly] [lTx; lPx; lTx] [sq_Px Lx Ly] [lPx] _ _ _ B s HB Hs); [gd|gd|rel2]. Qed.
Lemma TyPyTy B s : (2 <= B)%N -> (s < B ^ N.of_nat n)%N -> boson_map_bits B n (sq_Ty Lx Ly) (boson_map_bits B n (sq_Py Lx Ly) (boson_map_bits B n (sq_Ty Lx Ly) s)) = boson_map_bits B n (sq_Py Lx Ly) s.
Proof. intros HB Hs. refine (relation [sq_Ty Lx Ly; sq_Py Lx Ly; sq_Ty Lx Ly] [lTy; lPy; lTy] [sq_Py Lx Ly] [lPy] _ _ _ B s HB Hs); [gd|gd|rel2]. Qed.
Lemma PxTy B s : (2 <= B)%N -> (s < B ^ N.of_nat n)%N -> boson_map_bits B n (sq_Px Lx Ly) (boson_map_bits B n (sq_Ty Lx Ly) s) = boson_map_bits B n (sq_Ty Lx Ly) (boson_map_bits B n (sq_Px Lx Ly) s).
Proof. intros HB Hs. refine (relation [sq_Ty Lx Ly; sq_Px Lx Ly] [lTy; lPx] [sq_Px Lx Ly; sq_Ty Lx Ly] [lPx; lTy] _ _ _ B s HB Hs); [gd|gd|rel2]. Qed.
Lemma PyTx B s : (2 <= B)%N -> (s < B ^ N.of_nat n)%N -> boson_map_bits B n (sq_Py Lx Ly) (boson_map_bits B n (sq_Tx Lx Ly) s) = boson_map_bits B n (sq_Tx Lx Ly) (boson_map_bits B n (sq_Py Lx Ly) s).
Proof. intros HB Hs. refine (relation [sq_Tx Lx Ly; sq_Py Lx Ly] [lTx; lPy] [sq_Py Lx Ly; sq_Tx Lx Ly] [lPy; lTx] _ _ _ B s HB Hs); [gd|gd|rel2]. Qed.
Lemma PxPy B s : (2 <= B)%N -> (s < B ^ N.of_nat n)%N -> boson_map_bits B n (sq_Px Lx Ly) (boson_map_bits B n (sq_Py Lx Ly) s) = boson_map_bits B n (sq_Py Lx Ly) (boson_map_bits B n (sq_Px Lx Ly) s).
Proof. intros HB Hs. refine (relation [sq_Py Lx Ly; sq_Px Lx Ly] [lPy; lPx] [sq_Px Lx Ly; sq_Py Lx Ly] [lPx; lPy] _ _ _ B s HB Hs); [gd|gd|rel2]. Qed.
Lemma PxPx B s : (2 <= B)%N -> (s < B ^ N.of_nat n)%N -> boson_map_bits B n (sq_Px Lx Ly) (boson_map_bits B n (sq_Px Lx Ly) s) = s.
Proof. intros HB Hs. refine (relation [sq_Px Lx Ly; sq_Px Lx Ly] [lPx; lPx] [] [] _ _ _ B s HB Hs); [gd|gd|rel2]. Qed.
Lemma PyPy B s : (2 <= B)%N -> (s < B ^ N.of_nat n)%N -> boson_map_bits B n (sq_Py Lx Ly) (boson_map_bits B n (sq_Py Lx Ly) s) = s.
Proof. intros HB Hs. refine (relation [sq_Py Lx Ly; sq_Py Lx Ly] [lPy; lPy] [] [] _ _ _ B s HB Hs); [gd|gd|rel2]. Qed.
Lemma ZZ B s : (2 <= B)%N -> (s < B ^ N.of_nat n)%N -> boson_map_bits B n (sq_Z Lx Ly) (boson_map_bits B n (sq_Z Lx Ly) s) = s.
Proof. intros HB Hs. refine (relation [sq_Z Lx Ly; sq_Z Lx Ly] [lZ; lZ] [] [] _ _ _ B s HB Hs); [gd|gd|rel2]. Qed.
Lemma ZAZA B s : (2 <= B)%N -> (s < B ^ N.of_nat n)%N -> boson_map_bits B n (sq_ZA Lx Ly) (boson_map_bits B n (sq_ZA Lx Ly) s) = s.
Proof. intros HB Hs. refine (relation [sq_ZA Lx Ly; sq_ZA Lx Ly] [lZA; lZA] [] [] _ _ _ B s HB Hs); [gd|gd|rel2]. Qed.
Lemma ZBZB B s : (2 <= B)%N -> (s < B ^ N.of_nat n)%N -> boson_map_bits B n (sq_ZB Lx Ly) (boson_map_bits B n (sq_ZB Lx Ly) s) = s.
Proof. intros HB Hs. refine (relation [sq_ZB Lx Ly; sq_ZB Lx Ly] [lZB; lZB] [] [] _ _ _ B s HB Hs); [gd|gd|rel2]. Qed.
Lemma ZAZB B s : (2 <= B)%N -> (s < B ^ N.of_nat n)%N -> boson_map_bits B n (sq_ZA Lx Ly) (boson_map_bits B n (sq_ZB Lx Ly) s) = boson_map_bits B n (sq_Z Lx Ly) s.
Proof. intros HB Hs. refine (relation [sq_ZB Lx Ly; sq_ZA Lx Ly] [lZB; lZA] [sq_Z Lx Ly] [lZ] _ _ _ B s HB Hs); [gd|gd|rel2]. Qed.
Lemma ZBZA B s : (2 <= B)%N -> (s < B ^ N.of_nat n)%N -> boson_map_bits B n (sq_ZB Lx Ly) (boson_map_bits B n (sq_ZA Lx Ly) s) = boson_map_bits B n (sq_Z Lx Ly) s.
Proof. intros HB Hs. refine (relation [sq_ZA Lx Ly; sq_ZB Lx Ly] [lZA; lZB] [sq_Z Lx Ly] [lZ] _ _ _ B s HB Hs); [gd|gd|rel2]. Qed.
Lemma TxZ B s : (2 <= B)%N -> (s < B ^ N.of_nat n)%N -> boson_map_bits B n (sq_Tx Lx Ly) (boson_map_bits B n (sq_Z Lx Ly) s) = boson_map_bits B n (sq_Z Lx Ly) (boson_map_bits B n (sq_Tx Lx Ly) s).
Proof. intros HB Hs. refine (relation [sq_Z Lx Ly; sq_Tx Lx Ly] [lZ; lTx] [sq_Tx Lx Ly; sq_Z Lx Ly] [lTx; lZ] _ _ _ B s HB Hs); [gd|gd|rel2]. Qed.
Lemma TyZ B s : (2 <= B)%N -> (s < B ^ N.of_nat n)%N -> boson_map_bits B n (sq_Ty Lx Ly) (boson_map_bits B n (sq_Z Lx Ly) s) = boson_map_bits B n (sq_Z Lx Ly) (boson_map_bits B n (sq_Ty Lx Ly) s).
Proof. intros HB Hs. refine (relation [sq_Z Lx Ly; sq_Ty Lx Ly] [lZ; lTy] [sq_Ty Lx Ly; sq_Z Lx Ly] [lTy; lZ] _ _ _ B s HB Hs); [gd|gd|rel2]. Qed.
Lemma PxZ B s : (2 <= B)%N -> (s < B ^ N.of_nat n)%N -> boson_map_bits B n (sq_Px Lx Ly) (boson_map_bits B n (sq_Z Lx Ly) s) = boson_map_bits B n (sq_Z Lx Ly) (boson_map_bits B n (sq_Px Lx Ly) s).
Proof. intros HB Hs. refine (relation [sq_Z Lx Ly; sq_Px Lx Ly] [lZ; lPx] [sq_Px Lx Ly; sq_Z Lx Ly] [lPx; lZ] _ _ _ B s HB Hs); [gd|gd|rel2]. Qed.
Lemma PyZ B s : (2 <= B)%N -> (s < B ^ N.of_nat n)%N -> boson_map_bits B n (sq_Py Lx Ly) (boson_map_bits B n (sq_Z Lx Ly) s) = boson_map_bits B n (sq_Z Lx Ly) (boson_map_bits B n (sq_Py Lx Ly) s).
Proof. intros HB Hs. refine (relation [sq_Z Lx Ly; sq_Py Lx Ly] [lZ; lPy] [sq_Py Lx Ly; sq_Z Lx Ly] [lPy; lZ] _ _ _ B s HB Hs); [gd|gd|rel2]. Qed.
Lemma PdPd md B s : sq_Pd Lx Ly = Some md -> (2 <= B)%N -> (s < B ^ N.of_nat n)%N -> boson_map_bits B n (md) (boson_map_bits B n (md) s) = s.
Proof. intros Ed HB Hs. pose proof (sq_eq md (or_introl Ed)) as ESq. refine (relation [md; md] [lPd; lPd] [] [] _ _ _ B s HB Hs); [gd|gd|rel2]. Qed.
Lemma PdTx md B s : sq_Pd Lx Ly = Some md -> (2 <= B)%N -> (s < B ^ N.of_nat n)%N -> boson_map_bits B n (md) (boson_map_bits B n (sq_Tx Lx Ly) s) = boson_map_bits B n (sq_Ty Lx Ly) (boson_map_bits B n (md) s).
Proof. intros Ed HB Hs. pose proof (sq_eq md (or_introl Ed)) as ESq. refine (relation [sq_Tx Lx Ly; md] [lTx; lPd] [md; sq_Ty Lx Ly] [lPd; lTy] _ _ _ B s HB Hs); [gd|gd|rel2]. Qed.
Lemma PdPx md B s : sq_Pd Lx Ly = Some md -> (2 <= B)%N -> (s < B ^ N.of_nat n)%N -> boson_map_bits B n (md) (boson_map_bits B n (sq_Px Lx Ly) s) = boson_map_bits B n (sq_Py Lx Ly) (boson_map_bits B n (md) s).
Proof. intros Ed HB Hs. pose proof (sq_eq md (or_introl Ed)) as ESq. refine (relation [sq_Px Lx Ly; md] [lPx; lPd] [md; sq_Py Lx Ly] [lPd; lPy] _ _ _ B s HB Hs); [gd|gd|rel2]. Qed.
Lemma PdZ md B s : sq_Pd Lx Ly = Some md -> (2 <= B)%N -> (s < B ^ N.of_nat n)%N -> boson_map_bits B n (md) (boson_map_bits B n (sq_Z Lx Ly) s) = boson_map_bits B n (sq_Z Lx Ly) (boson_map_bits B n (md) s).
Proof. intros Ed HB Hs. pose proof (sq_eq md (or_introl Ed)) as ESq. refine (relation [sq_Z Lx Ly; md] [lZ; lPd] [md; sq_Z Lx Ly] [lPd; lZ] _ _ _ B s HB Hs); [gd|gd|rel2]. Qed.
Lemma PdZA md B s : sq_Pd Lx Ly = Some md -> (2 <= B)%N -> (s < B ^ N.of_nat n)%N -> boson_map_bits B n (md) (boson_map_bits B n (sq_ZA Lx Ly) s) = boson_map_bits B n (sq_ZA Lx Ly) (boson_map_bits B n (md) s).
Proof. intros Ed HB Hs. pose proof (sq_eq md (or_introl Ed)) as ESq. refine (relation [sq_ZA Lx Ly; md] [lZA; lPd] [md; sq_ZA Lx Ly] [lPd; lZA] _ _ _ B s HB Hs); [gd|gd|rel2]. Qed.
Lemma PePe me B s : sq_Pe Lx Ly = Some me -> (2 <= B)%N -> (s < B ^ N.of_nat n)%N -> boson_map_bits B n (me) (boson_map_bits B n (me) s) = s.
Proof. intros Ee HB Hs. pose proof (sq_eq me (or_intror Ee)) as ESq. refine (relation [me; me] [lPe; lPe] [] [] _ _ _ B s HB Hs); [gd|gd|rel2]. Qed.
Lemma PxPyPd md me B s : sq_Pd Lx Ly = Some md -> sq_Pe Lx Ly = Some me -> (2 <= B)%N -> (s < B ^ N.of_nat n)%N -> boson_map_bits B n (sq_Px Lx Ly) (boson_map_bits B n (sq_Py Lx Ly) (boson_map_bits B n (md) s)) = boson_map_bits B n (me) s.
Proof. intros Ed Ee HB Hs. pose proof (sq_eq md (or_introl Ed)) as ESq. refine (relation [md; sq_Py Lx Ly; sq_Px Lx Ly] [lPd; lPy; lPx] [me] [lPe] _ _ _ B s HB Hs); [gd|gd|rel2]. Qed.
Lemma PeTx me B s : sq_Pe Lx Ly = Some me -> (2 <= B)%N -> (s < B ^ N.of_nat n)%N -> boson_map_bits B n (sq_Tx Lx Ly) (boson_map_bits B n (me) (boson_map_bits B n (sq_Ty Lx Ly) s)) = boson_map_bits B n (me) s.
Proof. intros Ee HB Hs. pose proof (sq_eq me (or_intror Ee)) as ESq. refine (relation [sq_Ty Lx Ly; me; sq_Tx Lx Ly] [lTy; lPe; lTx] [me] [lPe] _ _ _ B s HB Hs); [gd|gd|rel2]. Qed.
Lemma PeZ me B s : sq_Pe Lx Ly = Some me -> (2 <= B)%N -> (s < B ^ N.of_nat n)%N -> boson_map_bits B n (me) (boson_map_bits B n (sq_Z Lx Ly) s) = boson_map_bits B n (sq_Z Lx Ly) (boson_map_bits B n (me) s).
Proof. intros Ee HB Hs. pose proof (sq_eq me (or_intror Ee)) as ESq. refine (relation [sq_Z Lx Ly; me] [lZ; lPe] [me; sq_Z Lx Ly] [lPe; lZ] _ _ _ B s HB Hs); [gd|gd|rel2]. Qed.
Lemma TxZA B s : Nat.even Lx = true -> (2 <= B)%N -> (s < B ^ N.of_nat n)%N -> boson_map_bits B n (sq_Tx Lx Ly) (boson_map_bits B n (sq_ZA Lx Ly) s) = boson_map_bits B n (sq_ZB Lx Ly) (boson_map_bits B n (sq_Tx Lx Ly) s).
Proof. intros Ev HB Hs. refine (relation [sq_ZA Lx Ly; sq_Tx Lx Ly] [lZA; lTx] [sq_Tx Lx Ly; sq_ZB Lx Ly] [lTx; lZB] _ _ _ B s HB Hs); [gd|gd|parl]. Qed.
Lemma TyZA B s : Nat.even Ly = true -> (2 <= B)%N -> (s < B ^ N.of_nat n)%N -> boson_map_bits B n (sq_Ty Lx Ly) (boson_map_bits B n (sq_ZA Lx Ly) s) = boson_map_bits B n (sq_ZB Lx Ly) (boson_map_bits B n (sq_Ty Lx Ly) s).
Proof. intros Ev HB Hs. refine (relation [sq_ZA Lx Ly; sq_Ty Lx Ly] [lZA; lTy] [sq_Ty Lx Ly; sq_ZB Lx Ly] [lTy; lZB] _ _ _ B s HB Hs); [gd|gd|parl]. Qed.
Lemma PxZA B s : Nat.even Lx = true -> (2 <= B)%N -> (s < B ^ N.of_nat n)%N -> boson_map_bits B n (sq_Px Lx Ly) (boson_map_bits B n (sq_ZA Lx Ly) s) = boson_map_bits B n (sq_ZB Lx Ly) (boson_map_bits B n (sq_Px Lx Ly) s).
Proof. intros Ev HB Hs. refine (relation [sq_ZA Lx Ly; sq_Px Lx Ly] [lZA; lPx] [sq_Px Lx Ly; sq_ZB Lx Ly] [lPx; lZB] _ _ _ B s HB Hs); [gd|gd|parl]. Qed.
Lemma PyZA B s : Nat.even Ly = true -> (2 <= B)%N -> (s < B ^ N.of_nat n)%N -> boson_map_bits B n (sq_Py Lx Ly) (boson_map_bits B n (sq_ZA Lx Ly) s) = boson_map_bits B n (sq_ZB Lx Ly) (boson_map_bits B n (sq_Py Lx Ly) s).
Proof. intros Ev HB Hs. refine (relation [sq_ZA Lx Ly; sq_Py Lx Ly] [lZA; lPy] [sq_Py Lx Ly; sq_ZB Lx Ly] [lPy; lZB] _ _ _ B s HB Hs); [gd|gd|parl]. Qed.
Lemma PxZA_odd B s : Nat.even Lx = false -> (2 <= B)%N -> (s < B ^ N.of_nat n)%N -> boson_map_bits B n (sq_Px Lx Ly) (boson_map_bits B n (sq_ZA Lx Ly) s) = boson_map_bits B n (sq_ZA Lx Ly) (boson_map_bits B n (sq_Px Lx Ly) s).
Proof. intros Ev HB Hs. refine (relation [sq_ZA Lx Ly; sq_Px Lx Ly] [lZA; lPx] [sq_Px Lx Ly; sq_ZA Lx Ly] [lPx; lZA] _ _ _ B s HB Hs); [gd|gd|parl]. Qed.
Lemma PyZA_odd B s : Nat.even Ly = false -> (2 <= B)%N -> (s < B ^ N.of_nat n)%N -> boson_map_bits B n (sq_Py Lx Ly) (boson_map_bits B n (sq_ZA Lx Ly) s) = boson_map_bits B n (sq_ZA Lx Ly) (boson_map_bits B n (sq_Py Lx Ly) s).
Proof. intros Ev HB Hs. refine (relation [sq_ZA Lx Ly; sq_Py Lx Ly] [lZA; lPy] [sq_Py Lx Ly; sq_ZA Lx Ly] [lPy; lZA] _ _ _ B s HB Hs); [gd|gd|parl]. Qed.
End L.
