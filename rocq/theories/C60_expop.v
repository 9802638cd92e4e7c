(* C60: exponentials of operators on a grid (class exp_op). *)
From Verif Require Import AuxN SpecC SpecExpm SpecHam SpecExpop M_block M_expop P_expop.
Local Open Scope nat_scope.

(* c (O + s): the exponent; the documentation has O - s *)
Definition shifted (c : C) (O : cmat) (shift : option C) : cmat :=
  fun i j => (c * (O i j + match shift with Some s => s | None => C0 end * identity_mat i j))%C.
(* y has the kind and shape of x, and each of its matrices is F times that of x; x times F; F^+ x F *)
Definition left_product (n : nat) (F : cmat) (x y : operand) : Prop :=
  knd y = knd x /\ rows y = rows x /\ cols y = cols x /\ length (parts y) = length (parts x) /\
  forall p, p < length (parts x) -> forall i j, i < n -> nth p (parts y) Z0 i j = mat_mul n F (nth p (parts x) Z0) i j.
Definition right_product (n : nat) (F : cmat) (x y : operand) : Prop :=
  knd y = knd x /\ rows y = rows x /\ cols y = cols x /\ length (parts y) = length (parts x) /\
  forall p, p < length (parts x) -> match knd x with
    | KVec => forall j, j < n -> nth p (parts y) Z0 j 0 = Csum (seq 0 n) (fun i => nth p (parts x) Z0 i 0 * F i j)%C
    | _ => forall i j, j < n -> nth p (parts y) Z0 i j = mat_mul n (nth p (parts x) Z0) F i j
    end.
Definition between (n : nat) (F : cmat) (x y : operand) : Prop :=
  knd y = knd x /\ rows y = rows x /\ cols y = cols x /\ length (parts y) = length (parts x) /\
  forall p, p < length (parts x) -> forall i j, i < n -> j < n -> nth p (parts y) Z0 i j = mat_mul n (mat_mul n (mat_H F) (nth p (parts x) Z0)) F i j.
(* l has one entry for each point t of the grid, the product with F t *)
Definition for_each (prod : cmat -> operand -> operand -> Prop) (F : R -> cmat) (g : list R) (x : operand) (l : list operand) : Prop :=
  length l = length g /\ forall k, k < length g -> exists y, nth_error l k = Some y /\ prod (F (nth k g 0%R)) x y.

Definition on_grid (o : expop) : Prop := match grid o with
  | None => start o = None
  | Some (g, d) => exists b e m ep, start o = Some b /\ stop o = Some e /\ num o = Some m /\ endpoint o = Some ep /\ (g, d) = linspace b e m ep
  end.
Lemma reachable_grid o : reachable o -> on_grid o.
Proof.
  induction 1 as [O a0 b e m ep it o H|o c HR IH|o b e m ep o' HR IH H|o HR IH|o v HR IH]; unfold on_grid in *; cbn; try assumption; try reflexivity.
  - unfold construct in H. destruct b as [b|], e as [e|]; try (destruct it; discriminate).
    + injection H as <-. cbn [grid start stop num endpoint]. unfold linspace. do 4 eexists. repeat (split; [reflexivity|]). reflexivity.
    + destruct it; [discriminate|]. destruct m, ep; try discriminate. now injection H as <-.
  - unfold set_grid in H. destruct m as [m|], ep as [ep|]; try discriminate. injection H as <-. cbn. do 4 eexists. repeat (split; [reflexivity|]). reflexivity.
Qed.
Lemma linspace_right b e m ep : equidistant b e m ep (fst (linspace b e m ep)).
Proof.
  unfold linspace, equidistant. cbn [fst]. split; [now rewrite map_length, seq_length|]. exists (spacing b e m ep). split.
  - intros k Hk. rewrite (nth_indep _ 0%R ((fun k => b + INR k * spacing b e m ep)%R 0)) by (rewrite map_length, seq_length; exact Hk).
    rewrite (map_nth (fun k => (b + INR k * spacing b e m ep)%R)), seq_nth by exact Hk. reflexivity.
  - intro Hm. unfold spacing. assert (HI : forall q, 0 < q -> (b + INR q * ((e - b) / INR q))%R = e).
    { intros q Hq. assert (INR q <> 0%R) by (apply not_0_INR; lia). field. assumption. }
    destruct ep; apply HI; lia.
Qed.

(* In every history of calls the grid consists of equidistant points from start to stop as they were set last, or there is none. *)
Theorem C60_grid : forall o, reachable o ->
  match grid o with
  | None => start o = None
  | Some (g, _) => exists b e m ep, start o = Some b /\ stop o = Some e /\ num o = Some m /\ endpoint o = Some ep /\ equidistant b e m ep g
  end.
Proof.
  intros o HR. assert (G := reachable_grid o HR). unfold on_grid in G. destruct (grid o) as [[g d]|]; [|exact G].
  destruct G as (b & e & m & ep & H1 & H2 & H3 & H4 & H5). exists b, e, m, ep. repeat (split; [assumption|]).
  apply (f_equal fst) in H5. cbn [fst] in H5. rewrite H5. apply linspace_right.
Qed.
Print Assumptions C60_grid.

Lemma exponent_shifted n c O shift : same n (exponent c O shift) (shifted c O shift).
Proof. intros i j _ _. unfold exponent, shifted, mat_scale, mat_add, mat_scale. destruct shift; ring. Qed.
Lemma same_sym n A B : same n A B -> same n B A.
Proof. intros H i j Hi Hj. symmetry. now apply H. Qed.
Lemma grid_points o g d : reachable o -> grid o = Some (g, d) -> exists b, g = map (fun k => (b + INR k * d)%R) (seq 0 (length g)).
Proof.
  intros HR EG. assert (G := reachable_grid o HR). unfold on_grid in G. rewrite EG in G. destruct G as (b & e & m & ep & _ & _ & _ & _ & H5).
  unfold linspace in H5. injection H5 as H5 H6. exists b. rewrite <- H6 in H5. rewrite H5 at 1. f_equal. rewrite H5, map_length, seq_length. reflexivity.
Qed.
Lemma point_at (b d : R) m k : k < m -> nth k (map (fun k => (b + INR k * d)%R) (seq 0 m)) 0%R = (b + INR k * d)%R.
Proof.
  intro Hk. rewrite (nth_indep _ 0%R ((fun k => b + INR k * d)%R 0)) by (rewrite map_length, seq_length; exact Hk).
  rewrite (map_nth (fun k => (b + INR k * d)%R)), seq_nth by exact Hk. reflexivity.
Qed.

Lemma nth_map0 (f : cmat -> cmat) : forall (l : list cmat) p, p < length l -> nth p (map f l) Z0 = f (nth p l Z0).
Proof. induction l as [|y l IH]; intros [|p] H; cbn in *; try lia; [reflexivity|apply IH; lia]. Qed.

(* the entry (i,j) of the matrix of the k-th element *)
Definition entry_of (l : list operand) (k i j : nat) (c : C) : Prop := exists y, nth_error l k = Some y /\ c = nth 0 (parts y) Z0 i j.
Lemma entry_point l k i j : k < length l -> entry_of l k i j (point l k i j).
Proof.
  intro Hk. destruct (nth_error l k) as [y|] eqn:E; [|apply nth_error_None in E; lia]. exists y. split; [exact E|]. unfold point, part0.
  now rewrite (nth_error_nth l k _ E).
Qed.

Section Run.
Variables (n : nat) (K : cmat -> Prop) (E : cmat -> cmat).
Hypothesis L : exponential_on n K E.
Variables (o : expop) (g : list R) (d : R).
Hypothesis HR : reachable o.
Hypothesis HG : grid o = Some (g, d).
Hypothesis Hne : g <> [].
Lemma run_left (S M : cmat) x : K S -> same n M S ->
  exists l, iter (mulE n E) (fun y => y) M x d g = Some l /\ for_each (left_product n) (fun t => E (scaled t S)) g x l.
Proof.
  intros HS HM. destruct (grid_points o g d HR HG) as [b Eg].
  assert (HK : K M) by (apply (K_same _ _ _ L S); [exact HS|now apply same_sym]).
  assert (Hm : 0 < length g) by (destruct g; [congruence|cbn; lia]).
  destruct (iter_at n K E L (left n E) (rows_in n) (left_ext n K E L) (left_add n K E L) (left_zero n K E L) M x HK (fun y => y) b d (length g) Hm) as (l & El & Hl & Hk).
  rewrite <- Eg in El. exists l. split; [exact El|]. split; [exact Hl|]. intros k Hk'. destruct (Hk k Hk') as (z & Ez & Z1 & Z2 & Z3 & Z4 & Z5).
  exists z. split; [exact Ez|]. repeat (split; [assumption|]). intros p Hp i j Hi. rewrite (Z5 p Hp i j Hi). rewrite Eg. rewrite point_at by exact Hk'.
  apply mul_agree; [|reflexivity|exact Hi]. apply (E_same _ _ _ L); [now apply (K_scale _ _ _ L)|now apply same_scaled].
Qed.
Lemma run_right (S M : cmat) x : K S -> same n M S ->
  exists l, iter (mulE n E) opT (mat_T M) (opT x) d g = Some l /\ for_each (right_product n) (fun t => E (scaled t S)) g x l.
Proof.
  intros HS HM. destruct (grid_points o g d HR HG) as [b Eg].
  assert (HK : K (mat_T M)) by (apply (K_T _ _ _ L), (K_same _ _ _ L S); [exact HS|now apply same_sym]).
  assert (Hm : 0 < length g) by (destruct g; [congruence|cbn; lia]).
  destruct (iter_at n K E L (left n E) (rows_in n) (left_ext n K E L) (left_add n K E L) (left_zero n K E L) (mat_T M) (opT x) HK opT b d (length g) Hm) as (l & El & Hl & Hk).
  rewrite <- Eg in El. exists l. split; [exact El|]. split; [exact Hl|]. intros k Hk'. destruct (Hk k Hk') as (z & Ez & Z1 & Z2 & Z3 & Z4 & Z5).
  exists (opT z). split; [exact Ez|]. rewrite Eg. rewrite point_at by exact Hk'. set (t := (b + INR k * d)%R) in *.
  assert (HE : same n (E (scaled t (mat_T M))) (mat_T (E (scaled t S)))).
  { intros i j Hi Hj. transitivity (E (mat_T (scaled t S)) i j).
    - apply (E_same _ _ _ L); [now apply (K_scale _ _ _ L)| |exact Hi|exact Hj]. intros i' j' Hi' Hj'. unfold scaled, mat_scale, mat_T. now rewrite HM.
    - apply (E_T _ _ _ L); [now apply (K_scale _ _ _ L)|exact Hi|exact Hj]. }
  clear El Ez. unfold right_product.
  assert (Mat : knd x <> KVec -> forall p, p < length (parts x) -> forall i j, j < n -> nth p (parts (opT z)) Z0 i j = mat_mul n (nth p (parts x) Z0) (E (scaled t S)) i j).
  { intros Hv p Hp i j Hj. assert (HT : parts (opT x) = map mat_T (parts x)) by (unfold opT; destruct (knd x); [now destruct Hv|reflexivity..]).
    assert (HT2 : parts (opT z) = map mat_T (parts z)) by (unfold opT; rewrite Z1; unfold opT; destruct (knd x) eqn:EK; cbn [knd]; [now destruct Hv|reflexivity..]).
    rewrite HT, map_length in *. rewrite HT2, nth_map0 by lia. unfold mat_T at 1. rewrite (Z5 p Hp j i Hj), nth_map0 by lia. unfold left, mat_mul.
    apply Csum_ext. intros k' Hk2. apply in_seq in Hk2. rewrite HE by lia. unfold mat_T. ring. }
  destruct (knd x) eqn:EK.
  - unfold opT in *. rewrite EK in *. rewrite EK in Z1. rewrite Z1. repeat (split; [assumption|]).
    intros p Hp j Hj. rewrite (Z5 p Hp j 0 Hj). unfold left, mat_mul. apply Csum_ext. intros i Hi. apply in_seq in Hi. rewrite HE by lia. unfold mat_T. ring.
  - clear Z5. unfold opT in Z1, Z2, Z3, Z4. rewrite EK in *. cbn [knd rows cols parts] in *. rewrite map_length in Z4.
    split; [|split; [|split; [|split]]]; [unfold opT; rewrite Z1; cbn; first [assumption|congruence|reflexivity]..| |apply Mat; congruence]; unfold opT; rewrite Z1; cbn; rewrite map_length; assumption.
  - clear Z5. unfold opT in Z1, Z2, Z3, Z4. rewrite EK in *. cbn [knd rows cols parts] in *. rewrite map_length in Z4.
    split; [|split; [|split; [|split]]]; [unfold opT; rewrite Z1; cbn; first [assumption|congruence|reflexivity]..| |apply Mat; congruence]; unfold opT; rewrite Z1; cbn; rewrite map_length; assumption.
  - clear Z5. unfold opT in Z1, Z2, Z3, Z4. rewrite EK in *. cbn [knd rows cols parts] in *. rewrite map_length in Z4.
    split; [|split; [|split; [|split]]]; [unfold opT; rewrite Z1; cbn; first [assumption|congruence|reflexivity]..| |apply Mat; congruence]; unfold opT; rewrite Z1; cbn; rewrite map_length; assumption.
Qed.
Lemma run_between (S M : cmat) x : K S -> same n M (mat_H S) ->
  exists l, iter (fun M => on_parts (both_sides n E M)) (fun y => y) M x d g = Some l /\ for_each (between n) (fun t => E (scaled t S)) g x l.
Proof.
  intros HS HM. destruct (grid_points o g d HR HG) as [b Eg].
  assert (HK : K M) by (apply (K_same _ _ _ L (mat_H S)); [exact (K_conj _ _ _ L _ (K_T _ _ _ L S HS))|now apply same_sym]).
  assert (Hm : 0 < length g) by (destruct g; [congruence|cbn; lia]).
  destruct (iter_at n K E L (both_sides n E) (square_in n) (both_ext n K E L) (both_add n K E L) (both_zero n K E L) M x HK (fun y => y) b d (length g) Hm) as (l & El & Hl & Hk).
  rewrite <- Eg in El. exists l. split; [exact El|]. split; [exact Hl|]. intros k Hk'. destruct (Hk k Hk') as (z & Ez & Z1 & Z2 & Z3 & Z4 & Z5).
  exists z. split; [exact Ez|]. repeat (split; [assumption|]). intros p Hp i j Hi Hj. rewrite (Z5 p Hp i j (conj Hi Hj)). rewrite Eg. rewrite point_at by exact Hk'.
  set (t := (b + INR k * d)%R) in *.
  assert (HE : same n (E (scaled t M)) (mat_H (E (scaled t S)))).
  { intros i' j' Hi' Hj'. transitivity (E (mat_conj (mat_T (scaled t S))) i' j').
    - apply (E_same _ _ _ L); [now apply (K_scale _ _ _ L)| |assumption|assumption]. intros i2 j2 Hi2 Hj2. unfold scaled, mat_scale, mat_conj, mat_T.
      rewrite HM by assumption. unfold mat_H. rewrite Cconj_mul. f_equal. apply C_eq; cbn; ring.
    - rewrite (E_conj _ _ _ L) by (try assumption; now apply (K_T _ _ _ L), (K_scale _ _ _ L)). unfold mat_conj. rewrite (E_T _ _ _ L) by (try assumption; now apply (K_scale _ _ _ L)). reflexivity. }
  rewrite both_eq. apply mul_agree2; [| |exact Hi].
  - intros i' k' Hi' Hk2. apply mul_agree2; [exact HE|reflexivity|exact Hi'].
  - intros k2 Hk2. unfold mat_H at 1. rewrite HE by assumption. unfold mat_H. apply Cconj_invol.
Qed.
End Run.

(* dot with a grid: E(t a (O + shift)) x for every point t of the grid: as a generator; for a vector as an array with a column for
   each point; for a sparse matrix as an array of matrices.  For an array with two axes see C60_dot_array_refuted. *)
Theorem C60_dot : forall n K E o g d x shift, exponential_on n K E -> reachable o -> grid o = Some (g, d) -> g <> [] ->
  K (shifted (a o) (Op o) shift) -> rows x = n -> knd x <> KHam ->
  exists l, for_each (left_product n) (fun t => E (scaled t (shifted (a o) (Op o) shift))) g x l /\
    (iterate o = true -> dot n E o x shift = Gen l) /\
    (iterate o = false -> knd x = KSpa -> dot n E o x shift = Objs l) /\
    (iterate o = false -> knd x = KVec -> exists f, dot n E o x shift = Nd2 n (length g) f /\ forall i k, k < length g -> entry_of l k i 0 (f i k)) /\
    (iterate o = false -> knd x = KArr -> exists f, dot n E o x shift = Nd3 (cols x) n (length g) f /\ forall i j k, k < length g -> entry_of l k i j (f j i k)).
Proof.
  intros n K E o g d x shift L HR HG Hne HK Hn Hk.
  destruct (run_left n K E L o g d HR HG Hne _ (exponent (a o) (Op o) shift) x HK (exponent_shifted n _ _ _)) as (l & El & Hl).
  exists l. split; [exact Hl|]. unfold dot. rewrite Hn, Nat.eqb_refl. cbn [negb]. rewrite HG. destruct Hl as [Hlen _].
  repeat split; intro HI; rewrite HI.
  - destruct (knd x); try congruence; now rewrite El.
  - intros ->. now rewrite El.
  - intros ->. rewrite El. cbn [listed]. rewrite Hlen. eexists. split; [reflexivity|]. intros. apply entry_point. lia.
  - intros ->. rewrite El. cbn [listed]. rewrite Hlen. eexists. split; [reflexivity|]. intros. apply entry_point. lia.
Qed.
Print Assumptions C60_dot.

(* rdot with a grid: x E(t a (O + shift)) for every point t, with the points along the first axis. *)
Theorem C60_rdot : forall n K E o g d x shift, exponential_on n K E -> reachable o -> grid o = Some (g, d) -> g <> [] ->
  K (shifted (a o) (Op o) shift) -> match knd x with KVec => rows x | _ => cols x end = n -> knd x <> KHam ->
  exists l, for_each (right_product n) (fun t => E (scaled t (shifted (a o) (Op o) shift))) g x l /\
    (iterate o = true -> rdot n E o x shift = Gen l) /\
    (iterate o = false -> knd x = KSpa -> rdot n E o x shift = Objs l) /\
    (iterate o = false -> knd x = KVec -> exists f, rdot n E o x shift = Nd2 (length g) n f /\ forall i k, k < length g -> entry_of l k i 0 (f k i)) /\
    (iterate o = false -> knd x = KArr -> exists f, rdot n E o x shift = Nd3 (length g) (rows x) n f /\ forall i j k, k < length g -> entry_of l k i j (f k i j)).
Proof.
  intros n K E o g d x shift L HR HG Hne HK Hn Hk.
  destruct (run_right n K E L o g d HR HG Hne _ (exponent (a o) (Op o) shift) x HK (exponent_shifted n _ _ _)) as (l & El & Hl).
  exists l. split; [exact Hl|]. unfold rdot. rewrite Hn, Nat.eqb_refl. cbn [negb]. rewrite HG. destruct Hl as [Hlen _].
  repeat split; intro HI; rewrite HI.
  - destruct (knd x); try congruence; now rewrite El.
  - intros ->. now rewrite El.
  - intros ->. rewrite El. cbn [listed]. rewrite Hlen. eexists. split; [reflexivity|]. intros. apply entry_point. lia.
  - intros ->. rewrite El. cbn [listed]. rewrite Hlen. eexists. split; [reflexivity|]. intros. apply entry_point. lia.
Qed.
Print Assumptions C60_rdot.

(* sandwich with a grid: F^+ x F with F = E(t a (O + shift^* )) for every point t; also for hamiltonian objects. *)
Theorem C60_sandwich : forall n K E o g d x shift, exponential_on n K E -> reachable o -> grid o = Some (g, d) -> g <> [] ->
  K (shifted (a o) (Op o) (option_map Cconj shift)) -> rows x = n -> cols x = n -> knd x <> KVec ->
  exists l, for_each (between n) (fun t => E (scaled t (shifted (a o) (Op o) (option_map Cconj shift)))) g x l /\
    (iterate o = true -> sandwich n E o x shift = Gen l) /\
    (iterate o = false -> knd x = KHam -> sandwich n E o x shift = Objs l) /\
    (iterate o = false -> knd x = KArr -> exists f, sandwich n E o x shift = Nd3 n n (length g) f /\ forall i j k, k < length g -> entry_of l k i j (f i j k)).
Proof.
  intros n K E o g d x shift L HR HG Hne HK Hr Hc Hk.
  assert (HM : same n (exponent (Cconj (a o)) (mat_H (Op o)) shift) (mat_H (shifted (a o) (Op o) (option_map Cconj shift)))).
  { intros i j Hi Hj. rewrite (exponent_shifted n) by assumption. unfold shifted, mat_H. rewrite Cconj_mul, Cconj_add, Cconj_mul. f_equal. f_equal.
    destruct shift as [s|]; cbn [option_map]; rewrite ?Cconj_invol; unfold identity_mat; rewrite (Nat.eqb_sym j i); destruct (i =? j); apply C_eq; cbn; ring. }
  destruct (run_between n K E L o g d HR HG Hne _ _ x HK HM) as (l & El & Hl).
  exists l. split; [exact Hl|]. unfold sandwich. rewrite Hr, Hc, Nat.eqb_refl. cbn [negb]. rewrite HG. destruct Hl as [Hlen _].
  repeat split; intro HI; rewrite HI.
  - destruct (knd x); try congruence; now rewrite El.
  - intros ->. now rewrite El.
  - intros ->. rewrite El. cbn [listed]. rewrite Hlen. eexists. split; [reflexivity|]. intros. apply entry_point. lia.
Qed.
Print Assumptions C60_sandwich.

(* Without a grid dot and rdot give the product with E(a (O + shift)), for hamiltonian objects as well. *)
Theorem C60_single : forall n K E o x shift, exponential_on n K E -> reachable o -> grid o = None -> iterate o = false ->
  K (shifted (a o) (Op o) shift) ->
  (rows x = n -> exists y, dot n E o x shift = One y /\ left_product n (E (shifted (a o) (Op o) shift)) x y) /\
  (match knd x with KVec => rows x | _ => cols x end = n -> exists y, rdot n E o x shift = One y /\ right_product n (E (shifted (a o) (Op o) shift)) x y).
Proof.
  intros n K E o x shift L HR HG HI HK. set (S := shifted (a o) (Op o) shift) in *.
  assert (HS : same n (exponent (a o) (Op o) shift) S) by apply exponent_shifted.
  assert (HE : same n (E (exponent (a o) (Op o) shift)) (E S)) by (intros i j Hi Hj; symmetry; apply (E_same _ _ _ L); [exact HK|now apply same_sym|exact Hi|exact Hj]).
  split; intro Hn.
  - unfold dot. rewrite Hn, Nat.eqb_refl. cbn [negb]. rewrite HG, HI. eexists. split; [reflexivity|]. unfold left_product, mulE, on_parts. cbn [knd rows cols parts].
    rewrite map_length. repeat (split; [reflexivity|]). intros p Hp i j Hi. rewrite nth_map0 by exact Hp. apply mul_agree; [exact HE|reflexivity|exact Hi].
  - unfold rdot. rewrite Hn, Nat.eqb_refl. cbn [negb]. rewrite HG, HI. eexists. split; [reflexivity|].
    assert (HT : same n (E (mat_T (exponent (a o) (Op o) shift))) (mat_T (E S))).
    { intros i j Hi Hj. rewrite (E_T _ _ _ L); [unfold mat_T; now apply HE| |exact Hi|exact Hj]. apply (K_same _ _ _ L S); [exact HK|now apply same_sym]. }
    unfold right_product, mulE, on_parts, opT. destruct (knd x) eqn:EK; cbn [knd rows cols parts]; rewrite ?EK; cbn [knd rows cols parts]; rewrite ?map_length; repeat (split; [reflexivity|]);
      intros p Hp; [intros j Hj|intros i j Hj..]; rewrite !nth_map0 by (rewrite ?map_length; exact Hp); [|unfold mat_T at 1..]; unfold mat_mul; apply Csum_ext; intros k' Hk; apply in_seq in Hk; rewrite HT by lia; unfold mat_T; ring.
Qed.
Print Assumptions C60_single.
