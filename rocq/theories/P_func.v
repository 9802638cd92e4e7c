(* Coefficient functions: equality of hashes, products, conjugates. *)
From Verif Require Import AuxN SpecC SpecExpm SpecFunc M_func.
Local Open Scope nat_scope.

Lemma bind_some {A B} (x : option A) (f : A -> option B) b : bind x f = Some b -> exists a, x = Some a /\ f a = Some b.
Proof. destruct x as [a|]; [intros H; exists a; split; [reflexivity|exact H]|discriminate]. Qed.
Ltac bd H := let a := fresh "v" in let E := fresh "E" in apply bind_some in H; destruct H as [a [E H]].

Lemma insert_perm x l : Permutation (insert x l) (x :: l).
Proof. induction l as [|y l IH]; cbn; [reflexivity|]. destruct (x <=? y)%Z; [reflexivity|]. rewrite IH. apply perm_swap. Qed.
Lemma sort_perm l : Permutation (sort l) l.
Proof. induction l as [|x l IH]; cbn; [constructor|]. rewrite insert_perm. constructor. exact IH. Qed.

Section S.
Context {F Args : Type}.
Variable call : F -> Args -> R -> C.
Variable h : hashing F Args.
Hypothesis NC : no_collision h.
Notation fn := (fn F Args).
Notation eval := (eval call).

(* the leaves of an expression that has a hash *)
Inductive key := KF (f : F) (a : Args) | KC (f : F) (a : Args) | KP (f : F) (a : Args) (p : nat).
Definition kh (k : key) : Z := match k with KF f a => h_fun h f a | KC f a => h_conj h f a | KP f a p => h_pow h f a p end.
Definition kval (t : R) (k : key) : C := match k with KF f a => call f a t | KC f a => Cconj (call f a t) | KP f a p => Cpow (call f a t) p end.
Lemma kh_inj k k' : kh k = kh k' -> k = k'.
Proof.
  destruct NC as (N1 & N2 & N3 & N4 & N5 & N6 & _). destruct k as [f a|f a|f a p], k' as [f' a'|f' a'|f' a' p']; cbn; intros E.
  - apply N1 in E. destruct E; subst; reflexivity.
  - destruct (N4 _ _ _ _ E).
  - destruct (N5 _ _ _ _ _ E).
  - destruct (N4 _ _ _ _ (eq_sym E)).
  - apply N2 in E. destruct E; subst; reflexivity.
  - destruct (N6 _ _ _ _ _ E).
  - destruct (N5 _ _ _ _ _ (eq_sym E)).
  - destruct (N6 _ _ _ _ _ (eq_sym E)).
  - apply N3 in E. destruct E as [? [? ?]]; subst; reflexivity.
Qed.
Definition kprod (t : R) (l : list key) : C := fold_right (fun k z => (kval t k * z)%C) C1 l.
Lemma kprod_app t l l' : kprod t (l ++ l') = (kprod t l * kprod t l')%C.
Proof. induction l as [|k l IH]; [change (kprod t l' = (C1 * kprod t l')%C); ring|]. change (kval t k * kprod t (l ++ l') = kval t k * kprod t l * kprod t l')%C. rewrite IH. ring. Qed.
Lemma kprod_perm t l l' : Permutation l l' -> kprod t l = kprod t l'.
Proof.
  intros P. induction P as [|k l l' P IH|k k' l|l l' l'' P IH P' IH']; [reflexivity| | |congruence].
  - cbn [kprod fold_right]. fold (kprod t l). fold (kprod t l'). rewrite IH. reflexivity.
  - cbn [kprod fold_right]. fold (kprod t l). ring.
Qed.
Lemma map_perm_inv : forall l l' : list key, Permutation (map kh l) (map kh l') -> Permutation l l'.
Proof.
  induction l as [|k l IH]; intros l' P.
  - apply Permutation_nil in P. destruct l'; [constructor|discriminate].
  - assert (I : In (kh k) (map kh l')) by (apply (Permutation_in _ P); left; reflexivity).
    apply in_map_iff in I. destruct I as [k' [E I]]. apply kh_inj in E. subst k'.
    apply in_split in I. destruct I as [l1 [l2 ->]]. rewrite map_app in P. cbn [map] in P.
    apply Permutation_cons_app_inv in P. rewrite <- map_app in P. apply IH in P. apply Permutation_cons_app. exact P.
Qed.
Lemma hash_keys x l : hash_list h x = Some l -> exists ks, Permutation l (map kh ks) /\ forall t, eval x t = kprod t ks.
Proof.
  revert l. induction x as [f a|x IHx y IHy|x IH|x IH p]; intros l H; cbn [hash_list] in H.
  - injection H as <-. exists [KF f a]. split; [reflexivity|]. intros t. cbn [M_func.eval kprod fold_right kval]. ring.
  - bd H. bd H. injection H as <-. destruct (IHx _ E) as [k1 [P1 V1]]. destruct (IHy _ E0) as [k2 [P2 V2]]. exists (k1 ++ k2). split.
    + rewrite sort_perm, map_app. apply Permutation_app; assumption.
    + intros t. rewrite kprod_app, <- V1, <- V2. reflexivity.
  - destruct x; try discriminate. injection H as <-. exists [KC f a]. split; [reflexivity|]. intros t. cbn [M_func.eval kprod fold_right kval]. ring.
  - destruct x; try discriminate. injection H as <-. exists [KP f a p]. split; [reflexivity|]. intros t. cbn [M_func.eval kprod fold_right kval]. ring.
Qed.
Lemma hash_eq_eval x y k : hash h x = Some k -> hash h y = Some k -> forall t, eval x t = eval y t.
Proof.
  unfold hash. intros H1 H2 t. bd H1. bd H2. assert (Ev : v = v0).
  { destruct NC as (_ & _ & _ & _ & _ & _ & N). apply N. congruence. }
  subst v0. destruct (hash_keys _ _ E) as [k1 [P1 V1]]. destruct (hash_keys _ _ E0) as [k2 [P2 V2]]. rewrite V1, V2. apply kprod_perm. apply map_perm_inv.
  rewrite <- P1. exact P2.
Qed.
Lemma feq_eval x y : feq h x y = Some true -> forall t, eval x t = eval y t.
Proof.
  unfold feq. intros H. bd H. bd H. injection H as H. apply Z.eqb_eq in H. subst v0. eapply hash_eq_eval; eassumption.
Qed.
Lemma fmul_eval fuel : forall x y z, fmul h fuel x y = Some z -> forall t, eval z t = (eval x t * eval y t)%C.
Proof.
  induction fuel as [|fuel IH]; intros x y z H t; [discriminate|]. cbn [fmul] in H.
  destruct x as [f a|x1 x2|x1|x1 p].
  - bd H. destruct v; [injection H as <-; rewrite <- (feq_eval _ _ E t); cbn [M_func.eval Cpow]; ring|]. bd H. destruct v; [rewrite (IH _ _ _ H); ring|injection H as <-; reflexivity].
  - bd H. destruct v; [bd H; injection H as <-; cbn [M_func.eval]; rewrite (IH _ _ _ E0); ring|].
    bd H. destruct v; [bd H; injection H as <-; cbn [M_func.eval]; rewrite (IH _ _ _ E1); ring|injection H as <-; reflexivity].
  - bd H. destruct v; [injection H as <-; rewrite <- (feq_eval _ _ E t); cbn [M_func.eval Cpow]; ring|]. bd H. destruct v; [rewrite (IH _ _ _ H); ring|injection H as <-; reflexivity].
  - bd H. destruct v; [|injection H as <-; reflexivity]. injection H as <-. rewrite <- (feq_eval _ _ E t). cbn [M_func.eval]. rewrite Nat.add_1_r. cbn [Cpow]. ring.
Qed.
Lemma fconj_eval x z : fconj x = Some z -> forall t, eval z t = Cconj (eval x t).
Proof. destruct x as [f a|x y|x|x p]; cbn; intros H t; try discriminate; injection H as <-; cbn; [reflexivity|symmetry; apply Cconj_invol]. Qed.
End S.

(* expressions whose products are always defined *)
Section D.
Context {F Args : Type}.
Variable h : hashing F Args.
Fixpoint plain (x : fn F Args) : Prop :=
  match x with Fun _ _ => True | Mul x y => plain x /\ plain y | Conj _ => False | Pow x _ => match x with Fun _ _ => True | _ => False end end.
Fixpoint depth (x : fn F Args) : nat := match x with Mul x y => S (Nat.max (depth x) (depth y)) | _ => 0 end.
Lemma plain_hash x : plain x -> exists l, hash_list h x = Some l.
Proof.
  induction x as [f a|x IHx y IHy|x IH|x IH p]; intros H; cbn in *; [eexists; reflexivity| |destruct H|destruct x; try destruct H; eexists; reflexivity].
  destruct H as [H1 H2]. destruct (IHx H1) as [l ->]. destruct (IHy H2) as [l' ->]. eexists; reflexivity.
Qed.
Lemma plain_feq x y : plain x -> plain y -> exists b, feq h x y = Some b.
Proof. intros Hx Hy. unfold feq, hash. destruct (plain_hash x Hx) as [l ->]. destruct (plain_hash y Hy) as [l' ->]. eexists; reflexivity. Qed.
Lemma plain_contains x y : plain x -> plain y -> exists b, contains h x y = Some b.
Proof.
  induction x as [f a|x IHx z IHz|x IH|x IH p]; intros Hx Hy; cbn [contains]; [apply plain_feq; assumption| |destruct Hx|].
  - destruct Hx as [H1 H2]. destruct (IHx H1 Hy) as [[] ->]; [eexists; reflexivity|]. cbn [bind]. apply IHz; assumption.
  - apply IH; [|exact Hy]. cbn in Hx. destruct x; try destruct Hx. exact I.
Qed.
Lemma fmul_some n : forall x y, plain x -> plain y -> 2 * depth x + 2 * depth y + 2 <= n -> exists z, fmul h n x y = Some z.
Proof.
  induction n as [n IH] using lt_wf_ind. intros x y Hx Hy Hn. destruct n as [|n]; [lia|]. cbn [fmul].
  destruct x as [f a|x1 x2|x1|x1 p].
  - destruct (plain_feq (Fun f a) y Hx Hy) as [[] ->]; [eexists; reflexivity|]. cbn [bind]. destruct (plain_contains y (Fun f a) Hy Hx) as [[] E]; rewrite E; [|eexists; reflexivity].
    cbn [bind]. destruct n as [|n]; [cbn in Hn; lia|]. cbn [fmul].
    destruct y as [g b|y1 y2|y1|y1 p]; [| |destruct Hy|].
    + cbn [contains] in E. rewrite E. cbn. eexists; reflexivity.
    + destruct Hy as [Hy1 Hy2]. cbn [depth] in Hn.
      destruct (plain_contains y1 (Fun f a) Hy1 Hx) as [[] ->]; cbn [bind].
      * destruct (IH n ltac:(lia) y1 (Fun f a) Hy1 Hx) as [z ->]; [cbn [depth]; lia|]. eexists; reflexivity.
      * destruct (plain_contains y2 (Fun f a) Hy2 Hx) as [[] ->]; cbn [bind]; [|eexists; reflexivity].
        destruct (IH n ltac:(lia) y2 (Fun f a) Hy2 Hx) as [z ->]; [cbn [depth]; lia|]. eexists; reflexivity.
    + cbn in Hy. destruct y1 as [g b| | |]; try destruct Hy. destruct (plain_feq (Fun g b) (Fun f a) I I) as [[] ->]; eexists; reflexivity.
  - destruct Hx as [H1 H2]. cbn [depth] in Hn. destruct (plain_contains x1 y H1 Hy) as [[] ->]; cbn [bind].
    + destruct (IH n ltac:(lia) x1 y H1 Hy) as [z ->]; [lia|]. eexists; reflexivity.
    + destruct (plain_contains x2 y H2 Hy) as [[] ->]; cbn [bind]; [|eexists; reflexivity].
      destruct (IH n ltac:(lia) x2 y H2 Hy) as [z ->]; [lia|]. eexists; reflexivity.
  - destruct Hx.
  - cbn in Hx. destruct x1 as [g b| | |]; try destruct Hx. destruct (plain_feq (Fun g b) y I Hy) as [[] ->]; eexists; reflexivity.
Qed.
(* a product of plain expressions is plain: it can be used as a key and multiplied again *)
Lemma fmul_plain n : forall x y z, plain x -> plain y -> fmul h n x y = Some z -> plain z.
Proof.
  induction n as [|n IH]; intros x y z Hx Hy H; [discriminate|]. cbn [fmul] in H. destruct x as [f a|x1 x2|x1|x1 p].
  - bd H. destruct v; [injection H as <-; exact I|]. bd H. destruct v; [eapply IH; [| |exact H]; assumption|injection H as <-; split; assumption].
  - destruct Hx as [H1 H2]. bd H. destruct v; [bd H; injection H as <-; split; [eapply IH; [| |exact E0]; assumption|assumption]|].
    bd H. destruct v; [bd H; injection H as <-; split; [assumption|eapply IH; [| |exact E1]; assumption]|injection H as <-; repeat split; assumption].
  - destruct Hx.
  - cbn in Hx. destruct x1 as [g b| | |]; try destruct Hx. bd H. destruct v; injection H as <-; [exact I|split; [exact I|assumption]].
Qed.
End D.
