(* C31: products, conjugates and powers of coefficient functions have the product, conjugate and power of the values at every time; equal
   coefficients agree at all times unless the hashes collide. *)
From Verif Require Import AuxN SpecC SpecExpm SpecFunc M_func P_func.
Local Open Scope nat_scope.

(* coefficients that compare equal (and are merged by the dictionary of dynamic terms) have the same value at every time *)
Theorem C31_equal : forall F Args (call : F -> Args -> R -> C) (h : hashing F Args) x y, no_collision h ->
  feq h x y = Some true -> forall t, eval call x t = eval call y t.
Proof. intros. eapply feq_eval; eassumption. Qed.
Print Assumptions C31_equal.

Theorem C31_product : forall F Args (call : F -> Args -> R -> C) (h : hashing F Args) fuel x y z, no_collision h ->
  fmul h fuel x y = Some z -> forall t, eval call z t = (eval call x t * eval call y t)%C.
Proof. intros. eapply fmul_eval; eassumption. Qed.
Print Assumptions C31_product.

Theorem C31_conjugate : forall F Args (call : F -> Args -> R -> C) (x z : fn F Args),
  fconj x = Some z -> forall t, eval call z t = Cconj (eval call x t).
Proof. intros. eapply fconj_eval; eassumption. Qed.
Print Assumptions C31_conjugate.

(* products of expressions without conjugates exist, and can be multiplied and compared again; collisions do not matter here *)
Theorem C31_defined : forall F Args (h : hashing F Args) x y, plain x -> plain y ->
  exists z, plain z /\ fmul h (2 * depth x + 2 * depth y + 2) x y = Some z /\ exists k, hash h z = Some k.
Proof.
  intros F Args h x y Hx Hy. destruct (fmul_some h _ x y Hx Hy (le_n _)) as [z Hz]. exists z. assert (Pz := fmul_plain h _ x y z Hx Hy Hz).
  split; [exact Pz|]. split; [exact Hz|]. unfold hash. destruct (plain_hash h z Pz) as [l ->]. eexists; reflexivity.
Qed.
Print Assumptions C31_defined.

(* with Python's hash of integers f(t,-1) and f(t,-2) compare equal, whatever the hash of tuples and of f is: one of the two terms is lost *)
Theorem C31_collision_refuted : forall comb i_hash f, exists (call : Z -> list Z -> R -> C) t,
  feq (py_hashing comb i_hash) (Fun f [(-1)%Z]) (Fun f [(-2)%Z]) = Some true /\ eval call (Fun f [(-1)%Z]) t <> eval call (Fun f [(-2)%Z]) t.
Proof.
  intros comb i_hash f. exists (fun _ a _ => RtoC (IZR (hd 0%Z a))), 0%R. split.
  - unfold feq, hash. cbn. rewrite Z.eqb_refl. reflexivity.
  - cbn. intros H. apply RtoC_inj in H. apply eq_IZR in H. discriminate.
Qed.
Print Assumptions C31_collision_refuted.

(* the square of a conjugate exists but cannot be hashed: it cannot be the coefficient of a term *)
Theorem C31_conjugate_square_refuted : forall F Args (h : hashing F Args) f a fuel,
  fmul h (S fuel) (Conj (Fun f a)) (Conj (Fun f a)) = Some (Pow (Conj (Fun f a)) 2) /\ hash h (Pow (Conj (Fun f a)) 2) = None.
Proof. intros. split; [|reflexivity]. cbn [fmul]. unfold feq, hash. cbn [hash_list bind]. rewrite Z.eqb_refl. reflexivity. Qed.
Print Assumptions C31_conjugate_square_refuted.

(* a product or a power has no conjugate *)
Theorem C31_conjugate_product_refuted : forall F Args (x y : fn F Args) p, fconj (Mul x y) = None /\ fconj (Pow x p) = None.
Proof. intros. split; reflexivity. Qed.
Print Assumptions C31_conjugate_product_refuted.

(* a hash without collisions on functions numbered by naturals without arguments *)
Definition code : hashing nat unit :=
  {| h_fun := fun f _ => (3 * Z.of_nat f)%Z; h_conj := fun f _ => (3 * Z.of_nat f + 1)%Z;
     h_pow := fun f _ p => (3 * (2 ^ Z.of_nat f * (2 * Z.of_nat p + 1)) + 2)%Z;
     h_tuple := fun l => fold_right (fun x y => let u := (if 0 <=? x then 2 * x else -2 * x - 1)%Z in (2 ^ u * (2 * y + 1))%Z) 0%Z l |}.
Lemma pow2_odd a : (0 <= a)%Z -> forall b x y, (0 <= b)%Z -> (2 ^ a * (2 * x + 1) = 2 ^ b * (2 * y + 1))%Z -> a = b /\ x = y.
Proof.
  intros Ha. pattern a. apply natlike_ind; [| |exact Ha].
  - intros b x y Hb E. destruct (Z.eq_dec b 0) as [-> |N]; [split; lia|]. exfalso. replace b with (Z.succ (b - 1)) in E by lia. rewrite Z.pow_succ_r in E by lia. lia.
  - clear a Ha. intros a Ha IH b x y Hb E. rewrite Z.pow_succ_r in E by lia. destruct (Z.eq_dec b 0) as [-> |N]; [lia|].
    replace b with (Z.succ (b - 1)) in E by lia. rewrite Z.pow_succ_r in E by lia. destruct (IH (b - 1)%Z x y) as [E1 E2]; [lia|lia|]. split; lia.
Qed.
Example C31_example : no_collision code /\ exists z, fmul code 4 (Mul (Fun 1 tt) (Fun 2 tt)) (Fun 2 tt) = Some z /\ z = Mul (Fun 1 tt) (Pow (Fun 2 tt) 2) /\
  feq code (Mul (Fun 1 tt) (Fun 2 tt)) (Mul (Fun 2 tt) (Fun 1 tt)) = Some true /\ feq code (Fun 1 tt) (Conj (Fun 1 tt)) = Some false.
Proof.
  split; [|eexists; repeat split; vm_compute; reflexivity].
  unfold no_collision, code. cbn [h_fun h_conj h_pow h_tuple]. split; [|split; [|split; [|split; [|split; [|split]]]]].
  - intros f [] f' [] H. split; [lia|reflexivity].
  - intros f [] f' [] H. split; [lia|reflexivity].
  - intros f [] p f' [] p' H. assert (E : (2 ^ Z.of_nat f * (2 * Z.of_nat p + 1) = 2 ^ Z.of_nat f' * (2 * Z.of_nat p' + 1))%Z) by lia.
    apply pow2_odd in E; [|lia|lia]. split; [lia|split; [reflexivity|lia]].
  - intros. lia.
  - intros. lia.
  - intros. lia.
  - intros l l' H. revert l' H. induction l as [|x l IH]; intros [|y l'] H; cbn [fold_right] in H; [reflexivity| | |].
    + exfalso. symmetry in H. apply Z.mul_eq_0 in H. pose proof (fun p => Z.pow_pos_nonneg 2 p ltac:(lia)) as P. destruct H as [H|H]; [|lia]. destruct (Z.leb_spec 0 y); [specialize (P (2 * y)%Z)|specialize (P (-2 * y - 1)%Z)]; lia.
    + exfalso. apply Z.mul_eq_0 in H. pose proof (fun p => Z.pow_pos_nonneg 2 p ltac:(lia)) as P. destruct H as [H|H]; [|lia]. destruct (Z.leb_spec 0 x); [specialize (P (2 * x)%Z)|specialize (P (-2 * x - 1)%Z)]; lia.
    + apply pow2_odd in H; [|destruct (Z.leb_spec 0 x); lia|destruct (Z.leb_spec 0 y); lia]. destruct H as [H1 H2]. f_equal; [destruct (Z.leb_spec 0 x), (Z.leb_spec 0 y); lia|apply IH; exact H2].
Qed.
