(* Specification: complex numbers as pairs of reals, finite sums.  Standard library reals only. *)
From Coq Require Export Reals Lra.
From Verif Require Import AuxN.
From Coq Require Export Permutation.
Local Open Scope R_scope.

Definition C : Type := (R * R)%type.
Definition RtoC (x : R) : C := (x, 0).
(* a natural number as a real *)
Definition Nr (x : N) : R := IZR (Z.of_N x).
Definition C0 : C := (0, 0).
Definition C1 : C := (1, 0).
Definition Ci : C := (0, 1).
Definition Cadd (a b : C) : C := (fst a + fst b, snd a + snd b).
Definition Copp (a : C) : C := (- fst a, - snd a).
Definition Csub (a b : C) : C := (fst a - fst b, snd a - snd b).
Definition Cmul (a b : C) : C := (fst a * fst b - snd a * snd b, fst a * snd b + snd a * fst b).
Definition Cconj (a : C) : C := (fst a, - snd a).
(* exp(i t) *)
Definition cis (t : R) : C := (cos t, sin t).

Declare Scope C_scope.
Delimit Scope C_scope with C.
Bind Scope C_scope with C.
Infix "+" := Cadd : C_scope.
Infix "-" := Csub : C_scope.
Infix "*" := Cmul : C_scope.
Notation "- x" := (Copp x) : C_scope.

Lemma C_eq (a b : C) : fst a = fst b -> snd a = snd b -> a = b.
Proof. destruct a, b; cbn; intros; subst; reflexivity. Qed.

Lemma C_ring_theory : ring_theory C0 C1 Cadd Cmul Csub Copp (@eq C).
Proof.
  constructor; intros; apply C_eq; unfold Cadd, Copp, Csub, Cmul, C0, C1; cbn [fst snd]; ring.
Qed.
Add Ring C_ring : C_ring_theory.

Lemma Cconj_add a b : Cconj (a + b)%C = (Cconj a + Cconj b)%C. Proof. apply C_eq; cbn; ring. Qed.
Lemma Cconj_mul a b : Cconj (a * b)%C = (Cconj a * Cconj b)%C. Proof. apply C_eq; cbn; ring. Qed.
Lemma Cconj_invol a : Cconj (Cconj a) = a. Proof. apply C_eq; cbn; ring. Qed.
Lemma RtoC_add x y : RtoC (x + y) = (RtoC x + RtoC y)%C. Proof. apply C_eq; cbn; ring. Qed.
Lemma RtoC_mul x y : RtoC (x * y) = (RtoC x * RtoC y)%C. Proof. apply C_eq; cbn; ring. Qed.
Lemma RtoC_opp x : RtoC (- x) = (- RtoC x)%C. Proof. apply C_eq; cbn; ring. Qed.
Lemma RtoC_inj x y : RtoC x = RtoC y -> x = y. Proof. intros H. injection H. auto. Qed.
Lemma Cconj_RtoC x : Cconj (RtoC x) = RtoC x. Proof. apply C_eq; cbn; ring. Qed.

Lemma cis_0 : cis 0 = C1. Proof. unfold cis. rewrite cos_0, sin_0. reflexivity. Qed.
Lemma cis_add a b : cis (a + b) = (cis a * cis b)%C.
Proof. unfold cis. rewrite cos_plus, sin_plus. apply C_eq; cbn; ring. Qed.
Lemma cis_conj a : Cconj (cis a) = cis (- a).
Proof. unfold cis. rewrite cos_neg, sin_neg. reflexivity. Qed.
Lemma cis_norm a : (cis a * Cconj (cis a))%C = C1.
Proof. rewrite cis_conj, <- cis_add, Rplus_opp_r. apply cis_0. Qed.
Lemma cis_2PI k : cis (2 * PI * IZR k) = C1.
Proof.
  assert (P : forall n, cis (2 * PI * INR n) = C1).
  { induction n as [|n IH]; [replace (2 * PI * INR 0) with 0 by (cbn; ring); apply cis_0|].
    rewrite S_INR. replace (2 * PI * (INR n + 1)) with (2 * PI * INR n + 2 * PI) by ring.
    rewrite cis_add, IH. unfold cis. rewrite cos_2PI, sin_2PI. apply C_eq; cbn; ring. }
  destruct (Z_le_gt_dec 0 k) as [H|H].
  - rewrite <- (Z2Nat.id k) by assumption. rewrite <- INR_IZR_INZ. apply P.
  - replace k with (- Z.of_nat (Z.to_nat (- k)))%Z by lia. rewrite opp_IZR, <- INR_IZR_INZ.
    replace (2 * PI * - INR (Z.to_nat (- k))) with (- (2 * PI * INR (Z.to_nat (- k)))) by ring.
    rewrite <- cis_conj, P. apply C_eq; cbn; ring.
Qed.
Lemma Cmul_integral a b : (a * b)%C = C0 -> a = C0 \/ b = C0.
Proof.
  intros H. destruct a as [x y], b as [u v]. unfold Cmul, C0 in H. cbn [fst snd] in H. injection H as H1 H2.
  assert (E : (x * x + y * y) * (u * u + v * v) = 0).
  { replace ((x * x + y * y) * (u * u + v * v)) with ((x * u - y * v) * (x * u - y * v) + (x * v + y * u) * (x * v + y * u)) by ring.
    rewrite H1, H2. ring. }
  assert (Z2 : forall p q, p * p + q * q = 0 -> p = 0 /\ q = 0).
  { intros p q E2. pose proof (Rle_0_sqr p) as A1. pose proof (Rle_0_sqr q) as A2. unfold Rsqr in *.
    split; apply Rsqr_0_uniq; unfold Rsqr; lra. }
  apply Rmult_integral in E. destruct E as [E|E]; apply Z2 in E; destruct E as [-> ->]; [left|right]; reflexivity.
Qed.

(* finite sums over lists *)
Definition Csum {X} (l : list X) (f : X -> C) : C := fold_right (fun x acc => (f x + acc)%C) C0 l.
Definition Rsum {X} (l : list X) (f : X -> R) : R := fold_right (fun x acc => f x + acc) 0 l.

Section Sums.
Context {X : Type}.
Implicit Types (l : list X) (f g : X -> C).
Lemma Csum_nil f : Csum [] f = C0. Proof. reflexivity. Qed.
Lemma Csum_cons x l f : Csum (x :: l) f = (f x + Csum l f)%C. Proof. reflexivity. Qed.
Lemma Csum_app l l' f : Csum (l ++ l') f = (Csum l f + Csum l' f)%C.
Proof. induction l as [|x l IH]; cbn [app]; [rewrite Csum_nil; ring|]. rewrite !Csum_cons, IH. ring. Qed.
Lemma Csum_perm l l' f : Permutation l l' -> Csum l f = Csum l' f.
Proof. induction 1; rewrite ?Csum_cons; [reflexivity|rewrite IHPermutation; reflexivity|ring|congruence]. Qed.
Lemma Csum_ext l f g : (forall x, In x l -> f x = g x) -> Csum l f = Csum l g.
Proof. induction l as [|x l IH]; intros H; [reflexivity|]. rewrite !Csum_cons, H, IH; [reflexivity| |left; reflexivity]. intros y Hy. apply H. right; assumption. Qed.
Lemma Csum_add l f g : Csum l (fun x => f x + g x)%C = (Csum l f + Csum l g)%C.
Proof. induction l as [|x l IH]; [rewrite !Csum_nil; ring|]. rewrite !Csum_cons, IH. ring. Qed.
Lemma Csum_mul_l l c f : Csum l (fun x => c * f x)%C = (c * Csum l f)%C.
Proof. induction l as [|x l IH]; [rewrite !Csum_nil; ring|]. rewrite !Csum_cons, IH. ring. Qed.
Lemma Csum_mul_r l c f : Csum l (fun x => f x * c)%C = (Csum l f * c)%C.
Proof. induction l as [|x l IH]; [rewrite !Csum_nil; ring|]. rewrite !Csum_cons, IH. ring. Qed.
Lemma Csum_zero l f : (forall x, In x l -> f x = C0) -> Csum l f = C0.
Proof. induction l as [|x l IH]; intros H; [reflexivity|]. rewrite Csum_cons, H, IH; [ring| |left; reflexivity]. intros y Hy. apply H. right; assumption. Qed.
Lemma Csum_conj l f : Cconj (Csum l f) = Csum l (fun x => Cconj (f x)).
Proof. induction l as [|x l IH]; [apply C_eq; cbn; ring|]. rewrite !Csum_cons, Cconj_add, IH. reflexivity. Qed.
Lemma Csum_const l : Csum l (fun _ => C1) = RtoC (INR (length l)).
Proof. induction l as [|x l IH]; [reflexivity|]. rewrite Csum_cons, IH. cbn [length]. rewrite S_INR. apply C_eq; cbn; ring. Qed.
Lemma Csum_filter l (p : X -> bool) f : Csum (filter p l) f = Csum l (fun x => if p x then f x else C0).
Proof. induction l as [|x l IH]; [reflexivity|]. cbn [filter]. rewrite Csum_cons, <- IH. destruct (p x); [rewrite Csum_cons; reflexivity|ring]. Qed.
Lemma Csum_fst l f : fst (Csum l f) = Rsum l (fun x => fst (f x)).
Proof. induction l as [|x l IH]; [reflexivity|]. rewrite Csum_cons. cbn. rewrite IH. reflexivity. Qed.
Lemma Csum_single l f a : NoDup l -> In a l -> (forall x, In x l -> x <> a -> f x = C0) -> Csum l f = f a.
Proof.
  induction l as [|x l IH]; intros ND Ha H; [destruct Ha|]. inversion ND as [|? ? Hx ND']; subst. rewrite Csum_cons.
  destruct Ha as [->|Ha].
  - rewrite (Csum_zero l); [ring|]. intros y Hy. apply H; [right; assumption|]. intros ->. contradiction.
  - rewrite (H x (or_introl eq_refl)); [|intros ->; contradiction]. rewrite IH; [ring|assumption|assumption|].
    intros y Hy Ny. apply H; [right; assumption|assumption].
Qed.
End Sums.
Lemma Csum_map {X Y} (h : X -> Y) l (f : Y -> C) : Csum (map h l) f = Csum l (fun x => f (h x)).
Proof. induction l as [|x l IH]; [reflexivity|]. cbn [map]. rewrite !Csum_cons, IH. reflexivity. Qed.
Lemma Csum_swap {X Y} (l : list X) (k : list Y) f : Csum l (fun x => Csum k (fun y => f x y)) = Csum k (fun y => Csum l (fun x => f x y)).
Proof.
  induction l as [|x l IH]; [symmetry; apply Csum_zero; reflexivity|]. rewrite Csum_cons, IH.
  rewrite <- Csum_add. apply Csum_ext. intros y _. rewrite Csum_cons. reflexivity.
Qed.

Section RSums.
Context {X : Type}.
Implicit Types (l : list X) (f g : X -> R).
Lemma Rsum_app l l' f : Rsum (l ++ l') f = Rsum l f + Rsum l' f.
Proof. unfold Rsum. induction l as [|x l IH]; cbn [app fold_right]; [ring|]. rewrite IH. ring. Qed.
Lemma Rsum_perm l l' f : Permutation l l' -> Rsum l f = Rsum l' f.
Proof. unfold Rsum. induction 1; cbn [fold_right]; [reflexivity|rewrite IHPermutation; reflexivity|ring|congruence]. Qed.
Lemma Rsum_ext l f g : (forall x, In x l -> f x = g x) -> Rsum l f = Rsum l g.
Proof. unfold Rsum. induction l as [|x l IH]; intros H; cbn [fold_right]; [reflexivity|]. rewrite H, IH; [reflexivity| |left; reflexivity]. intros y Hy. apply H. right; assumption. Qed.
End RSums.
