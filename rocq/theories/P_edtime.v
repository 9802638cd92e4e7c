(* Lemmas for C61: waves, the pure and the mixed state at a time. *)
From Verif Require Import AuxN SpecC SpecExpm SpecLanczos SpecExpect SpecFloquet SpecEd P_floquet M_edtime.
Local Open Scope nat_scope.

Definition wave (e t : R) : C := cis (- (e * t)).
Lemma Cexp_wave e t : Cexp (RtoC e * turned t)%C = wave e t.
Proof.
  unfold Cexp, turned, wave. replace (RtoC e * (- Ci * RtoC t))%C with (0%R, (- (e * t))%R) by (apply C_eq; cbn; ring).
  cbn [fst snd]. rewrite exp_0. apply C_eq; cbn; ring.
Qed.
Lemma Cexp_wave' e t : Cexp (turned t * RtoC e)%C = wave e t.
Proof. rewrite <- Cexp_wave. f_equal. ring. Qed.
Lemma wave_0 e : wave e 0 = C1.
Proof. unfold wave. rewrite Rmult_0_r, Ropp_0. apply cis_0. Qed.
Lemma wave_derivative e t : has_derivative (wave e) t (- Ci * (RtoC e * wave e t))%C.
Proof.
  assert (L : derivable_pt_lim (fun s => - (e * s))%R t (- e)%R).
  { pose proof (derivable_pt_lim_scal id (- e) t 1 (derivable_pt_lim_id t)) as P. rewrite Rmult_1_r in P.
    intros eps He. destruct (P eps He) as [d Hd]. exists d. intros h H1 H2. specialize (Hd h H1 H2). unfold mult_real_fct, id in Hd.
    replace (- (e * (t + h)) - - (e * t))%R with (- e * (t + h) - - e * t)%R by ring. exact Hd. }
  unfold wave, cis. split; cbn [fst snd].
  - replace (fst (- Ci * (RtoC e * (cos (- (e * t)), sin (- (e * t)))))%C) with (- sin (- (e * t)) * - e)%R by (cbn; ring).
    exact (derivable_pt_lim_comp (fun s => - (e * s))%R cos t _ _ L (derivable_pt_lim_cos _)).
  - replace (snd (- Ci * (RtoC e * (cos (- (e * t)), sin (- (e * t)))))%C) with (cos (- (e * t)) * - e)%R by (cbn; ring).
    exact (derivable_pt_lim_comp (fun s => - (e * s))%R sin t _ _ L (derivable_pt_lim_sin _)).
Qed.

Section Basis.
Variables (n : nat) (H : mat) (E : list R) (V : mat).
Hypothesis B : eigenbasis n H E V.
Let e (j : nat) : R := nth j E 0%R.
Lemma length_E : length E = n. Proof. exact (proj1 B). Qed.
Lemma rows_unitary i m : i < n -> m < n -> Csum (seq 0 n) (fun j => V i j * Cconj (V m j))%C = delta m i.
Proof.
  intros Hi Hm. destruct B as (_ & [_ U] & _). rewrite <- (U m i Hm Hi). apply Csum_ext. intros. ring.
Qed.
Lemma eigen i j : i < n -> j < n -> Csum (seq 0 n) (fun m => H i m * V m j)%C = (RtoC (e j) * V i j)%C.
Proof. intros Hi Hj. destruct B as (_ & _ & G). exact (G j i Hj Hi). Qed.
Lemma sum_delta (f : nat -> C) i : i < n -> Csum (seq 0 n) (fun m => delta m i * f m)%C = f i.
Proof.
  intro Hi. rewrite (Csum_single (seq 0 n) _ i); [unfold delta; rewrite Nat.eqb_refl; ring|apply seq_NoDup|apply in_seq; lia|].
  intros k _ Hk. unfold delta. destruct (Nat.eqb_spec k i); [congruence|ring].
Qed.

Definition pure_at (a : vec) (t : R) : vec := fun i => Csum (seq 0 n) (fun j => V i j * (wave (e j) t * a j))%C.
Definition amp (psi : vec) : vec := fun j => Csum (seq 0 n) (fun i => Cconj (V i j) * psi i)%C.
Lemma pure_solves a : solves n (fun _ => H) (pure_at a).
Proof.
  intros t i Hi. unfold pure_at.
  eapply hd_val; [|apply (hd_sum (seq 0 n) (fun j s => V i j * (wave (e j) s * a j))%C t (fun j => V i j * (- Ci * (RtoC (e j) * wave (e j) t) * a j))%C)].
  - unfold apply. rewrite (Csum_ext (seq 0 n) (fun m => H i m * _)%C (fun m => Csum (seq 0 n) (fun j => H i m * V m j * (wave (e j) t * a j)))%C).
    2:{ intros m _. rewrite <- Csum_mul_l. apply Csum_ext. intros. ring. }
    rewrite Csum_swap, <- Csum_mul_l. apply Csum_ext. intros j Hj. apply in_seq in Hj. rewrite Csum_mul_r, eigen by lia. ring.
  - intros j _. apply hd_scale. eapply hd_val; [|apply hd_mul; [apply wave_derivative|apply hd_const]]. cbn beta; ring.
Qed.
Lemma pure_start psi i : i < n -> pure_at (amp psi) 0 i = psi i.
Proof.
  intro Hi. unfold pure_at, amp. rewrite (Csum_ext _ _ (fun j => Csum (seq 0 n) (fun m => V i j * Cconj (V m j) * psi m))%C).
  2:{ intros j _. rewrite wave_0, <- !Csum_mul_l. apply Csum_ext. intros. ring. }
  rewrite Csum_swap. rewrite <- (sum_delta psi i Hi). apply Csum_ext. intros m Hm. apply in_seq in Hm. rewrite Csum_mul_r, rows_unitary by lia. reflexivity.
Qed.
Lemma pure_evolves psi t : evolves n (fun _ => H) t psi (pure_at (amp psi) t).
Proof. exists (pure_at (amp psi)). split; [apply pure_solves|]. split; [intros; now apply pure_start|reflexivity]. Qed.

Definition rot (rho : mat) : mat := fun j k => Csum (seq 0 n) (fun i => Cconj (V i j) * Csum (seq 0 n) (fun l => rho i l * V l k))%C.
Definition mixed_at (r : mat) (t : R) : mat := fun i l =>
  Csum (seq 0 n) (fun j => Csum (seq 0 n) (fun k => V i j * wave (e j) t * r j k * Cconj (wave (e k) t) * Cconj (V l k)))%C.
Hypothesis HH : hermitian n H.
Lemma eigen_left l k : l < n -> k < n -> Csum (seq 0 n) (fun m => Cconj (V m k) * H m l)%C = (RtoC (e k) * Cconj (V l k))%C.
Proof.
  intros Hl Hk. pose proof (f_equal Cconj (eigen l k Hl Hk)) as Q. rewrite Csum_conj, Cconj_mul, Cconj_RtoC in Q. rewrite <- Q.
  apply Csum_ext. intros m Hm. apply in_seq in Hm. rewrite Cconj_mul, <- (HH l m) by lia. ring.
Qed.
Lemma mixed_solves r : solves_density n H (mixed_at r).
Proof.
  intros t i l Hi Hl. unfold mixed_at.
  set (d := fun j k => (V i j * ((- Ci * (RtoC (e j) * wave (e j) t)) * Cconj (wave (e k) t) + wave (e j) t * Cconj (- Ci * (RtoC (e k) * wave (e k) t))) * r j k * Cconj (V l k))%C).
  eapply hd_val; [|apply (hd_sum (seq 0 n) (fun j s => Csum (seq 0 n) (fun k => V i j * wave (e j) s * r j k * Cconj (wave (e k) s) * Cconj (V l k)))%C t (fun j => Csum (seq 0 n) (fun k => d j k)))].
  - assert (A1 : mul n H (mixed_at r t) i l = Csum (seq 0 n) (fun j => Csum (seq 0 n) (fun k => RtoC (e j) * (V i j * wave (e j) t * r j k * Cconj (wave (e k) t) * Cconj (V l k))))%C).
    { unfold mul, mixed_at. rewrite (Csum_ext _ _ (fun m => Csum (seq 0 n) (fun j => H i m * V m j * Csum (seq 0 n) (fun k => wave (e j) t * r j k * Cconj (wave (e k) t) * Cconj (V l k))))%C).
      2:{ intros m _. rewrite <- Csum_mul_l. apply Csum_ext. intros j _. rewrite <- !Csum_mul_l. apply Csum_ext. intros. ring. }
      rewrite Csum_swap. apply Csum_ext. intros j Hj. apply in_seq in Hj. rewrite Csum_mul_r, eigen by lia. rewrite <- Csum_mul_l. apply Csum_ext. intros. ring. }
    assert (A2 : mul n (mixed_at r t) H i l = Csum (seq 0 n) (fun j => Csum (seq 0 n) (fun k => RtoC (e k) * (V i j * wave (e j) t * r j k * Cconj (wave (e k) t) * Cconj (V l k))))%C).
    { unfold mul, mixed_at. rewrite (Csum_ext _ _ (fun m => Csum (seq 0 n) (fun j => Csum (seq 0 n) (fun k => V i j * wave (e j) t * r j k * Cconj (wave (e k) t) * (Cconj (V m k) * H m l))))%C).
      2:{ intros m _. rewrite <- Csum_mul_r. apply Csum_ext. intros j _. rewrite <- !Csum_mul_r. apply Csum_ext. intros. ring. }
      rewrite Csum_swap. apply Csum_ext. intros j Hj. rewrite Csum_swap. apply Csum_ext. intros k Hk. apply in_seq in Hk. rewrite Csum_mul_l, eigen_left by lia. ring. }
    change (Csum (seq 0 n) (fun j => Csum (seq 0 n) (fun k => d j k)) = (- Ci * (mul n H (mixed_at r t) i l - mul n (mixed_at r t) H i l))%C).
    rewrite A1, A2. match goal with |- _ = (_ * (?x - ?y))%C => replace (x - y)%C with (x + (- C1) * y)%C by ring end. rewrite <- Csum_mul_l, <- Csum_add, <- Csum_mul_l. apply Csum_ext. intros j _. rewrite <- Csum_mul_l, <- Csum_add, <- Csum_mul_l.
    apply Csum_ext. intros k _. unfold d. rewrite !Cconj_mul, Cconj_RtoC. replace (Cconj (- Ci)) with Ci by (apply C_eq; cbn; ring). ring.
  - intros j _. apply (hd_sum (seq 0 n) (fun k s => V i j * wave (e j) s * r j k * Cconj (wave (e k) s) * Cconj (V l k))%C). intros k _. unfold d.
    apply (hd_ext (fun s => (V i j * r j k * Cconj (V l k)) * (wave (e j) s * Cconj (wave (e k) s)))%C); [intro; ring|].
    eapply hd_val; [|apply hd_scale, hd_mul; [apply wave_derivative|apply (hd_conj (wave (e k))), wave_derivative]]. cbn beta; ring.
Qed.
Lemma mixed_start rho i l : i < n -> l < n -> mixed_at (rot rho) 0 i l = rho i l.
Proof.
  intros Hi Hl. unfold mixed_at.
  transitivity (pure_at (amp (fun m => Csum (seq 0 n) (fun q => rho m q * Csum (seq 0 n) (fun k => V q k * Cconj (V l k))))) 0 i)%C.
  - unfold pure_at, amp. apply Csum_ext. intros j _. rewrite wave_0. rewrite <- !Csum_mul_l.
    rewrite (Csum_ext _ _ (fun k => Csum (seq 0 n) (fun m => V i j * (C1 * (Cconj (V m j) * (Csum (seq 0 n) (fun q => rho m q * V q k) * Cconj (V l k))))))%C).
    2:{ intros k _. rewrite wave_0. unfold rot. replace (Cconj C1) with C1 by (apply C_eq; cbn; ring). rewrite <- Csum_mul_l, <- !Csum_mul_r. apply Csum_ext. intros. ring. }
    rewrite Csum_swap. apply Csum_ext. intros m _. rewrite !Csum_mul_l. do 3 f_equal.
    rewrite (Csum_ext _ _ (fun k => Csum (seq 0 n) (fun q => rho m q * (V q k * Cconj (V l k))))%C).
    2:{ intros k _. rewrite <- Csum_mul_r. apply Csum_ext. intros. ring. }
    rewrite Csum_swap. apply Csum_ext. intros q _. now rewrite Csum_mul_l.
  - rewrite pure_start by exact Hi. rewrite (Csum_ext _ _ (fun q => delta q l * rho i q)%C); [now rewrite sum_delta|].
    intros q Hq. apply in_seq in Hq. rewrite rows_unitary by lia. unfold delta. rewrite (Nat.eqb_sym l q). ring.
Qed.
Lemma mixed_evolves rho t : evolves_density n H t rho (mixed_at (rot rho) t).
Proof. exists (mixed_at (rot rho)). split; [apply mixed_solves|]. split; [intros; now apply mixed_start|reflexivity]. Qed.

(* a mixture of pure states *)
Lemma mixed_mixture l t i k : mixed_at (rot (mixture l)) t i k = mixture (map (fun x => (fst x, pure_at (amp (snd x)) t)) l) i k.
Proof.
  unfold mixture at 2. rewrite Csum_map. cbn [fst snd].
  assert (R1 : forall j m, rot (mixture l) j m = Csum l (fun x => RtoC (fst x) * (amp (snd x) j * Cconj (amp (snd x) m)))%C).
  { intros j m. unfold rot, mixture. rewrite (Csum_ext _ _ (fun a => Csum l (fun x => RtoC (fst x) * (Cconj (V a j) * snd x a * Cconj (amp (snd x) m))))%C).
    2:{ intros a _. rewrite (Csum_ext (seq 0 n) _ (fun b => Csum l (fun x => RtoC (fst x) * snd x a * (Cconj (snd x b) * V b m)))%C).
        2:{ intros b _. rewrite <- Csum_mul_r. apply Csum_ext. intros. ring. }
        rewrite Csum_swap, <- Csum_mul_l. apply Csum_ext. intros x _. rewrite Csum_mul_l. unfold amp. rewrite Csum_conj.
        rewrite (Csum_ext (seq 0 n) (fun b => Cconj (Cconj (V b m) * snd x b))%C (fun b => Cconj (snd x b) * V b m)%C) by (intros; rewrite Cconj_mul, Cconj_invol; ring). ring. }
    rewrite Csum_swap. apply Csum_ext. intros x _. rewrite Csum_mul_l, Csum_mul_r. reflexivity. }
  unfold mixed_at. rewrite (Csum_ext _ _ (fun j => Csum l (fun x => RtoC (fst x) * (V i j * (wave (e j) t * amp (snd x) j) * Cconj (pure_at (amp (snd x)) t k))))%C).
  - rewrite Csum_swap. apply Csum_ext. intros x _. rewrite Csum_mul_l, Csum_mul_r. reflexivity.
  - intros j _. rewrite (Csum_ext _ _ (fun m => Csum l (fun x => RtoC (fst x) * (V i j * (wave (e j) t * amp (snd x) j)) * Cconj (V k m * (wave (e m) t * amp (snd x) m))))%C).
    2:{ intros m _. rewrite R1. rewrite <- Csum_mul_l, <- !Csum_mul_r. apply Csum_ext. intros x _. rewrite !Cconj_mul. ring. }
    rewrite Csum_swap. apply Csum_ext. intros x _. rewrite Csum_mul_l. unfold pure_at. rewrite Csum_conj. ring.
Qed.
End Basis.
