(* C61, C62: the von Neumann equation has one solution, so for density matrices generator and array agree and the values of obs_vs_time do
   not depend on the options. *)
From Verif Require Import AuxN SpecC SpecExpm SpecLanczos SpecExpect SpecFloquet SpecBlock SpecEd P_floquet P_block P_unique M_edtime C61_edtime C61_agree M_expect P_expect C45_expect M_obstime C62_obstime.
Local Open Scope nat_scope.

Lemma path_through n G E V e : 1 < n -> eigenbasis n G E V -> exists p, solves n (fun _ => G) p /\ forall k, k < n -> p 0%R k = e k.
Proof.
  intros Hn B. destruct (proj1 (C61_pure n G E V (V1 n e) e [0%R] Hn B (or_introl eq_refl))) as (l & _ & _ & P). destruct (P 0 ltac:(cbn; lia)) as (w & _ & (p & P1 & P2 & _)). exists p. split; assumption.
Qed.
Lemma density_zero n G E V rho : 1 < n -> eigenbasis n G E V -> solves_density n G rho -> (forall i l, i < n -> l < n -> rho 0%R i l = C0) ->
  forall t i l, i < n -> l < n -> rho t i l = C0.
Proof.
  intros Hn B D Z t i m Hi Hm. destruct (path_through n G E V (unit_vec m) Hn B) as (p & P1 & P2).
  assert (W : Csum (seq 0 n) (fun l => rho t i l * p (- t + t)%R l)%C = C0).
  { apply (stays_zero n (fun i j => - Ci * G i j)%C (fun s i => Csum (seq 0 n) (fun l => rho s i l * p (- t + s)%R l))%C 0%R); [| |exact Hi].
    - intros s k Hk. eapply hd_val; [|apply (hd_sum (seq 0 n) (fun l s => rho s k l * p (- t + s)%R l)%C s
        (fun l => - Ci * (mul n G (rho s) k l - mul n (rho s) G k l) * p (- t + s)%R l + rho s k l * (- Ci * apply n G (p (- t + s)%R) l))%C)].
      + set (v := p (- t + s)%R).
        assert (X1 : Csum (seq 0 n) (fun l => mul n G (rho s) k l * v l)%C = Csum (seq 0 n) (fun j => G k j * Csum (seq 0 n) (fun l => rho s j l * v l))%C).
        { unfold mul. transitivity (Csum (seq 0 n) (fun l => Csum (seq 0 n) (fun j => G k j * (rho s j l * v l))))%C; [apply Csum_ext; intros; rewrite <- Csum_mul_r; apply Csum_ext; intros; ring|].
          rewrite Csum_swap. apply Csum_ext. intros. rewrite <- Csum_mul_l. reflexivity. }
        assert (X2 : Csum (seq 0 n) (fun l => mul n (rho s) G k l * v l)%C = Csum (seq 0 n) (fun j => rho s k j * apply n G v j)%C).
        { unfold mul, apply. transitivity (Csum (seq 0 n) (fun l => Csum (seq 0 n) (fun j => rho s k j * (G j l * v l))))%C; [apply Csum_ext; intros; rewrite <- Csum_mul_r; apply Csum_ext; intros; ring|].
          rewrite Csum_swap. apply Csum_ext. intros. rewrite <- Csum_mul_l. reflexivity. }
        transitivity (- Ci * Csum (seq 0 n) (fun l => mul n G (rho s) k l * v l) + Ci * Csum (seq 0 n) (fun l => mul n (rho s) G k l * v l) + - Ci * Csum (seq 0 n) (fun l => rho s k l * apply n G v l))%C.
        { rewrite <- !Csum_mul_l, <- !Csum_add. apply Csum_ext. intros. ring. }
        rewrite X2, X1. unfold apply at 3. rewrite (Csum_ext _ (fun j => - Ci * G k j * Csum (seq 0 n) (fun l => rho s j l * p (- t + s)%R l))%C (fun j => - Ci * (G k j * Csum (seq 0 n) (fun l => rho s j l * v l)))%C) by (intros; unfold v; ring).
        rewrite Csum_mul_l. ring.
      + intros l Hl. apply in_seq in Hl. apply (hd_mul (fun s => rho s k l) (fun s => p (- t + s)%R l)); [apply D; lia|]. apply (hd_shift (fun u => p u l)). apply P1. lia.
    - intros k Hk. apply Csum_zero. intros l Hl. apply in_seq in Hl. rewrite Z by lia. ring. }
  rewrite (Csum_single _ _ m) in W; [|apply seq_NoDup|apply in_seq; lia|].
  - replace (- t + t)%R with 0%R in W by ring. rewrite P2 in W by exact Hm. unfold unit_vec, delta in W. rewrite Nat.eqb_refl in W. rewrite <- W. ring.
  - intros l Hl Hne. apply in_seq in Hl. replace (- t + t)%R with 0%R by ring. rewrite P2 by lia. unfold unit_vec, delta. destruct (Nat.eqb_spec m l); [congruence|]. ring.
Qed.
Lemma density_unique n G E V t r0 r1 r2 : 1 < n -> eigenbasis n G E V -> evolves_density n G t r0 r1 -> evolves_density n G t r0 r2 -> forall i l, i < n -> l < n -> r1 i l = r2 i l.
Proof.
  intros Hn B (a & A1 & A2 & A3) (b & B1 & B2 & B3) i l Hi Hl. assert (Z : (a t i l + - C1 * b t i l)%C = C0).
  { apply (density_zero n G E V (fun s i l => a s i l + - C1 * b s i l)%C Hn B); try assumption.
    - intros s j m Hj Hm. eapply hd_val; [|exact (hd_add _ _ _ _ _ (A1 s j m Hj Hm) (hd_scale (- C1)%C _ _ _ (B1 s j m Hj Hm)))].
      assert (X1 : mul n G (fun i l => a s i l + - C1 * b s i l)%C j m = (mul n G (a s) j m + - C1 * mul n G (b s) j m)%C) by (unfold mul; rewrite <- Csum_mul_l, <- Csum_add; apply Csum_ext; intros; ring).
      assert (X2 : mul n (fun i l => a s i l + - C1 * b s i l)%C G j m = (mul n (a s) G j m + - C1 * mul n (b s) G j m)%C) by (unfold mul; rewrite <- Csum_mul_l, <- Csum_add; apply Csum_ext; intros; ring).
      rewrite X1, X2. ring.
    - intros j m Hj Hm. rewrite A2, B2 by assumption. ring. }
  rewrite <- A3, <- B3 by assumption. replace (a t i l) with (a t i l + - C1 * b t i l + b t i l)%C by ring. rewrite Z. ring.
Qed.

(* Density matrices: generator and array of ED_state_vs_time agree. *)
Theorem C61_same_matrices : forall n G E V rho times l d0 d1 d2 f, 1 < n -> hermitian n G -> eigenbasis n G E V ->
  ED_state_vs_time (V2 n n rho) E (V2 n n V) times true = Matrices l -> ED_state_vs_time (V2 n n rho) E (V2 n n V) times false = Arr3 d0 d1 d2 f ->
  length l = length times /\ forall k i j, k < length times -> i < n -> j < n -> f i j k = nth k l (fun _ _ => C0) i j.
Proof.
  intros n G E V rho times l d0 d1 d2 f Hn HG B E1 E2. destruct (C61_mixed n G E V (V2 n n rho) rho times Hn HG B (or_introl eq_refl)) as [(l' & F1 & L1 & P1) (f' & F2 & P2)].
  rewrite E1 in F1. injection F1 as <-. rewrite E2 in F2. injection F2 as _ _ _ ->. split; [exact L1|].
  intros k i j Hk Hi Hj. destruct (P1 k Hk) as (w & W1 & W2). rewrite (nth_error_nth l k _ W1). exact (density_unique n G E V _ _ _ _ Hn B (P2 k Hk) W2 i j Hi Hj).
Qed.
Print Assumptions C61_same_matrices.

Theorem C62_options_mixed : forall n G E V rho obs times, 2 <= n -> hermitian n G -> eigenbasis n G E V -> (forall H, In H obs -> Ns H = n) -> 0 < length times ->
  exists S, (forall k, k < length times -> exists w, S k = Density w /\ evolves_density n G (nth k times 0%R) rho w) /\
    forall ret pure, observes n obs times S ret (obs_vs_time (Eigen (V2 n n rho) E (V2 n n V)) times obs ret pure).
Proof.
  intros n G E V rho obs times Hn HG B HO HT. destruct (C62_eigen_mixed n G E V rho obs times false false Hn HG B HO HT) as (S & P & _). exists S. split; [exact P|].
  intros ret pure. destruct (C62_eigen_mixed n G E V rho obs times ret pure Hn HG B HO HT) as (S' & P' & (vals & st & O & F & R)).
  assert (Q : forall k, k < length times -> exists r r', S' k = Density r /\ S k = Density r' /\ forall i j, i < n -> j < n -> r i j = r' i j).
  { intros k Hk. destruct (P k Hk) as (w & E1 & W1). destruct (P' k Hk) as (w' & E2 & W2). exists w', w. split; [exact E2|]. split; [exact E1|]. exact (density_unique n G E V _ _ _ _ Hn B W2 W1). }
  exists vals, st. split; [exact O|]. split.
  - assert (M : forall H, means n H times S = means n H times S').
    { intro H. unfold means. apply map_ext_in. intros k Hk. apply in_seq in Hk. destruct (Q k ltac:(lia)) as (r & r' & -> & -> & X). apply mean_density. intros i j Hi Hj. symmetry. now apply X. }
    revert F. clear -M. induction 1; constructor; [now rewrite M|assumption].
  - destruct ret; [|exact R]. destruct R as (a & -> & HS). exists a. split; [reflexivity|]. intros k Hk. specialize (HS k Hk). destruct (Q k Hk) as (r & r' & X1 & X2 & X).
    rewrite X1 in HS. rewrite X2. destruct HS as (f & -> & HF). exists f. split; [reflexivity|]. intros i j Hi Hj. rewrite HF by assumption. now apply X.
Qed.
Print Assumptions C62_options_mixed.

(* sigma_x with the density matrix |0><0|: both calls return; the hypotheses of C62_options_mixed are met by C62_meets *)
Example C61_same_matrices_meets : let rho := fun i j => if (i =? 0) && (j =? 0) then C1 else C0 in exists l d0 d1 d2 f,
  ED_state_vs_time (V2 2 2 rho) [1; -1]%R (V2 2 2 had) [0; 1]%R true = Matrices l /\ ED_state_vs_time (V2 2 2 rho) [1; -1]%R (V2 2 2 had) [0; 1]%R false = Arr3 d0 d1 d2 f.
Proof.
  intro rho. destruct C61_meets as (A & B & _). destruct (C61_mixed 2 flip [1; -1]%R had (V2 2 2 rho) rho [0; 1]%R ltac:(lia) A B (or_introl eq_refl)) as [(l & F1 & _) (f & F2 & _)].
  exists l, 2, 2, 2, f. split; [exact F1|exact F2].
Qed.
