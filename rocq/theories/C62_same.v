(* C62: with an eigenbasis the values do not depend on return_state and enforce_pure. *)
From Verif Require Import AuxN SpecC SpecExpm SpecLanczos SpecExpect SpecFloquet SpecBlock SpecEd P_floquet P_block P_unique M_edtime C61_edtime C61_agree M_expect P_expect C45_expect M_obstime C62_obstime.
Local Open Scope nat_scope.

Lemma observes_ext n obs times S S' ret out : (forall k, k < length times -> exists v v', S k = Ket v /\ S' k = Ket v' /\ forall i, i < n -> v i = v' i) ->
  observes n obs times S ret out -> observes n obs times S' ret out.
Proof.
  intros E (vals & st & O & F & R). exists vals, st. split; [exact O|]. split.
  - assert (M : forall H, means n H times S' = means n H times S).
    { intro H. unfold means. apply map_ext_in. intros k Hk. apply in_seq in Hk. destruct (E k ltac:(lia)) as (v & v' & -> & -> & Q). apply mean_ket. intros i Hi. symmetry. now apply Q. }
    revert F. clear -M. induction 1; constructor; [now rewrite M|assumption].
  - destruct ret; [|exact R]. destruct R as (a & -> & HS). exists a. split; [reflexivity|]. intros k Hk. specialize (HS k Hk). destruct (E k Hk) as (v & v' & E1 & E2 & Q).
    rewrite E1 in HS. rewrite E2. destruct HS as (f & -> & HF). exists f. split; [reflexivity|]. intros i Hi. rewrite HF by exact Hi. now apply Q.
Qed.

(* One sequence of states for all choices of the options: those of the solution of the Schroedinger equation. *)
Theorem C62_options : forall n G E V psi obs times, 2 <= n -> eigenbasis n G E V -> (forall H, In H obs -> Ns H = n) -> 0 < length times ->
  exists S, (forall k, k < length times -> exists w, S k = Ket w /\ evolves n (fun _ => G) (nth k times 0%R) psi w) /\
    forall ret pure, observes n obs times S ret (obs_vs_time (Eigen (V1 n psi) E (V2 n n V)) times obs ret pure).
Proof.
  intros n G E V psi obs times Hn B HO HT. destruct (C62_eigen n G E V psi obs times false false Hn B HO HT) as (S & P & _). exists S. split; [exact P|].
  intros ret pure. destruct (C62_eigen n G E V psi obs times ret pure Hn B HO HT) as (S' & P' & Q). apply (observes_ext n obs times S' S); [|exact Q].
  intros k Hk. destruct (P k Hk) as (w & E1 & W1). destruct (P' k Hk) as (w' & E2 & W2). exists w', w. split; [exact E2|]. split; [exact E1|].
  apply evolves_exponential in W1, W2. exact (exponential_unique n _ _ _ _ _ W2 W1).
Qed.
Print Assumptions C62_options.

(* An observable that commutes with the Hamiltonian has the same mean at all times. *)
Theorem C62_conserved : forall n G E V psi (O : operator) times ret pure, 2 <= n -> hermitian n G -> eigenbasis n G E V -> Ns O = n -> driven O = [] -> 0 < length times ->
  (forall i j, i < n -> j < n -> mul n (fixed O) G i j = mul n G (fixed O) i j) ->
  exists S, observes n [O] times S ret (obs_vs_time (Eigen (V1 n psi) E (V2 n n V)) times [O] ret pure) /\
    means n O times S = repeat (mean n (fixed O) (Ket psi)) (length times).
Proof.
  intros n G E V psi O times ret pure Hn HG B HN HD HT HC.
  destruct (C62_eigen n G E V psi [O] times ret pure Hn B ltac:(intros H [<-|[]]; exact HN) HT) as (S & P & Q). exists S. split; [exact Q|].
  assert (A : forall t i j, at_time O t i j = fixed O i j) by (intros; unfold at_time; rewrite HD, Csum_nil; ring).
  unfold means. assert (M : forall k, k < length times -> mean n (at_time O (nth k times 0%R)) (S k) = mean n (fixed O) (Ket psi)).
  { intros k Hk. destruct (P k Hk) as (w & -> & (p & P1 & P2 & P3)). cbn [mean].
    transitivity (inner n (p (nth k times 0%R)) (apply n (fixed O) (p (nth k times 0%R)))).
    { apply inner_ext; [intros i Hi; symmetry; now apply P3|]. intros i Hi. unfold apply. apply Csum_ext. intros j Hj. apply in_seq in Hj. now rewrite A, P3 by lia. }
    transitivity (inner n (p 0%R) (apply n (fixed O) (p 0%R))).
    2: { apply inner_ext; [exact P2|]. intros i Hi. unfold apply. apply Csum_ext. intros j Hj. apply in_seq in Hj. now rewrite P2 by lia. }
    apply (hd_zero (fun s => inner n (p s) (apply n (fixed O) (p s)))). intro t. unfold inner.
    eapply hd_val; [|apply (hd_sum (seq 0 n) (fun i s => Cconj (p s i) * apply n (fixed O) (p s) i)%C t
      (fun i => Cconj (- Ci * apply n G (p t) i) * apply n (fixed O) (p t) i + Cconj (p t i) * apply n (fixed O) (fun j => - Ci * apply n G (p t) j) i)%C)].
    - rewrite Csum_add.
      assert (L : Csum (seq 0 n) (fun i => Cconj (- Ci * apply n G (p t) i) * apply n (fixed O) (p t) i)%C = (Ci * Csum (seq 0 n) (fun i => Cconj (p t i) * apply n G (apply n (fixed O) (p t)) i))%C).
      { rewrite <- Csum_mul_l. unfold apply at 1. transitivity (Csum (seq 0 n) (fun i => Csum (seq 0 n) (fun j => Ci * (Cconj (p t j) * (G j i * apply n (fixed O) (p t) i)))))%C.
        - apply Csum_ext. intros i Hi. apply in_seq in Hi. rewrite <- Csum_mul_l, Csum_conj, <- Csum_mul_r. apply Csum_ext. intros j Hj. apply in_seq in Hj.
          rewrite (HG j i) by lia. apply C_eq; cbn; ring.
        - rewrite Csum_swap. apply Csum_ext. intros j _. unfold apply at 2. rewrite <- !Csum_mul_l. apply Csum_ext. intros. ring. }
      assert (R : Csum (seq 0 n) (fun i => Cconj (p t i) * apply n (fixed O) (fun j => - Ci * apply n G (p t) j) i)%C = (- Ci * Csum (seq 0 n) (fun i => Cconj (p t i) * apply n G (apply n (fixed O) (p t)) i))%C).
      { rewrite <- Csum_mul_l. apply Csum_ext. intros i Hi. apply in_seq in Hi.
        assert (X : forall A B v, apply n A (apply n B v) i = apply n (mul n A B) v i).
        { intros A0 B0 v. unfold apply, mul. transitivity (Csum (seq 0 n) (fun j => Csum (seq 0 n) (fun k => A0 i j * B0 j k * v k)))%C.
          - apply Csum_ext. intros. rewrite <- Csum_mul_l. apply Csum_ext. intros. ring.
          - rewrite Csum_swap. apply Csum_ext. intros. rewrite <- Csum_mul_r. reflexivity. }
        assert (Y : apply n (fixed O) (apply n G (p t)) i = apply n G (apply n (fixed O) (p t)) i).
        { rewrite !X. unfold apply. apply Csum_ext. intros j Hj. apply in_seq in Hj. now rewrite HC by lia. }
        rewrite <- Y. replace (apply n (fixed O) (fun j => - Ci * apply n G (p t) j)%C i) with (- Ci * apply n (fixed O) (apply n G (p t)) i)%C; [ring|].
        unfold apply at 1 3. rewrite <- Csum_mul_l. apply Csum_ext. intros. ring. }
      rewrite L, R. ring.
    - intros i Hi. apply in_seq in Hi. apply (hd_mul (fun s => Cconj (p s i)) (fun s => apply n (fixed O) (p s) i)).
      + apply hd_conj. apply P1. lia.
      + unfold apply at 1. apply (hd_sum (seq 0 n) (fun j s => fixed O i j * p s j)%C t (fun j => fixed O i j * (- Ci * apply n G (p t) j))%C). intros j Hj. apply in_seq in Hj. apply hd_scale. apply P1. lia. }
  transitivity (map (fun _ : nat => mean n (fixed O) (Ket psi)) (seq 0 (length times))).
  - apply map_ext_in. intros k Hk. apply in_seq in Hk. apply M. lia.
  - clear. generalize 0. induction (length times) as [|m IH]; intro b; [reflexivity|]. cbn [seq map repeat]. f_equal. apply IH.
Qed.
Print Assumptions C62_conserved.

(* the energy of a two-level system *)
Example C62_conserved_meets : hermitian 2 flip /\ eigenbasis 2 flip [1; -1]%R had /\ forall i j, i < 2 -> j < 2 -> mul 2 (fixed {| Ns := 2; fixed := flip; driven := [] |}) flip i j = mul 2 flip (fixed {| Ns := 2; fixed := flip; driven := [] |}) i j.
Proof. destruct C61_meets as (A & B & _). split; [exact A|]. split; [exact B|]. reflexivity. Qed.
