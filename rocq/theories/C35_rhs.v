(* C35: the right-hand sides of the Schroedinger equation: -iH(t)psi for complex and for stacked real arrays, -H(t)psi in imaginary time.
   shp = None: one state; shp = Some k: k states, stored as the columns of an array.  T is the number of threads; a result is what some
   interleaving of them leaves in V_out. *)
From Verif Require Import AuxN SpecC SpecExpm SpecSparse SpecEvolve M_sparse M_evolve P_evolve.
Local Open Scope nat_scope.

(* Real time: every result is -iH(t)V, whatever V_out held before, and there is a result. *)
Theorem C35_real_time : forall T n shp H t V out, 0 < T -> valid_op n H -> real_drive H t ->
  (exists res, SO T n shp H t V out res) /\
  forall res, SO T n shp H t V out res -> forall i m, i < n -> m < columns shp ->
    at2 (columns shp) res i m = (- Ci * Csum (seq 0 n) (fun j => op_at H t i j * at2 (columns shp) V j m))%C.
Proof.
  intros T n shp H t V out HT HV HR. split.
  - destruct (all_runs T n shp HT false H t V out HV ltac:(discriminate)) as (y0 & y1 & P & D). eexists. exists y0, y1. split; [exact P|]. split; [exact D|reflexivity].
  - intros res (y0 & y1 & P & D & ->) i m Hi Hm. rewrite (scale_in T n shp HT) by assumption. f_equal. exact (all_ok T n shp HT false H t V out y0 y1 HV P D HR i m Hi Hm).
Qed.
Print Assumptions C35_real_time.

(* Imaginary time: -H(t)V; real arrays need functions that return real numbers. *)
Theorem C35_imaginary_time : forall T n shp out_real H t V out, 0 < T -> valid_op n H -> real_drive H t ->
  ((out_real = true -> forall d, In d (dynamic H) -> is_complex d = false) -> exists res, ISO T n shp out_real H t V out res) /\
  forall res, ISO T n shp out_real H t V out res -> forall i m, i < n -> m < columns shp ->
    at2 (columns shp) res i m = (- Csum (seq 0 n) (fun j => op_at H t i j * at2 (columns shp) V j m))%C.
Proof.
  intros T n shp outr H t V out HT HV HR. split.
  - intros HC. destruct (all_runs T n shp HT outr H t V out HV HC) as (y0 & y1 & P & D). eexists. exists y0, y1. split; [exact P|]. split; [exact D|reflexivity].
  - intros res (y0 & y1 & P & D & ->) i m Hi Hm. rewrite (scale_in T n shp HT) by assumption. rewrite (all_ok T n shp HT outr H t V out y0 y1 HV P D HR i m Hi Hm). ring.
Qed.
Print Assumptions C35_imaginary_time.

Lemma Csum_imag {X} (l : list X) f : (forall x, In x l -> snd (f x) = 0%R) -> snd (Csum l f) = 0%R.
Proof. induction l as [|x l IH]; intros H; [reflexivity|]. rewrite Csum_cons. cbn [Cadd snd]. rewrite H by (left; reflexivity). rewrite IH by (intros; apply H; right; assumption). lra. Qed.
Lemma mul_imag a b : snd a = 0%R -> snd b = 0%R -> snd (a * b)%C = 0%R. Proof. intros A B. cbn. rewrite A, B. ring. Qed.

(* Stacked: V holds the real parts of psi in its first n rows and the imaginary parts in the next n; the result holds those of -iH(t)psi. *)
Theorem C35_stacked : forall T n shp H t V out, 0 < T -> valid_op n H ->
  (forall M i j, In M (static H :: map mat (dynamic H)) -> i < n -> j < n -> snd (entries M i j) = 0%R) ->
  (forall d, In d (dynamic H) -> snd (coef d t) = 0%R /\ is_complex d = false) ->
  (forall i m, i < 2 * n -> m < columns shp -> snd (at2 (columns shp) V i m) = 0%R) ->
  (exists res, SO_real T n shp H t V out res) /\
  forall res, SO_real T n shp H t V out res -> forall i m, i < n -> m < columns shp ->
    let psi j := (at2 (columns shp) V j m + Ci * at2 (columns shp) V (n + j) m)%C in
    let dpsi := (- Ci * Csum (seq 0 n) (fun j => op_at H t i j * psi j))%C in
    at2 (columns shp) res i m = RtoC (fst dpsi) /\ at2 (columns shp) res (n + i) m = RtoC (snd dpsi).
Proof.
  intros T n shp H t V out HT [VS VD] HM HC HR. split.
  - assert (RS : rejected true (static H) false = false) by (destruct (static H); reflexivity).
    destruct (prod_w_runs T n shp HT (real_dtype H) (static H) n 0 true C1 false V out VS RS) as [y0 P].
    destruct (prod_w_runs T n shp HT (real_dtype H) (static H) 0 n true (- C1)%C false V y0 VS RS) as [y1 Q].
    destruct (dyn_real_runs T n shp HT (real_dtype H) t V (dynamic H) y1) as [y2 D]; [intros d I; split; [apply VD, I|apply HC, I]|].
    exists y2, y0, y1. split; [exact P|]. split; [exact Q|exact D].
  - intros res (y0 & y1 & P & Q & D) i m Hi Hm. cbn zeta. set (k := columns shp) in *.
    destruct (dyn_real_ok T n shp HT _ _ _ _ _ _ VD D i m Hi Hm) as [D1 D2]. fold k in D1, D2.
    assert (A1 := proj1 (prod_w_ok T n shp HT _ _ _ _ _ _ _ _ _ _ VS P) i m Hi Hm). assert (B1 := proj1 (prod_w_ok T n shp HT _ _ _ _ _ _ _ _ _ _ VS Q) i m Hi Hm).
    assert (B2 := prod_w_frame T n shp HT _ _ _ _ _ _ _ _ _ _ 0 i m VS Q Hi Hm (or_introl (le_n _))). cbn [Nat.add] in A1, B2. fold k in A1, B1, B2.
    assert (S : forall f : nat -> C, (Csum (seq 0 n) (fun j => entries (static H) i j * f j) + Csum (dynamic H) (fun d => cast (real_dtype H) (mat d) (coef d t) * Csum (seq 0 n) (fun j => entries (mat d) i j * f j)))%C =
      Csum (seq 0 n) (fun j => op_at H t i j * f j)%C).
    { intros f. rewrite op_at_sum. f_equal. apply Csum_ext. intros d I. rewrite cast_real; [reflexivity|]. intros _. apply HC, I. }
    assert (E1 : at2 k res i m = Csum (seq 0 n) (fun j => op_at H t i j * at2 k V (n + j) m)%C) by (rewrite D1, B2, A1, <- S, cast_real by reflexivity; ring).
    assert (E2 : at2 k res (n + i) m = (- Csum (seq 0 n) (fun j => op_at H t i j * at2 k V j m))%C) by (rewrite D2, B1, <- S, cast_opp, cast_real by reflexivity; cbn [Nat.add]; ring).
    assert (OI : forall j, j < n -> snd (op_at H t i j) = 0%R).
    { intros j Hj. unfold op_at. cbn [Cadd snd]. rewrite (HM (static H) i j (or_introl eq_refl) Hi Hj). rewrite Csum_imag; [lra|]. intros d I.
      apply mul_imag; [apply HC, I|apply HM; [right; apply in_map, I|assumption|assumption]]. }
    set (S1 := Csum (seq 0 n) (fun j => op_at H t i j * at2 k V j m)%C) in *. set (S2 := Csum (seq 0 n) (fun j => op_at H t i j * at2 k V (n + j) m)%C) in *.
    assert (I1 : snd S1 = 0%R) by (apply Csum_imag; intros j Hj; apply in_seq in Hj; apply mul_imag; [apply OI; lia|apply HR; [lia|assumption]]).
    assert (I2 : snd S2 = 0%R) by (apply Csum_imag; intros j Hj; apply in_seq in Hj; apply mul_imag; [apply OI; lia|apply HR; [lia|assumption]]).
    assert (EP : Csum (seq 0 n) (fun j => op_at H t i j * (at2 k V j m + Ci * at2 k V (n + j) m))%C = (S1 + Ci * S2)%C).
    { unfold S1, S2. rewrite <- Csum_mul_l, <- Csum_add. apply Csum_ext. intros. ring. }
    rewrite EP, E1, E2. split; apply C_eq; cbn; rewrite ?I1, ?I2; ring.
Qed.
Print Assumptions C35_stacked.

(* With matrices of a real type the kernels drop the imaginary part of a complex drive: H(t) = i (a 1 x 1 matrix times the function i),
   psi = 1, and the right-hand side is 0 instead of 1. *)
Theorem C35_complex_drive_refuted : exists n H V, valid_op n H /\ (forall t, well_typed H t) /\ forall T t out res, 0 < T -> SO T n None H t V out res ->
  at2 1 res 0 0 <> (- Ci * Csum (seq 0 n) (fun j => op_at H t 0 j * at2 1 V j 0))%C.
Proof.
  exists 1, {| static := Other (fun _ _ => C0); dynamic := [{| coef := fun _ => Ci; is_complex := true; mat := Csr (fun i => i) (fun _ => 0) (fun _ => C1) |}]; real_dtype := true |}, (fun _ => C1).
  split; [split; [exact I|intros d [<- |[]]; split; [reflexivity|split; [intros; lia|intros; lia]]]|]. split; [intros t d [<- |[]] E; discriminate E|].
  intros T t out res HT (y0 & y1 & P & D & ->). cbn [static dynamic real_dtype] in P, D.
  destruct (prod_ok T 1 None HT _ _ _ _ _ _ _ _ _ (I : valid_matrix 1 1 (Other (fun _ _ => C0))) P) as [P1 _].
  match type of D with dyn_prods _ _ _ _ _ ?ds _ _ _ _ => assert (VD : forall d, In d ds -> valid_matrix 1 1 (mat d)) by (intros d [<- |[]]; split; [reflexivity|split; [intros; lia|intros; lia]]) end.
  destruct (dyn_ok T 1 None HT _ _ _ _ _ _ _ VD D) as [D1 _].
  specialize (P1 0 0 ltac:(lia) ltac:(cbn; lia)). specialize (D1 0 0 ltac:(lia) ltac:(cbn; lia)).
  intros E. pose proof (scale_in T 1 None HT (- Ci)%C y1 0 0 ltac:(lia) ltac:(cbn; lia)) as S. cbn [columns] in *. rewrite S, D1, P1 in E. apply (f_equal fst) in E. cbn in E. lra.
Qed.
Print Assumptions C35_complex_drive_refuted.

(* A dense matrix of a real type with a complex function has no result when the arrays are real. *)
Theorem C35_dense_complex_drive_refuted : exists n H, valid_op n H /\ (forall t, well_typed H t) /\ forall T shp t V out, ~ exists res, ISO T n shp true H t V out res.
Proof.
  exists 1, {| static := Other (fun _ _ => C0); dynamic := [{| coef := fun _ => C1; is_complex := true; mat := Other (fun _ _ => C1) |}]; real_dtype := true |}.
  split; [split; [exact I|intros d [<- |[]]; exact I]|]. split; [intros t d [<- |[]] E; discriminate E|].
  intros T shp t V out (res & y0 & y1 & _ & (y2 & (K & EK & R & _) & _) & _). injection EK as <-. discriminate R.
Qed.
Print Assumptions C35_dense_complex_drive_refuted.

(* Operators that meet the hypotheses. *)
Example C35_hyps : let H := {| static := Csr (fun i => i) (fun k => 1 - k) (fun _ => C1); dynamic := [{| coef := fun t => RtoC (cos t); is_complex := false; mat := Dia 1 2 (fun _ => 0%Z) (fun p => RtoC (IZR p)) |}]; real_dtype := true |} in
  valid_op 2 H /\ (forall t, real_drive H t) /\ (forall M i j, In M (static H :: map mat (dynamic H)) -> i < 2 -> j < 2 -> snd (entries M i j) = 0%R) /\
  (forall t d, In d (dynamic H) -> snd (coef d t) = 0%R /\ is_complex d = false).
Proof.
  cbn zeta. split; [|split; [|split]].
  - split; [split; [reflexivity|split; [intros; lia|intros; lia]]|intros d [<- |[]]; exact I].
  - intros t _ d [<- |[]]. reflexivity.
  - intros M i j [<- |[<- |[]]] Hi Hj; cbn [entries map mat static]; unfold csr_entry, dia_entry; apply Csum_imag; intros x _; match goal with |- context[if ?c then _ else _] => destruct c end; reflexivity.
  - intros t d [<- |[]]. split; reflexivity.
Qed.
