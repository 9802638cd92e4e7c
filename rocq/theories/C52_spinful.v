(* C52: the block of the product of parity and spin inversion of spinful fermions. *)
From Verif Require Import AuxN SpecC SpecOps SpecOps1d SpecProj M_bits1d SpecChain1d SpecCheck1d SpecBlock1d M_check1d
  M_ops M_ops1d M_symop M_op1d P_ops P_ops1d P_symop P_op1d P_bits1d2 C39_checks C52_matrix.
From Coq Require Import Permutation.
Local Open Scope nat_scope.

(* two sites; a pair of particles hops from site 0 to site 1 and back *)
Definition hop_pair : list (list (ascii * nat) * C) :=
  [([("+", 1); ("-", 0); ("+", 3); ("-", 2)], C1); ([("+", 0); ("-", 1); ("+", 2); ("-", 3)], C1)]%char.
Notation Hp := (lattice_operator 16 (letter_matrix Spinful 4) hop_pair).

Lemma IC_mul a b : (RtoC (IZR a) * RtoC (IZR b))%C = RtoC (IZR (a * b)).
Proof. rewrite mult_IZR. apply C_eq; cbn; ring. Qed.
Lemma Csum_IZR {A} (l : list A) f : Csum l (fun x => RtoC (IZR (f x))) = RtoC (IZR (fold_right (fun x acc => (f x + acc)%Z) 0%Z l)).
Proof. induction l as [|x l IH]; [reflexivity|]. rewrite Csum_cons, IH. cbn [fold_right]. rewrite plus_IZR. apply C_eq; cbn; ring. Qed.
Lemma Czero_IZR z : Czero (RtoC (IZR z)) = (z =? 0)%Z.
Proof.
  unfold Czero, Rzero. cbn [fst snd RtoC]. destruct (Req_EM_T 0 0) as [_|E]; [|destruct (E eq_refl)]. destruct (Req_EM_T (IZR z) 0) as [E|E]; cbn [andb].
  - symmetry. apply Z.eqb_eq. apply eq_IZR. exact E.
  - symmetry. apply Z.eqb_neq. intros ->. apply E. reflexivity.
Qed.
Definition zlocal (o : ascii) (i : nat) (r : N) : option (N * Z) :=
  let i_op := N.of_nat (4 - i - 1) in
  let b := N.shiftl 1 i_op in
  let a := N.testbit r i_op in
  match M_bits1d.bcount U32 r i_op with
  | None => None
  | Some c =>
    let sign := if (c mod 2 =? 0)%N then 1%Z else (-1)%Z in
    match o with
    | "+" => Some (N.lxor r b, (sign * (if a then 0 else 1))%Z)
    | "-" => Some (N.lxor r b, (sign * (if a then 1 else 0))%Z)
    | _ => None
    end
  end%char.
Fixpoint zloop (s : N) (rl : list (ascii * nat)) (r : N) (m : Z) : option (N * Z) :=
  match rl with
  | [] => Some (r, m)
  | (o, i) :: rl' => match zlocal o i r with None => None | Some (r', f) => if (m * f =? 0)%Z then Some (s, (m * f)%Z) else zloop s rl' r' (m * f)%Z end
  end.
Lemma zloop_ok s rl r m : Forall (fun oi => fst oi = "+"%char \/ fst oi = "-"%char) rl ->
  op_loop (hcp_local U32 true 4) s rl r (RtoC (IZR m)) = option_map (fun x => (fst x, RtoC (IZR (snd x)))) (zloop s rl r m).
Proof.
  revert r m. induction rl as [|[o i] rl IH]; intros r m H; [reflexivity|]. inversion_clear H as [|? ? Ho Hr]. cbn [fst] in Ho.
  cbn [op_loop zloop]. unfold hcp_local, zlocal. destruct (bcount U32 r (N.of_nat (4 - i - 1))) as [c|]; [|reflexivity].
  assert (A : forall (b : bool) (z : Z), ((if (c mod 2 =? 0)%N then C1 else RtoC (-1)) * (if b then RtoC (IZR z) else RtoC (IZR (1 - z))))%C = RtoC (IZR ((if (c mod 2 =? 0)%N then 1 else -1) * (if b then z else 1 - z)))%Z).
  { intros b z. change C1 with (RtoC (IZR 1)). change (RtoC (-1)) with (RtoC (IZR (-1))). destruct (c mod 2 =? 0)%N, b; apply IC_mul. }
  destruct Ho as [-> | ->]; [specialize (A (N.testbit r (N.of_nat (4 - i - 1))) 0%Z)|specialize (A (N.testbit r (N.of_nat (4 - i - 1))) 1%Z)]; cbn [Z.sub Z.opp Z.add Z.pos_sub] in A;
    change (RtoC (IZR 0)) with C0 in A; change (RtoC (IZR 1)) with C1 in A; rewrite A, IC_mul, Czero_IZR; (destruct (_ =? 0)%Z; [reflexivity|apply IH, Hr]).
Qed.
Definition hz (l : list (ascii * nat)) (t s : N) : Z := match zloop s (rev l) s 1 with Some (r, z) => if (t =? r)%N then z else 0%Z | None => 0%Z end.
Lemma hz_ok l t s : In l (map fst hop_pair) -> (t < 16)%N -> (s < 16)%N -> string_matrix 16 (letter_matrix Spinful 4) l t s = RtoC (IZR (hz l t s)).
Proof.
  intros Hl Ht Hs.
  assert (Ok : Forall (fun oi => In (fst oi) ["I"; "n"; "z"; "+"; "-"]%char /\ snd oi < 4) l) by (destruct Hl as [<-|[<-|[]]]; repeat (constructor; [split; [cbn; tauto|cbn; lia]|]); constructor).
  assert (Pm : Forall (fun oi => fst oi = "+"%char \/ fst oi = "-"%char) (rev l)) by (destruct Hl as [<-|[<-|[]]]; repeat (constructor; [cbn; tauto|]); constructor).
  destruct (hcp_fermi_acts U32 4 l ltac:(intros p Hp; unfold below; cbn; lia) Ok s C1 Hs) as (r & m & E & _ & HA). specialize (HA t Ht).
  change (N.to_nat (2 ^ N.of_nat 4)) with 16 in HA. change (letter_matrix Spinful 4) with (fermi_letter 4). replace (string_matrix 16 (fermi_letter 4) l t s) with (C1 * string_matrix 16 (fermi_letter 4) l t s)%C by ring. rewrite HA.
  unfold hcp_op1 in E. change C1 with (RtoC (IZR 1)) in E. rewrite (zloop_ok s (rev l) s 1 Pm) in E. unfold hz. destruct (zloop s (rev l) s 1) as [[r' z]|]; [|discriminate]. cbn [option_map fst snd] in E. injection E as <- <-. destruct (t =? r')%N; reflexivity.
Qed.
Definition hpz (t s : N) : Z := (hz (fst (nth 0 hop_pair ([], C0))) t s + hz (fst (nth 1 hop_pair ([], C0))) t s)%Z.
Lemma hop_value t s : (t < 16)%N -> (s < 16)%N -> Hp t s = RtoC (IZR (hpz t s)).
Proof.
  intros Ht Hs. unfold lattice_operator, hop_pair. rewrite !Csum_cons, Csum_nil. cbn [fst snd]. rewrite !hz_ok by (try assumption; cbn; tauto). unfold hpz, hop_pair. cbn [nth fst]. rewrite plus_IZR. apply C_eq; cbn; ring.
Qed.
Definition az (word : list letter) (s t : N) : Z := match run_ops (map (act U32 Spf 2 1) word) (s, 1%Z) with Some (u, g) => if (u =? t)%N then g else 0%Z | None => 0%Z end.
Lemma az_ok word s t : amp U32 Spf 2 1 word s t = RtoC (IZR (az word s t)).
Proof. unfold amp, az. destruct (run_ops _ _) as [[u g]|]; [destruct (u =? t)%N|]; reflexivity. Qed.
Lemma below16 x : (x < N.of_nat 16)%N -> In x (all_states 16).
Proof. intros H. apply (proj2 (P_op1d.al_in 16 x)), H. Qed.
Lemma hop_commutes : commutes_with U32 Spf 2 1 (BPZ 1) Hp.
Proof.
  intros g [<-|[]] r s Hr Hs. change (Mst Spf 2) with 16 in *. unfold mmul, word_matrix.
  rewrite (Csum_ext _ _ (fun u => RtoC (IZR (az [LP; LZ] u r * hpz u s)))) by (intros u Hu; apply P_op1d.al_in in Hu; rewrite az_ok, hop_value by assumption; apply IC_mul).
  rewrite (Csum_ext _ (fun u => Hp r u * amp U32 Spf 2 1 [LP; LZ] s u)%C (fun u => RtoC (IZR (hpz r u * az [LP; LZ] s u)))) by (intros u Hu; apply P_op1d.al_in in Hu; rewrite az_ok, hop_value by assumption; apply IC_mul).
  rewrite !Csum_IZR. do 2 f_equal.
  assert (A : forallb (fun r => forallb (fun s => (fold_right (fun u acc => az [LP; LZ] u r * hpz u s + acc) 0 (all_states 16) =? fold_right (fun u acc => hpz r u * az [LP; LZ] s u + acc) 0 (all_states 16))%Z) (all_states 16)) (all_states 16) = true) by (vm_compute; reflexivity).
  rewrite forallb_forall in A. specialize (A r (below16 r Hr)). rewrite forallb_forall in A. apply Z.eqb_eq, A, below16, Hs.
Qed.

(* The reference state of the product of parity and spin inversion is computed without the fermionic sign: for two sites and
   one particle of each species the block of eigenvalue 1 has one state, its energy for a hopping pair is 1 in the matrix and -1
   in the state *)
Theorem C52_spinful_product_refuted :
  exists w L q states basis ts, let k := kind_of Spinful in
  block_ok w k L 1 (BPZ q) /\ sector k L (BPZ q) states /\ constructed w k L 1 0 (BPZ q) states basis /\
  Forall (fun t => Forall (fun oi => In (fst oi) (letters Spinful) /\ snd oi < sites k L) (fst t)) ts /\
  let H := lattice_operator (Mst k L) (letter_matrix Spinful (sites k L)) ts in
  commutes_with w k L 1 (BPZ q) H /\ length basis = 1 /\
  (exists Mx, make_matrix (Op1d w k L 1 0 false (BPZ q) basis (sites k L) (letters Spinful) (scale_of Spinful) (op_of Spinful w L)) ts = Some Mx /\ Mx 0 0 = C1) /\
  inner1 k L (sym_state w k L 1 0 (BPZ q) basis 0) (applied k L H (sym_state w k L 1 0 (BPZ q) basis 0)) = RtoC (-1).
Proof.
  exists U32, 2, 1%Z, [5; 6; 9; 10]%N, [mk 10 2 0], hop_pair. cbn zeta.
  split; [|split; [|split; [|split; [|split; [|split; [|split]]]]]].
  - split; [split; [lia|cbn; lia]|]. split; [discriminate|]. split; [exact I|left; reflexivity].
  - split; [intros s Hs; cbn in Hs; cbn; lia|]. split; [repeat constructor; cbn; intuition discriminate|discriminate].
  - exists [mk 10 2 0]. split; [vm_compute; reflexivity|]. split; [constructor; constructor|exact I].
  - unfold hop_pair. constructor; [|constructor; [|constructor]]; repeat (constructor; [split; [cbn; tauto|cbn; lia]|]); constructor.
  - exact hop_commutes.
  - reflexivity.
  - assert (E1 : op_of Spinful U32 2 (fst (nth 0 hop_pair ([], C0))) 10 C1 = Some (5%N, C1)).
    { cbn [op_of]. change (2 * 2) with 4. unfold hcp_op1. change C1 with (RtoC (IZR 1)). rewrite zloop_ok by (cbn; repeat constructor; cbn; tauto). match goal with |- context [zloop ?a ?b ?c ?d] => let v := eval vm_compute in (zloop a b c d) in change (zloop a b c d) with v end. reflexivity. }
    assert (E2 : op_of Spinful U32 2 (fst (nth 1 hop_pair ([], C0))) 10 C1 = Some (10%N, C0)).
    { cbn [op_of]. change (2 * 2) with 4. unfold hcp_op1. change C1 with (RtoC (IZR 1)). rewrite zloop_ok by (cbn; repeat constructor; cbn; tauto). match goal with |- context [zloop ?a ?b ?c ?d] => let v := eval vm_compute in (zloop a b c d) in change (zloop a b c d) with v end. reflexivity. }
    assert (F : forall l r m, existsb (fun oi => 4 <=? snd oi) l = false -> existsb (fun oi => negb (existsb (Ascii.eqb (fst oi)) (letters Spinful))) l = false -> op_of Spinful U32 2 l 10 C1 = Some (r, m) ->
      forall n, ref_PZ U32 Spf 2 r = Some (10%N, 1%Z, [n]) ->
      Op1d U32 Spf 2 1 0 false (BPZ 1) [mk 10 2 0] 4 (letters Spinful) (scale_of Spinful) (op_of Spinful U32 2) l C1 = Some (if Czero m then [] else [(m, 0, 0)])).
    { intros l r m X1 X2 X3 n X4. unfold Op1d. rewrite X1, X2. unfold template. cbn [map all_some e_s]. unfold op_func. rewrite X3. cbn [andb all_some length seq map]. unfold column. cbn [semi]. unfold col_plain. cbn [nth fst snd]. unfold ref_of. rewrite X4.
      unfold locate. cbn [nth e_s N.eqb Pos.eqb negb factor fst snd].
      match goal with |- context [(m * C1 * ?y)%C] => assert (Y : (m * C1 * y)%C = m) end.
      { unfold pw. rewrite Z.pow_1_l by lia. cbn [e_N]. replace (2 / 2)%R with 1%R by field. rewrite sqrt_1. apply C_eq; cbn; ring. }
      rewrite Y. cbn [option_map concat app filter fst snd]. destruct (Czero m); cbn [negb map fst snd scale_of]; [reflexivity|]. replace (m * RtoC 1)%C with m by (apply C_eq; cbn; ring). reflexivity. }
    pose proof (F (fst (nth 0 hop_pair ([], C0))) _ _ eq_refl eq_refl E1 1 eq_refl) as O1. pose proof (F (fst (nth 1 hop_pair ([], C0))) _ _ eq_refl eq_refl E2 0 eq_refl) as O2. rewrite (Czero_IZR 1 : Czero C1 = false) in O1. rewrite (Czero_IZR 0 : Czero C0 = true) in O2. cbn [nth fst hop_pair] in O1, O2.
    eexists. split.
    + unfold make_matrix. unfold hop_pair. cbn [make_matrix_loop]. change (kind_of Spinful) with Spf. change (sites Spf 2) with 4. rewrite O1. cbn [length Nat.ltb Nat.leb is_diagonal forallb fst snd Nat.eqb andb]. rewrite O2. cbn [length Nat.ltb Nat.leb]. reflexivity.
    + unfold diag_matrix. cbn. apply C_eq; cbn; ring.
  - assert (B : forall t, block_vector U32 Spf 2 1 (BPZ 1) 0 2 10 t = RtoC (IZR (az [] 10 t + az [LP; LZ] 10 t))).
    { intros t. unfold block_vector. cbn [translates seq symmetries]. rewrite !Csum_cons, !Csum_nil. unfold wave. cbn [semi fst snd repeat app]. rewrite !az_ok. replace (- (momentum 2 1 0 * INR 0))%R with 0%R by (cbn; ring). rewrite cis_0, plus_IZR. apply C_eq; cbn; ring. }
    assert (I2 : inner1 Spf 2 (block_vector U32 Spf 2 1 (BPZ 1) 0 2 10) (block_vector U32 Spf 2 1 (BPZ 1) 0 2 10) = RtoC 2).
    { unfold inner1. change (Mst Spf 2) with 16. rewrite (Csum_ext _ _ (fun t => RtoC (IZR ((az [] 10 t + az [LP; LZ] 10 t) * (az [] 10 t + az [LP; LZ] 10 t))))) by (intros t _; rewrite B, Cconj_RtoC; apply IC_mul). rewrite Csum_IZR. do 2 f_equal. }
    set (c := (/ sqrt 2)%R). assert (Cc : (c * c)%R = (1 / 2)%R) by (unfold c; rewrite <- Rinv_mult, sqrt_sqrt by lra; field).
    assert (Ps : forall t, sym_state U32 Spf 2 1 0 (BPZ 1) [mk 10 2 0] 0 t = (RtoC c * RtoC (IZR (az [] 10 t + az [LP; LZ] 10 t)))%C).
    { intros t. unfold sym_state. cbn [nth e_s e_N]. unfold normalised, norm1. rewrite I2, B. cbn [fst RtoC]. fold c. ring. }
    change (kind_of Spinful) with Spf. change (sites Spf 2) with 4. unfold inner1, applied. change (Mst Spf 2) with 16.
    rewrite (Csum_ext _ _ (fun t => RtoC (c * c) * RtoC (IZR ((az [] 10 t + az [LP; LZ] 10 t) * fold_right (fun u acc => hpz t u * (az [] 10 u + az [LP; LZ] 10 u) + acc)%Z 0%Z (all_states 16))))%C).
    + rewrite Csum_mul_l, Csum_IZR, Cc. match goal with |- context [IZR ?x] => match x with fold_right _ _ _ => let v := eval vm_compute in x in change x with v end end. apply C_eq; cbn; field.
    + intros t Ht. apply P_op1d.al_in in Ht. rewrite Ps, Cconj_mul, !Cconj_RtoC.
      rewrite (Csum_ext _ _ (fun u => RtoC c * RtoC (IZR (hpz t u * (az [] 10 u + az [LP; LZ] 10 u))))%C) by (intros u Hu; apply P_op1d.al_in in Hu; rewrite Ps, hop_value, <- IC_mul by assumption; ring).
      rewrite Csum_mul_l, Csum_IZR, <- IC_mul, RtoC_mul. ring.
Qed.
Print Assumptions C52_spinful_product_refuted.
