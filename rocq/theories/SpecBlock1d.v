(* Specification: the symmetric states of a block of a one-dimensional basis, as vectors of the full space, and operators
   that commute with the symmetries of the block. *)
From Verif Require Import AuxN SpecC SpecOps SpecChain M_bits1d SpecChain1d SpecCheck1d.
Local Open Scope nat_scope.

(* the combinations of block labels of the one-dimensional bases; numbers are the +-1 labels.  BFull: no symmetry and no
   particle number; BNo: particle number only; BPZ: the product of reflection and inversion as one symmetry *)
Inductive block :=
| BFull | BNo | BP (p : Z) | BZ (z : Z) | BPZ (pz : Z) | BA (a : Z) | BB (b : Z) | BP_Z (p z : Z) | BA_B (a b : Z)
| BT | BT_Z (z : Z) | BT_A (a : Z) | BT_B (b : Z) | BT_A_B (a b : Z)
| BT_P (p : Z) | BT_PZ (pz : Z) | BT_P_Z (p z : Z).
Definition translates (b : block) : bool :=
  match b with BFull | BNo | BP _ | BZ _ | BPZ _ | BA _ | BB _ | BP_Z _ _ | BA_B _ _ => false | _ => true end.
Definition semi (b : block) : bool := match b with BT_P _ | BT_PZ _ | BT_P_Z _ _ => true | _ => false end.
(* the symmetries other than translations: words with their eigenvalues *)
Definition symmetries (b : block) : list (Z * list letter) :=
  match b with
  | BFull | BNo | BT => [(1, [])]
  | BP p | BT_P p => [(1, []); (p, [LP])]
  | BZ z | BT_Z z => [(1, []); (z, [LZ])]
  | BPZ q | BT_PZ q => [(1, []); (q, [LP; LZ])]
  | BA a | BT_A a => [(1, []); (a, [LA])]
  | BB b | BT_B b => [(1, []); (b, [LB])]
  | BP_Z p z | BT_P_Z p z => [(1, []); (p, [LP]); (z, [LZ]); ((p * z)%Z, [LP; LZ])]
  | BA_B a b | BT_A_B a b => [(1, []); (a, [LA]); (b, [LB]); ((a * b)%Z, [LA; LB])]
  end%Z.
(* the generators *)
Definition generators (b : block) : list (list letter) :=
  (if translates b then [[LT]] else []) ++
  match b with
  | BFull | BNo | BT => []
  | BP _ | BT_P _ => [[LP]] | BZ _ | BT_Z _ => [[LZ]] | BPZ _ | BT_PZ _ => [[LP; LZ]] | BA _ | BT_A _ => [[LA]] | BB _ | BT_B _ => [[LB]]
  | BP_Z _ _ | BT_P_Z _ _ => [[LP]; [LZ]] | BA_B _ _ | BT_A_B _ _ => [[LA]; [LB]]
  end.

Section S.
Variables (w : btype) (k : kind) (L T : nat).
Definition Mst : nat := N.to_nat (levels k ^ N.of_nat (sites k L)).
(* <t| word |s> *)
Definition amp (word : list letter) (s t : N) : C :=
  match run_ops (map (act w k L T) word) (s, 1%Z) with Some (u, g) => if (u =? t)%N then RtoC (IZR g) else C0 | None => C0 end.
(* the momentum of the block *)
Definition momentum (kb : nat) : R := (2 * PI * INR kb * INR T / INR L)%R.
(* the coefficient of r translations: a plane wave; for blocks with translations and reflection (semi-momentum states) its
   real or imaginary part, sigma = 1 or -1 *)
Definition wave (b : block) (kb : nat) (sigma : Z) (r : nat) : C :=
  if semi b then (if (0 <? sigma)%Z then RtoC (cos (momentum kb * INR r)) else RtoC (sin (momentum kb * INR r)))
  else cis (- (momentum kb * INR r)).
(* the sum over the symmetries of the block of the images of s *)
Definition block_vector (b : block) (kb : nat) (sigma : Z) (s t : N) : C :=
  Csum (seq 0 (if translates b then L / T else 1)) (fun r =>
    Csum (symmetries b) (fun x => wave b kb sigma r * RtoC (IZR (fst x)) * amp (repeat LT r ++ snd x) s t))%C.
Definition inner1 (u v : N -> C) : C := Csum (all_states Mst) (fun t => Cconj (u t) * v t)%C.
Definition norm1 (v : N -> C) : R := sqrt (fst (inner1 v v)).
Definition normalised (v : N -> C) (t : N) : C := (v t * RtoC (/ norm1 v))%C.
Definition applied (A : cmat) (v : N -> C) (t : N) : C := Csum (all_states Mst) (fun u => A t u * v u)%C.
(* the operator commutes with the (signed) permutation matrices of the generators *)
Definition word_matrix (word : list letter) : cmat := fun t s => amp word s t.
Definition commutes_with (b : block) (A : cmat) : Prop :=
  forall g, In g (generators b) -> meq Mst (mmul Mst (word_matrix g) A) (mmul Mst A (word_matrix g)).

(* what the constructors of the one-dimensional bases demand of a block *)
Definition pm (x : Z) : Prop := plus_minus x.
Definition block_ok (b : block) : Prop :=
  states_fit w k L /\ (translates b = true -> cells w k L T) /\
  match b with
  | BFull | BNo | BT => True
  | BP p | BT_P p => pm p
  | BZ q | BT_Z q => has_inversion k /\ pm q
  | BPZ q | BT_PZ q => has_inversion k /\ pm q
  | BP_Z p z | BT_P_Z p z => has_inversion k /\ pm p /\ pm z
  | BA q | BB q => has_sublattices k /\ pm q
  | BA_B a b => has_sublattices k /\ pm a /\ pm b
  | BT_A q | BT_B q => has_sublattices k /\ Nat.even L = true /\ Nat.even T = true /\ pm q
  | BT_A_B a b => has_sublattices k /\ Nat.even L = true /\ Nat.even T = true /\ pm a /\ pm b
  end.
End S.
