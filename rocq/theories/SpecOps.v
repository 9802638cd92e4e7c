(* Specification: operators on the many-site space as complex matrices; products of local operators. *)
From Verif Require Import AuxN SpecC SpecDigits SpecMaps.
From Coq Require Export Ascii.
Local Open Scope nat_scope.

Definition cmat := N -> N -> C.                                   (* row, column *)
Definition all_states (M : nat) : list N := map N.of_nat (seq 0 M).
Definition mmul (M : nat) (A B : cmat) : cmat := fun r s => Csum (all_states M) (fun k => (A r k * B k s)%C).
Definition mident : cmat := fun r s => if (r =? s)%N then C1 else C0.
Definition madd (A B : cmat) : cmat := fun r s => (A r s + B r s)%C.
Definition mscale (c : C) (A : cmat) : cmat := fun r s => (c * A r s)%C.
Definition madj (A : cmat) : cmat := fun r s => Cconj (A s r).
(* equality of matrices on the space of M states *)
Definition meq (M : nat) (A B : cmat) : Prop := forall r s, (r < N.of_nat M)%N -> (s < N.of_nat M)%N -> A r s = B r s.

(* op: given a state and a coupling returns the new state and the coupling times the matrix element *)
Definition acts_as (M : nat) (op : N -> C -> option (N * C)) (A : cmat) : Prop :=
  forall s m, (s < N.of_nat M)%N -> exists r m', op s m = Some (r, m') /\ (r < N.of_nat M)%N /\
    forall t, (t < N.of_nat M)%N -> (m * A t s)%C = if (t =? r)%N then m' else C0.

(* product of a string of operators (name, site), in the written order *)
Definition string_matrix (M : nat) (mat : ascii -> nat -> cmat) (l : list (ascii * nat)) : cmat :=
  fold_right (fun oi acc => mmul M (mat (fst oi) (snd oi)) acc) mident l.

(* the matrix loc acting on site i of n sites with local dimension B, identity on the others *)
Definition same_except (B : N) (n i : nat) (r s : N) : bool :=
  forallb (fun j => (j =? i) || (site_val B n r j =? site_val B n s j)%N)%bool (seq 0 n).
Definition site_matrix (B : N) (n : nat) (loc : N -> N -> C) (i : nat) : cmat :=
  fun r s => if same_except B n i r s then loc (site_val B n r i) (site_val B n s i) else C0.

(* local matrices <a|o|b> of spin 1/2; 1 = up, 0 = down *)
Definition half : C := ((1 / 2)%R, 0%R).
Definition spin_half_site (o : ascii) (a b : N) : C :=
  match o with
  | "I" => if (a =? b)%N then C1 else C0
  | "n" => if ((a =? 1) && (b =? 1))%N%bool then C1 else C0
  | "z" => if (a =? b)%N then (if (a =? 1)%N then half else Copp half) else C0
  | "x" => if (a =? b)%N then C0 else half
  | "y" => if (a =? b)%N then C0 else if (b =? 1)%N then (Ci * half)%C else Copp (Ci * half)
  | "+" => if ((a =? 1) && (b =? 0))%N%bool then C1 else C0
  | "-" => if ((a =? 0) && (b =? 1))%N%bool then C1 else C0
  | _ => C0
  end%char.
Definition spin_known (o : ascii) : Prop := In o ["I"; "n"; "z"; "x"; "y"; "+"; "-"]%char.

(* bosons cut off at B-1 particles per site *)
Definition boson_site (B : N) (o : ascii) (a b : N) : C :=
  match o with
  | "I" => if (a =? b)%N then C1 else C0
  | "n" => if (a =? b)%N then RtoC (Nr b) else C0
  | "z" => if (a =? b)%N then RtoC (Nr b - (Nr B - 1) / 2) else C0
  | "+" => if (a =? b + 1)%N then RtoC (sqrt (Nr b + 1)) else C0
  | "-" => if (a + 1 =? b)%N then RtoC (sqrt (Nr b)) else C0
  | _ => C0
  end%char.
(* spin S = (B-1)/2; digit b is the state with magnetisation m = b - S; S+- |m> = sqrt(S(S+1) - m(m+-1)) |m+-1> *)
Definition spinS_site (B : N) (o : ascii) (a b : N) : C :=
  let S := ((Nr B - 1) / 2)%R in
  let m := (Nr b - S)%R in
  match o with
  | "I" => if (a =? b)%N then C1 else C0
  | "z" => if (a =? b)%N then RtoC m else C0
  | "+" => if (a =? b + 1)%N then RtoC (sqrt (S * (S + 1) - m * (m + 1))) else C0
  | "-" => if (a + 1 =? b)%N then RtoC (sqrt (S * (S + 1) - m * (m - 1))) else C0
  | _ => C0
  end%char.

(* spin-1/2 operators in units of Pauli matrices: pauli = 1: all operators but I are doubled (+ and - become sigma^x +- i sigma^y);
   pauli = -1: x, y, z are doubled, + and - are not; pauli = 0: spin operators *)
Definition doubled (pauli : Z) (o : ascii) : bool :=
  (if pauli =? 1 then negb (o =? "I")%char
   else if pauli =? -1 then negb (o =? "I")%char && negb (o =? "+")%char && negb (o =? "-")%char else false)%Z%bool.
Definition pauli_site (pauli : Z) (o : ascii) (a b : N) : C :=
  if doubled pauli o then (RtoC 2 * spin_half_site o a b)%C else spin_half_site o a b.

(* the matrix of an operation on states *)
Definition op_matrix (op : N -> C -> option (N * C)) : cmat :=
  fun r s => match op s C1 with Some (r', m) => if (r =? r')%N then m else C0 | None => C0 end.

(* a term is a string with its coupling, a list of terms stands for the sum; op: what the basis computes for a string *)
Definition mzero : cmat := fun _ _ => C0.
Definition term_matrix (op : list (ascii * nat) -> N -> C -> option (N * C)) (t : list (ascii * nat) * C) : cmat :=
  mscale (snd t) (op_matrix (op (fst t))).
Definition terms_matrix op (ts : list (list (ascii * nat) * C)) : cmat := fold_right (fun t acc => madd (term_matrix op t) acc) mzero ts.
