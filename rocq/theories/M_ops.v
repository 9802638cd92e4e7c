(* Model of the action of an operator string on a basis state:
   /repo/quspin/basis/basis_general/_basis_general_core/source/{hcb,boson,higher_spin,spinless_fermion}_basis_core.h.
   The arrays opstr[], indx[] are one list of pairs.  Floating point is exact.  Result None: return value -1. *)
From Verif Require Import AuxN SpecC M_bitcount.
From Coq Require Export Ascii.
Local Open Scope nat_scope.

Definition Rzero (x : R) : bool := if Req_EM_T x 0 then true else false.
(* m.real()==0 && m.imag()==0 *)
Definition Czero (m : C) : bool := (Rzero (fst m) && Rzero (snd m))%bool.

(* the loop for(j=n_op-1;j>-1;j--) shared by the bases; local o i r = (new r, factor of m) *)
Fixpoint op_loop (local : ascii -> nat -> N -> option (N * C)) (s : N) (rl : list (ascii * nat)) (r : N) (m : C) : option (N * C) :=
  match rl with
  | [] => Some (r, m)
  | (o, i) :: rl' =>
    match local o i r with
    | None => None
    | Some (r', f) => let m' := (m * f)%C in
                      if Czero m' then Some (s, m') else op_loop local s rl' r' m'
    end
  end.

(* hcb_basis_core.h:130-178 *)
Definition hcb_local (n : nat) (o : ascii) (i : nat) (r : N) : option (N * C) :=
  let ind := N.of_nat (n - i - 1) in
  let b := N.shiftl 1 ind in
  let a := N.testbit r ind in
  match o with
  | "z" => Some (r, if a then (1/2, 0)%R else (-(1/2), 0)%R)
  | "n" => Some (r, if a then C1 else C0)
  | "x" => Some (N.lxor r b, (1/2, 0)%R)
  | "y" => Some (N.lxor r b, if a then (0, 1/2)%R else (0, -(1/2))%R)
  | "+" => Some (N.lxor r b, if a then C0 else C1)
  | "-" => Some (N.lxor r b, if a then C1 else C0)
  | "I" => Some (r, C1)
  | _ => None
  end%char.
Definition hcb_op (n : nat) (l : list (ascii * nat)) (r : N) (m : C) : option (N * C) :=
  op_loop (hcb_local n) r (rev l) r m.

(* spinless_fermion_basis_core.h:168-207; bit_count is the function of C01 for a type of the given number of bytes (its
   undefined case, ind = width, cannot occur and is mapped to None); the spinful basis inherits op with N = twice the
   number of sites *)
Definition fermion_local (bytes : N) (n : nat) (o : ascii) (i : nat) (r : N) : option (N * C) :=
  let ind := N.of_nat (n - i - 1) in
  match bit_count bytes r ind with
  | None => None
  | Some f_count =>
    let sign := if N.odd f_count then RtoC (-1) else C1 in
    let b := N.shiftl 1 ind in
    let a := N.testbit r ind in
    match o with
    | "z" => Some (r, if a then (1/2, 0)%R else (-(1/2), 0)%R)
    | "n" => Some (r, if a then C1 else C0)
    | "+" => Some (N.lxor r b, if a then C0 else sign)
    | "-" => Some (N.lxor r b, if a then sign else C0)
    | "I" => Some (r, C1)
    | _ => None
    end
  end%char.
Definition fermion_op (bytes : N) (n : nat) (l : list (ascii * nat)) (r : N) (m : C) : option (N * C) :=
  op_loop (fermion_local bytes n) r (rev l) r m.

(* boson_basis_core.h:126-165 and higher_spin_basis_core.h:23-61: me_diag and me_offdiag are accumulated separately;
   local o occ = (factor of me_diag, factor of me_offdiag, direction of the change of r) *)
Inductive move := Stay | Up | Down.
(* boson_basis_core.h: case 'z' has no break and runs into case 'n' *)
Definition boson_local (sps : N) (o : ascii) (occ : N) : option (R * R * move) :=
  match o with
  | "z" => Some ((Nr occ - (Nr sps - 1) / 2) * Nr occ, 1, Stay)%R
  | "n" => Some (Nr occ, 1, Stay)%R
  | "+" => Some (1%R, Nr ((occ + 1) mod sps), Up)
  | "-" => Some (1%R, Nr occ, Down)
  | "I" => Some (1, 1, Stay)%R
  | _ => None
  end%char.
Definition higher_spin_local (sps : N) (o : ascii) (occ : N) : option (R * R * move) :=
  match o with
  | "z" => Some ((Nr occ - (Nr sps - 1) / 2), 1, Stay)%R
  | "+" => Some (1%R, Nr ((occ + 1) * (sps - occ - 1)), Up)
  | "-" => Some (1%R, Nr (occ * (sps - occ)), Down)
  | "I" => Some (1, 1, Stay)%R
  | _ => None
  end%char.
Fixpoint diag_loop (local : ascii -> N -> option (R * R * move)) (sps : N) (n : nat) (s : N)
    (rl : list (ascii * nat)) (r : N) (dg off : R) : option (N * R * R) :=
  match rl with
  | [] => Some (r, dg, off)
  | (o, i) :: rl' =>
    let b := (sps ^ N.of_nat (n - i - 1))%N in
    let occ := ((r / b) mod sps)%N in
    match local o occ with
    | None => None
    | Some (fd, fo, mv) =>
      let dg' := (dg * fd)%R in
      let off' := (off * fo)%R in
      let r' := match mv with
                | Stay => r
                | Up => if (occ + 1 <? sps)%N then (r + b)%N else r
                | Down => if (0 <? occ)%N then (r - b)%N else r
                end in
      if (Rzero dg' || Rzero off')%bool then Some (s, dg', off') else diag_loop local sps n s rl' r' dg' off'
    end
  end.
(* me *= me_diag*sqrt(me_offdiag) *)
Definition diag_op local (sps : N) (n : nat) (l : list (ascii * nat)) (r : N) (me : C) : option (N * C) :=
  match diag_loop local sps n r (rev l) r 1 1 with
  | None => None
  | Some (r', dg, off) => Some (r', (me * RtoC (dg * sqrt off))%C)
  end.
Definition boson_op (sps : N) := diag_op (boson_local sps) sps.
Definition higher_spin_op (sps : N) := diag_op (higher_spin_local sps) sps.

(* spin.py:184-192, 204-211: factor multiplied to the matrix element or coupling; opstr.replace("I","") etc. remove characters *)
Definition pauli_scale (pauli : Z) (opstr : list ascii) : R :=
  let without c := filter (fun o => negb (o =? c)%char) in
  if (pauli =? 1)%Z then (2 ^ length (without "I"%char opstr))%R
  else if (pauli =? -1)%Z then (2 ^ length (without "-"%char (without "+"%char (without "I"%char opstr))))%R
  else 1%R.
Definition spin_op (pauli : Z) (n : nat) (l : list (ascii * nat)) (r : N) (m : C) : option (N * C) :=
  match hcb_op n l r m with None => None | Some (r', m') => Some (r', (m' * RtoC (pauli_scale pauli (map fst l)))%C) end.

(* fermion.py:885-901 _simple_to_adv of the spinful basis: the letters before '|' act on up spins (site i), those after it on
   down spins (site i + number of sites); half = self._N//2.  None = ValueError *)
Fixpoint split_bar (opstr : list ascii) : option (list ascii * list ascii) :=
  match opstr with
  | [] => None
  | o :: rest => if (o =? "|")%char then Some ([], rest)
                 else match split_bar rest with None => None | Some (a, b) => Some (o :: a, b) end
  end.
Definition simple_to_adv (half : nat) (opstr : list ascii) (indx : list nat) : option (list (ascii * nat)) :=
  match split_bar opstr with
  | None => None
  | Some (opl, opr) =>
    let i := length opl in
    Some (combine (opl ++ opr) (firstn i indx ++ map (fun j => j + half) (skipn i indx)))
  end.
