(* Model of the action of an operator string on a state of a one-dimensional basis, one iteration of the loop of op_func:
   /repo/quspin/basis/basis_1d/_basis_1d_core/sources/{hcp_ops,boson_ops,spf_ops}.pyx.
   The string and the array indx are one list of pairs, the factor J is multiplied by M_op1d.op_func.  Floating point is exact.
   Result None: the error code 1. *)
From Verif Require Import AuxN SpecC M_bitcount M_bits1d M_ops SpecOps1d.
Local Open Scope nat_scope.

(* hcp_ops.pyx:35-70 (fermi = op_pars[0], L = op_pars[1]) and spf_ops.pyx:30-60 (fermi = true, L = twice the number of sites; the
   letters x and y are not there, but base_1d.py:573-575 rejects them before).  "continue" for the letter I skips the test for
   zero, which I cannot change.  bit_count is undefined (None) when it shifts by the width of the word or more *)
Definition hcp_local (w : btype) (fermi : bool) (L : nat) (o : ascii) (i : nat) (r : N) : option (N * C) :=
  let i_op := N.of_nat (L - i - 1) in
  let b := N.shiftl 1 i_op in
  let a := N.testbit r i_op in
  match (if fermi then bcount w r i_op else Some 0%N) with
  | None => None
  | Some c =>
    let sign := if (c mod 2 =? 0)%N then C1 else RtoC (-1) in
    match o with
    | "I" => Some (r, C1)
    | "z" => Some (r, if a then (1/2, 0)%R else (-(1/2), 0)%R)
    | "x" => Some (N.lxor r b, (1/2, 0)%R)
    | "y" => Some (N.lxor r b, if a then (0, 1/2)%R else (0, -(1/2))%R)
    | "n" => Some (r, if a then C1 else C0)
    | "+" => Some (N.lxor r b, (sign * (if a then C0 else C1))%C)
    | "-" => Some (N.lxor r b, (sign * (if a then C1 else C0))%C)
    | _ => None
    end
  end%char.
Definition hcp_op1 (w : btype) (fermi : bool) (L : nat) (l : list (ascii * nat)) (r : N) (m : C) : option (N * C) :=
  op_loop (hcp_local w fermi L) r (rev l) r m.

(* boson_ops.pyx:31-61: spin_me = op_pars[L+2], Nmax = sps - 1, M[L-indx[j]-1] = sps ** (L-indx[j]-1); only the off-diagonal
   factor is tested for zero *)
Definition boson1_local (sps : N) (spin_me : bool) (o : ascii) (occ : N) : option (R * R * move) :=
  let Nmax := (sps - 1)%N in
  match o with
  | "I" => Some (1, 1, Stay)%R
  | "z" => Some (Nr occ - Nr Nmax / 2, 1, Stay)%R
  | "n" => Some (Nr occ, 1, Stay)%R
  | "+" => Some (1%R, ((if (occ <? Nmax)%N then Nr (occ + 1) else 0) * (if spin_me then Nr (Nmax - occ) else 1))%R, Up)
  | "-" => Some (1%R, (Nr occ * (if spin_me then Nr (Nmax - occ + 1) else 1))%R, Down)
  | _ => None
  end%char.
Fixpoint boson1_loop (sps : N) (spin_me : bool) (L : nat) (s : N) (rl : list (ascii * nat)) (r : N) (dg off : R) : option (N * R * R) :=
  match rl with
  | [] => Some (r, dg, off)
  | (o, i) :: rl' =>
    let b := (sps ^ N.of_nat (L - i - 1))%N in
    let occ := ((r / b) mod sps)%N in
    match boson1_local sps spin_me o occ with
    | None => None
    | Some (fd, fo, mv) =>
      let r' := match mv with
                | Stay => r
                | Up => if (occ <? sps - 1)%N then (r + b)%N else r
                | Down => if (0 <? occ)%N then (r - b)%N else r
                end in
      if Rzero (off * fo) then Some (s, (dg * fd)%R, (off * fo)%R) else boson1_loop sps spin_me L s rl' r' (dg * fd)%R (off * fo)%R
    end
  end.
(* M_E = J*sqrt(M_E_offdiag)*M_E_diag *)
Definition boson1_op (sps : N) (spin_me : bool) (L : nat) (l : list (ascii * nat)) (r : N) (m : C) : option (N * C) :=
  match boson1_loop sps spin_me L r (rev l) r 1 1 with
  | None => None
  | Some (r', dg, off) => Some (r', (m * RtoC (sqrt off) * RtoC dg)%C)
  end.

(* what each basis passes on: spin.py:208-234 (pauli: 237-246), boson.py:202-227, fermion.py:117-129, 362-373 *)
Definition op_of (c : chain) (w : btype) (L : nat) : list (ascii * nat) -> N -> C -> option (N * C) :=
  match c with
  | SpinHalf _ | HardCore => hcp_op1 w false L
  | SpinS B => boson1_op B true L
  | Bosons B => boson1_op B false L
  | Fermions => hcp_op1 w true L
  | Spinful => hcp_op1 w true (2 * L)
  end.
Definition scale_of (c : chain) (opstr : list ascii) : R := match c with SpinHalf pauli => pauli_scale pauli opstr | _ => 1%R end.
