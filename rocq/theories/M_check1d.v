(* Model of the representative checks and reference-state routines of the one-dimensional bases:
   /repo/quspin/basis/basis_1d/_basis_1d_core/sources/checkstate.pyx and refstate.pyx, and of the tests that the loops of
   basis_templates.pyx apply to their results.  The bit operations are those of M_bits1d.  None stands for undefined C
   behaviour inside a bit operation.  int products do not overflow (L, kblock, T are at most a few hundred). *)
From Verif Require Import AuxN M_bits1d.
Local Open Scope Z_scope.

Section Chain.
Variables (w : btype) (k : kind) (L : nat).
Definition T_ (T : nat) : op := op_shift w k L (- Z.of_nat T).
Definition P_ : op := op_flip w k L.
Definition Z_ : op := op_inv w k L.
Definition ZA_ : op := op_invA w k L.
Definition ZB_ : op := op_invB w k L.

(* the common comparison of checkstate.pyx:10-20, 28-37, 46-54, 91-99, 108-116 *)
Definition cmp_state (q : Z) (s : N) (r : option (N * Z)) : option Z :=
  match r with
  | None => None
  | Some (t, sign) => Some (if (t <? s)%N then 2 else if (t =? s)%N then (if negb (q * sign =? -1) then 4 else -1) else -1)
  end.
(* checkstate.pyx:5-19, 22-36, 39-53, 83-97, 100-114 *)
Definition check_P (p : Z) (s : N) : option Z := cmp_state p s (run_ops [P_] (s, 1)).
Definition check_PZ (pz : Z) (s : N) : option Z := cmp_state pz s (run_ops [P_; Z_] (s, 1)).
Definition check_Z (z : Z) (s : N) : option Z := cmp_state z s (run_ops [Z_] (s, 1)).
Definition check_ZA (zA : Z) (s : N) : option Z := cmp_state zA s (run_ops [ZA_] (s, 1)).
Definition check_ZB (zB : Z) (s : N) : option Z := cmp_state zB s (run_ops [ZB_] (s, 1)).

(* the common combination of checkstate.pyx:59-79 and 121-141 (three checks one after the other) *)
Definition combine3 (r1 r2 r12 : option Z) : option Z :=
  match r1 with
  | None => None
  | Some a => if a <? 0 then Some (-1) else
    match r2 with
    | None => None
    | Some b => if b <? 0 then Some (-1) else
      match r12 with
      | None => None
      | Some c => if c <? 0 then Some (-1) else
          Some (if ((a =? 4) && (b =? 4))%bool then 16 else if ((a =? 4) || (b =? 4) || (c =? 4))%bool then 8 else 4)
      end
    end
  end.
(* checkstate.pyx:56-80 CheckState_P_Z_template: Z first, then P, then PZ *)
Definition check_P_Z (p z : Z) (s : N) : option Z := combine3 (check_Z z s) (check_P p s) (check_PZ (z * p) s).
(* checkstate.pyx:117-142 CheckState_ZA_ZB_template *)
Definition check_ZA_ZB (zA zB : Z) (s : N) : option Z := combine3 (check_ZA zA s) (check_ZB zB s) (check_Z (zA * zB) s).

(* ---- translations ---- *)
(* the loop "for i in range(1, L/T+1): t = shift(t, -T, ...); if t > s: return; elif t == s: ...": what it ends with *)
Inductive tres := TUndef | TGreater | TBack (i : nat) (sign : Z) | TEnd.
Fixpoint tloop (f : op) (s : N) (cnt i : nat) (x : N * Z) : tres :=
  match cnt with
  | O => TEnd
  | S c => match f x with
           | None => TUndef
           | Some (t, sign) => if (s <? t)%N then TGreater else if (t =? s)%N then TBack i sign else tloop f s c (S i) (t, sign)
           end
  end.
(* the momentum condition of checkstate.pyx:164-169 (= 203-208 etc.), and the one of checkstate.pyx:394, 433, 478 that
   does not look at the sign *)
Definition k_ok (kblock T i : nat) (sign : Z) : bool :=
  if 0 <? sign then ((kblock * T * i) mod L =? 0)%nat
  else negb ((((2 * T * i * kblock) / L) mod 2 =? 0)%nat || negb ((2 * kblock * T * i) mod L =? 0)%nat).
Definition k_ok_nosign (kblock T i : nat) (sign : Z) : bool := ((kblock * T * i) mod L =? 0)%nat.
(* checkstate.pyx:145-171 CheckState_T_template; a C function that falls off its end returns 0 *)
Definition check_T (kblock T : nat) (s : N) : option Z :=
  match tloop (T_ T) s (L / T) 1 (s, 1) with
  | TUndef => None
  | TGreater => Some (-1)
  | TBack i sign => Some (if k_ok kblock T i sign then Z.of_nat i else -1)
  | TEnd => Some 0
  end.

(* the loop "for i in range(r): if t > s: R[0] = -1; return / elif t == s: R[..] = i; ... break / t = shift(t, -T)" *)
Fixpoint iloop (f : op) (s : N) (cnt i : nat) (x : N * Z) : tres :=
  match cnt with
  | O => TEnd
  | S c => if (s <? fst x)%N then TGreater else if (fst x =? s)%N then TBack i (snd x) else
           match f x with None => TUndef | Some y => iloop f s c (S i) y end
  end.
(* apply the operations pre to (s, 1) and run the loop *)
Definition istart (T : nat) (s : N) (r : nat) (pre : list op) : tres :=
  match run_ops pre (s, 1) with None => TUndef | Some x => iloop (T_ T) s r 0 x end.

(* R[0], then the counts R[1..], then the signs; a failing check leaves R[0] = -1 *)

(* checkstate.pyx:174-222 CheckState_T_P, 300-343 T_PZ, 346-389 T_Z.  quick is the check against one reflection or
   inversion for both quantum numbers; r0 the initial value of r (0 in T_P, L in the others) *)
Definition check_T_one (quick : Z -> N -> option Z) (pre : list op) (r0 : nat) (kblock T : nat) (s : N) : option (list Z) :=
  match quick 1 s, quick (-1) s with
  | None, _ | _, None => None
  | Some a, Some b =>
    if ((a <? 0) && (b <? 0))%bool then Some [-1; -1; 1]
    else
      let second (r0' : Z) (r : nat) :=
        match istart T s r pre with
        | TUndef => None
        | TGreater => Some [-1; -1; 1]
        | TBack i sign => Some [r0'; Z.of_nat i; sign]
        | TEnd => Some [r0'; -1; 1]
        end in
      match tloop (T_ T) s (L / T) 1 (s, 1) with
      | TUndef => None
      | TGreater => Some [-1; -1; 1]
      | TBack i sign => if k_ok kblock T i sign then second (Z.of_nat i) i else Some [-1; -1; 1]
      | TEnd => second (-1) r0
      end
  end.
Definition check_T_P : nat -> nat -> N -> option (list Z) := check_T_one check_P [P_] 0.
Definition check_T_PZ : nat -> nat -> N -> option (list Z) := check_T_one check_PZ [Z_; P_] L.
Definition check_T_Z : nat -> nat -> N -> option (list Z) := check_T_one check_Z [Z_] L.

(* checkstate.pyx:392-433 CheckState_T_ZA, 436-477 T_ZB: no signs, R has two entries *)
Definition check_T_sub (quick : Z -> N -> option Z) (pre : list op) (kblock T : nat) (s : N) : option (list Z) :=
  match quick 1 s, quick (-1) s with
  | None, _ | _, None => None
  | Some a, Some b =>
    if ((a <? 0) && (b <? 0))%bool then Some [-1; -1]
    else
      let second (r0' : Z) (r : nat) :=
        match istart T s r pre with
        | TUndef => None
        | TGreater => Some [-1; -1]
        | TBack i _ => Some [r0'; Z.of_nat i]
        | TEnd => Some [r0'; -1]
        end in
      match tloop (T_ T) s (L / T) 1 (s, 1) with
      | TUndef => None
      | TGreater => Some [-1; -1]
      | TBack i sign => if k_ok_nosign kblock T i sign then second (Z.of_nat i) i else Some [-1; -1]
      | TEnd => second (-1) L
      end
  end.
Definition check_T_ZA : nat -> nat -> N -> option (list Z) := check_T_sub check_ZA [ZA_].
Definition check_T_ZB : nat -> nat -> N -> option (list Z) := check_T_sub check_ZB [ZB_].

(* checkstate.pyx:225-297 CheckState_T_P_Z, 480-559 CheckState_T_ZA_ZB: four quick checks and three second loops.  The
   entries are R[0], the three counts and the three signs; a later loop that finds a larger state only resets R[0]
   (the entries already written stay, modelled by the list below; callers look at them only if R[0] > 0).  T_ZA_ZB has no
   signs: its R is the first four entries. *)
Definition later (R : list Z) (j : nat) (t : tres) : option (list Z * bool) :=
  match t with
  | TUndef => None
  | TGreater => Some (-1 :: tl R, false)
  | TBack i sign => Some (firstn j R ++ [Z.of_nat i] ++ firstn 2 (skipn (S j) R) ++ [sign] ++ skipn (j + 4) R, true)
  | TEnd => Some (R, true)
  end.
Definition check_T_two (quick : Z -> Z -> N -> option Z) (pre1 pre2 pre12 : list op) (cond : nat -> nat -> nat -> Z -> bool) (kblock T : nat) (s : N) : option (list Z) :=
  let R := [-1; -1; -1; -1; 1; 1; 1] in
  match quick 1 1 s, quick (-1) 1 s, quick 1 (-1) s, quick (-1) (-1) s with
  | Some a, Some b, Some c, Some d =>
    if ((a <? 0) && (b <? 0) && (c <? 0) && (d <? 0))%bool then Some R
    else
      let second (r0' : Z) (r : nat) :=
        match later (r0' :: tl R) 1 (istart T s r pre1) with
        | None => None
        | Some (R1, false) => Some R1
        | Some (R1, true) =>
          match later R1 2 (istart T s r pre2) with
          | None => None
          | Some (R2, false) => Some R2
          | Some (R2, true) => match later R2 3 (istart T s r pre12) with None => None | Some (R3, _) => Some R3 end
          end
        end in
      match tloop (T_ T) s (L / T) 1 (s, 1) with
      | TUndef => None
      | TGreater => Some R
      | TBack i sign => if cond kblock T i sign then second (Z.of_nat i) i else Some R
      | TEnd => second (-1) L
      end
  | _, _, _, _ => None
  end.
Definition check_T_P_Z : nat -> nat -> N -> option (list Z) := check_T_two check_P_Z [P_] [Z_] [Z_; P_] k_ok.
Definition check_T_ZA_ZB : nat -> nat -> N -> option (list Z) := check_T_two check_ZA_ZB [ZA_] [ZB_] [Z_] k_ok_nosign.

(* ---- reference states ---- *)
(* refstate.pyx:26-42 RefState_P, 103-116 Z, 120-136 ZA, 139-154 ZB: (reference state, sign, R) *)
Definition ref_one (f : op) (s : N) : option (N * Z * list nat) :=
  match run_ops [f] (s, 1) with
  | None => None
  | Some (t, sign) => Some (if (s <? t)%N then (t, sign, [1%nat]) else (s, 1, [0%nat]))
  end.
Definition ref_P : N -> option (N * Z * list nat) := ref_one P_.
Definition ref_Z : N -> option (N * Z * list nat) := ref_one Z_.
Definition ref_ZA : N -> option (N * Z * list nat) := ref_one ZA_.
Definition ref_ZB : N -> option (N * Z * list nat) := ref_one ZB_.
(* refstate.pyx:48-62 RefState_PZ: sign[0] stays 1 *)
Definition ref_PZ (s : N) : option (N * Z * list nat) :=
  match run_ops [P_; Z_] (s, 1) with
  | None => None
  | Some (t, sign) => Some (if (s <? t)%N then (t, 1, [1%nat]) else (s, 1, [0%nat]))
  end.
(* one more candidate: the state reached by pre, labelled by R *)
Definition better (pre : list op) (R : list nat) (s : N) (best : option (N * Z * list nat)) : option (N * Z * list nat) :=
  match best, run_ops pre (s, 1) with
  | Some (r, sg, Rb), Some (t, sign) => Some (if (r <? t)%N then (t, sign, R) else (r, sg, Rb))
  | _, _ => None
  end.
(* refstate.pyx:69-106 RefState_P_Z, 157-192 RefState_ZA_ZB *)
Definition ref_P_Z (s : N) : option (N * Z * list nat) :=
  better [P_; Z_] [1; 1]%nat s (better [Z_] [0; 1]%nat s (better [P_] [1; 0]%nat s (Some (s, 1, [0; 0]%nat)))).
Definition ref_ZA_ZB (s : N) : option (N * Z * list nat) :=
  better [Z_] [1; 1]%nat s (better [ZB_] [0; 1]%nat s (better [ZA_] [1; 0]%nat s (Some (s, 1, [0; 0]%nat)))).

(* the loop "for i in range(1, L/T+1): t = shift(t, -T); if t > r: sign[0] = current_sign; r = t; l = i; lab" *)
Fixpoint rloop (f : op) (lab : list nat) (cnt i : nat) (x : N * Z) (best : N * Z * list nat) : option (N * Z * list nat) :=
  match cnt with
  | O => Some best
  | S c => match f x with
           | None => None
           | Some (t, sign) => rloop f lab c (S i) (t, sign) (if (fst (fst best) <? t)%N then (t, sign, i :: lab) else best)
           end
  end.
Definition rstage (T : nat) (s : N) (pre : list op) (lab : list nat) (best : option (N * Z * list nat)) : option (N * Z * list nat) :=
  match best, run_ops pre (s, 1) with
  | Some b, Some x => rloop (T_ T) lab (L / T) 1 x b
  | _, _ => None
  end.
(* refstate.pyx:196-216 RefState_T (its callers set sign to 1 before the call), 222-258 T_Z, 262-293 T_ZA, 296-327 T_ZB,
   330-375 T_ZA_ZB, 379-410 T_P, 425-456 T_PZ, 470-519 T_P_Z *)
Definition ref_T (T : nat) (s : N) := rstage T s [] [] (Some (s, 1, [0%nat])).
Definition ref_T_Z (T : nat) (s : N) := rstage T s [Z_] [1%nat] (rstage T s [] [0%nat] (Some (s, 1, [0; 0]%nat))).
Definition ref_T_ZA (T : nat) (s : N) := rstage T s [ZA_] [1%nat] (rstage T s [] [0%nat] (Some (s, 1, [0; 0]%nat))).
Definition ref_T_ZB (T : nat) (s : N) := rstage T s [ZB_] [1%nat] (rstage T s [] [0%nat] (Some (s, 1, [0; 0]%nat))).
Definition ref_T_P (T : nat) (s : N) := rstage T s [P_] [1%nat] (rstage T s [] [0%nat] (Some (s, 1, [0; 0]%nat))).
Definition ref_T_PZ (T : nat) (s : N) := rstage T s [P_; Z_] [1%nat] (rstage T s [] [0%nat] (Some (s, 1, [0; 0]%nat))).
Definition ref_T_ZA_ZB (T : nat) (s : N) :=
  rstage T s [Z_] [1; 1]%nat (rstage T s [ZB_] [0; 1]%nat (rstage T s [ZA_] [1; 0]%nat (rstage T s [] [0; 0]%nat (Some (s, 1, [0; 0; 0]%nat))))).
Definition ref_T_P_Z (T : nat) (s : N) :=
  rstage T s [P_; Z_] [1; 1]%nat (rstage T s [Z_] [0; 1]%nat (rstage T s [P_] [1; 0]%nat (rstage T s [] [0; 0]%nat (Some (s, 1, [0; 0; 0]%nat))))).

(* ---- the tests of basis_templates.pyx ---- *)
(* "1 + q*cos(m*k) == 0" with q = 1 or -1 and k = 2 pi kblock a / L: cos is -1 or 1 exactly when the angle is an odd or
   an even multiple of pi.  (Exact arithmetic; the code compares doubles.) *)
Definition minus_one (q : Z) (kblock a : nat) (m : Z) : bool :=
  let n := Z.of_nat kblock * Z.of_nat a * m in
  if 0 <? q then (2 * n - Z.of_nat L) mod (2 * Z.of_nat L) =? 0 else n mod Z.of_nat L =? 0.
(* basis_templates.pyx:495-515 make_t_z: the period that is stored, or nothing *)
Definition keep_T_Z (zblock : Z) (kblock a : nat) (s : N) : option (option Z) :=
  match check_T_Z kblock a s with
  | Some [r; mz; sign] => let r := if (negb (mz =? -1) && minus_one (sign * zblock) kblock a mz)%bool then -1 else r in Some (if 0 <? r then Some r else None)
  | _ => None
  end.
(* basis_templates.pyx:383-398 make_t_zA, 546-560 make_t_zB *)
Definition keep_T_sub (check : nat -> nat -> N -> option (list Z)) (z : Z) (kblock a : nat) (s : N) : option (option Z) :=
  match check kblock a s with
  | Some [r; m] => let r := if ((0 <? r) && negb (m =? -1) && minus_one z kblock a m)%bool then -1 else r in Some (if 0 <? r then Some r else None)
  | _ => None
  end.
(* basis_templates.pyx:426-462 make_t_zA_zB *)
Definition keep_T_ZA_ZB (zA zB : Z) (kblock a : nat) (s : N) : option (option Z) :=
  match check_T_ZA_ZB kblock a s with
  | Some (r :: mzA :: mzB :: mz :: _) =>
    Some (if 0 <? r then
            if ((mzA =? -1) && (mzB =? -1) && (mz =? -1))%bool then Some r
            else if (negb (mzA =? -1) && (mzB =? -1) && (mz =? -1))%bool then (if minus_one zA kblock a mzA then None else Some r)
            else if ((mzA =? -1) && negb (mzB =? -1) && (mz =? -1))%bool then (if minus_one zB kblock a mzB then None else Some r)
            else if ((mzA =? -1) && (mzB =? -1) && negb (mz =? -1))%bool then (if minus_one (zA * zB) kblock a mz then None else Some r)
            else None
          else None)
  | _ => None
  end.
End Chain.
