(* Model of the bit operations of the one-dimensional bases:
   /repo/quspin/basis/basis_1d/_basis_1d_core/sources/ hcp_bitops.pyx, boson_bitops.pyx, spf_bitops.pyx, bitcount.h,
   and of the parameters the Python classes hand to them (spin.py, boson.py, fermion.py in /repo/quspin/basis/basis_1d/).
   Every operation takes the state and the sign that the caller passes by reference (NP_INT8_t * sign) and returns both.
   None stands for undefined C behaviour: a shift count that is negative or not below the width, or a negative index. *)
From Verif Require Import AuxN M_bitcount.
Local Open Scope N_scope.

(* the three instances of basis_type: uint32, uint64, Python integers *)
Inductive btype := U32 | U64 | PyInt.
(* unsigned arithmetic wraps around; Python integers do not *)
Definition wrap (w : btype) (x : N) : N := match w with U32 => x mod 2 ^ 32 | U64 => x mod 2 ^ 64 | PyInt => x end.
(* C shifts are defined for counts below the width *)
Definition shift_ok (w : btype) (k : N) : bool := match w with U32 => k <? 32 | U64 => k <? 64 | PyInt => true end.

(* gmpy2.popcount *)
Fixpoint pos_pop (p : positive) : N := match p with xH => 1 | xO q => pos_pop q | xI q => 1 + pos_pop q end.
Definition popcount (x : N) : N := match x with N0 => 0 | Npos p => pos_pop p end.

(* hcp_bitops.pyx:11-17 (= spf_bitops.pyx:9-15) bit_count; bitcount.h:7-27: bitcount_32_C and bitcount_64_C mask with
   0x7FF..F >> (width - 1 - l) and then count, like bits_info.h: M_bitcount.bit_count (the GNU builtin and the
   portable branch return the same number) *)
Definition bcount (w : btype) (I l : N) : option N :=
  match w with U32 => bit_count 4 I l | U64 => bit_count 8 I l | PyInt => Some (popcount (N.land I (N.shiftl 1 l - 1))) end.

(* spin.py:209-212, boson.py:205-208, fermion.py:117-120, 359-364 : the masks, Imax = (1 << L) - 1 and
   stag_A/B = sum(1 << i for i in range(0 or 1, L, 2)); r = 0 or 1 *)
Definition Imax (L : nat) : N := N.shiftl 1 (N.of_nat L) - 1.
Definition stag (r L : nat) : N := fold_left (fun acc i => acc + N.shiftl 1 (N.of_nat i)) (filter (fun i => Nat.eqb (i mod 2) r) (seq 0 L)) 0.

Definition both_odd (a b : N) : bool := (N.odd a && N.odd b)%bool.

(* hcp_bitops.pyx:19-32 shift and spf_bitops.pyx:18-31 shift_single (fermi = true there).  With fermi = pars[0] = 0 the
   counts are computed but do not enter the sign. *)
Definition hcp_shift (w : btype) (fermi : bool) (L : nat) (x : Z) (Is : N * Z) : option (N * Z) :=
  let (I, sg) := Is in
  let l := Z.rem (x + Z.of_nat L) (Z.of_nat L) in
  if (l <? 0)%Z then None
  else
    let l := Z.to_N l in
    let r := N.of_nat L - l in
    if (shift_ok w r && shift_ok w l)%bool then
      let I1 := N.shiftr I r in
      let I2 := N.land (wrap w (N.shiftl I l)) (Imax L) in
      if fermi then
        match bcount w I1 (N.of_nat L), bcount w I2 (N.of_nat L) with
        | Some N1, Some N2 => Some (N.lor I2 I1, sg * (if both_odd N1 N2 then -1 else 1))%Z
        | _, _ => None
        end
      else Some (N.lor I2 I1, sg * 1)%Z
    else None.

(* hcp_bitops.pyx:47-65 fliplr and spf_bitops.pyx:57-76 fliplr_single: the while loop ... *)
Fixpoint flip_loop (w : btype) (fuel : nat) (I out : N) (s : Z) : option (N * Z) :=
  match fuel with
  | O => None
  | S f => if I =? 0 then Some (out, s) else flip_loop w f (N.shiftr I 1) (N.lxor (wrap w (N.shiftl out 1)) (N.land I 1)) (s - 1)%Z
  end.
(* ... and the function; N & 2 decides the sign *)
Definition hcp_fliplr (w : btype) (fermi : bool) (L : nat) (Is : N * Z) : option (N * Z) :=
  let (I, sg) := Is in
  let sg' := if fermi then match bcount w I (N.of_nat L) with Some c => Some (sg * (if N.testbit c 1 then -1 else 1))%Z | None => None end else Some (sg * 1)%Z in
  match sg' with
  | None => None
  | Some sg' =>
    match flip_loop w (S (N.size_nat I)) (N.shiftr I 1) (N.lxor 0 (N.land I 1)) (Z.of_nat L - 1) with
    | None => None
    | Some (out, s) => if ((s <? 0)%Z || negb (shift_ok w (Z.to_N s)))%bool then None else Some (wrap w (N.shiftl out (Z.to_N s)), sg')
    end
  end.

(* hcp_bitops.pyx:87-94, 110-112, 127-129 flip_all, flip_sublat_A, flip_sublat_B *)
Definition hcp_flip_all (L : nat) (Is : N * Z) : option (N * Z) := Some (N.lxor (fst Is) (Imax L), snd Is).
Definition hcp_flip_A (L : nat) (Is : N * Z) : option (N * Z) := Some (N.lxor (fst Is) (stag 0 L), snd Is).
Definition hcp_flip_B (L : nat) (Is : N * Z) : option (N * Z) := Some (N.lxor (fst Is) (stag 1 L), snd Is).

(* boson_bitops.pyx: the loops "for i in range(length): v += body(i, s % sps); s //= sps" *)
Fixpoint bloop (w : btype) (sps : N) (body : nat -> N -> option N) (cnt i : nat) (v s : N) : option N :=
  match cnt with
  | O => Some v
  | S c => match body i (s mod sps) with None => None | Some inc => bloop w sps body c (S i) (wrap w (v + inc)) (s / sps) end
  end.
Definition brun (w : btype) (sps : N) (L : nat) (body : nat -> N -> option N) (Is : N * Z) : option (N * Z) :=
  match bloop w sps body L 0 0 (fst Is) with Some v => Some (v, snd Is * 1)%Z | None => None end.
(* M[j] = sps**j (spin.py:226, boson.py:219; M = pars[1:]) *)
Definition Mj (sps : N) (j : nat) : N := sps ^ N.of_nat j.
(* boson_bitops.pyx:8-31 shift *)
Definition boson_shift (w : btype) (sps : N) (L : nat) (x : Z) : N * Z -> option (N * Z) :=
  brun w sps L (fun i d => let j := Z.rem (Z.of_nat i + x + Z.of_nat L) (Z.of_nat L) in
    if (j <? 0)%Z then None else Some (wrap w (d * Mj sps (Z.to_nat j)))).
(* boson_bitops.pyx:45-66 fliplr *)
Definition boson_fliplr (w : btype) (sps : N) (L : nat) : N * Z -> option (N * Z) :=
  brun w sps L (fun i d => Some (wrap w (d * Mj sps (L - 1 - i)))).
(* boson_bitops.pyx:83-104 flip_all *)
Definition boson_flip_all (w : btype) (sps : N) (L : nat) : N * Z -> option (N * Z) :=
  brun w sps L (fun i d => Some (wrap w ((sps - d - 1) * Mj sps i))).
(* boson_bitops.pyx:121-148 flip_sublat_A *)
Definition boson_flip_A (w : btype) (sps : N) (L : nat) : N * Z -> option (N * Z) :=
  brun w sps L (fun i d => if Nat.eqb (i mod 2) 0 then Some (wrap w ((sps - d - 1) * Mj sps i)) else Some (wrap w (d * Mj sps i))).
(* boson_bitops.pyx:164-191 flip_sublat_B *)
Definition boson_flip_B (w : btype) (sps : N) (L : nat) : N * Z -> option (N * Z) :=
  brun w sps L (fun i d => if Nat.eqb (i mod 2) 1 then Some (wrap w ((sps - d - 1) * Mj sps i)) else Some (wrap w (d * Mj sps i))).

(* spf_bitops.pyx:33-38, 79-84 shift and fliplr of spinful states: both halves, the left one first *)
Definition spf_both (w : btype) (L : nat) (f : N * Z -> option (N * Z)) (Is : N * Z) : option (N * Z) :=
  let (I, sg) := Is in
  if shift_ok w (N.of_nat L) then
    let I_right := N.land I (Imax L) in
    let I_left := N.shiftr I (N.of_nat L) in
    match f (I_left, sg) with
    | None => None
    | Some (I_left, sg) =>
      match f (I_right, sg) with
      | None => None
      | Some (I_right, sg) => Some (wrap w (I_right + wrap w (N.shiftl I_left (N.of_nat L))), sg)
      end
    end
  else None.
Definition spf_shift (w : btype) (L : nat) (x : Z) : N * Z -> option (N * Z) := spf_both w L (hcp_shift w true L x).
Definition spf_fliplr (w : btype) (L : nat) : N * Z -> option (N * Z) := spf_both w L (hcp_fliplr w true L).
(* spf_bitops.pyx:99-110 flip_all *)
Definition spf_flip_all (w : btype) (L : nat) (Is : N * Z) : option (N * Z) :=
  let (I, sg) := Is in
  if shift_ok w (N.of_nat L) then
    let I_right := N.land I (Imax L) in
    let I_left := N.shiftr I (N.of_nat L) in
    match bcount w I_left (N.of_nat L), bcount w I_right (N.of_nat L) with
    | Some NL, Some NR => Some (wrap w (I_left + wrap w (N.shiftl I_right (N.of_nat L))), sg * (if both_odd NL NR then -1 else 1))%Z
    | _, _ => None
    end
  else None.

(* the three families of operations that the templates of checkstate.pyx and refstate.pyx are compiled against
   (included by hcp_basis.pyx, boson_basis.pyx, spf_basis.pyx and the *_ops.pyx files) *)
Inductive kind := Hcp (fermi : bool) | Boson (sps : N) | Spf.
Definition op := N * Z -> option (N * Z).
Definition op_shift (w : btype) (k : kind) (L : nat) (x : Z) : op :=
  match k with Hcp f => hcp_shift w f L x | Boson b => boson_shift w b L x | Spf => spf_shift w L x end.
Definition op_flip (w : btype) (k : kind) (L : nat) : op :=
  match k with Hcp f => hcp_fliplr w f L | Boson b => boson_fliplr w b L | Spf => spf_fliplr w L end.
Definition op_inv (w : btype) (k : kind) (L : nat) : op :=
  match k with Hcp _ => hcp_flip_all L | Boson b => boson_flip_all w b L | Spf => spf_flip_all w L end.
(* spf_bitops.pyx:126-130: the sublattice flips of spinful states return the state unchanged *)
Definition op_invA (w : btype) (k : kind) (L : nat) : op :=
  match k with Hcp _ => hcp_flip_A L | Boson b => boson_flip_A w b L | Spf => fun Is => Some Is end.
Definition op_invB (w : btype) (k : kind) (L : nat) : op :=
  match k with Hcp _ => hcp_flip_B L | Boson b => boson_flip_B w b L | Spf => fun Is => Some Is end.

(* calling operations one after the other *)
Definition run_ops (fs : list op) (x : N * Z) : option (N * Z) :=
  fold_left (fun y f => match y with Some y => f y | None => None end) fs (Some x).

(* numpy: result_type(min_scalar_type(x), uint32) is the narrowest of uint32, uint64, object that holds x >= 0 *)
Definition word_for (x : N) : btype := if x <? 2 ^ 32 then U32 else if x <? 2 ^ 64 then U64 else PyInt.
(* hcp_basis.pyx:57-61, boson_basis.pyx:57-60: the largest state with np = max(Np) particles *)
Definition s_max (sps : N) (L : nat) (np : N) : N :=
  let l := np / (sps - 1) in
  fold_left (fun acc i => acc + (sps - 1) * sps ^ (N.of_nat L - 1 - N.of_nat i)) (seq 0 (N.to_nat l)) 0
  + (np mod (sps - 1)) * (if N.of_nat L <=? l then 0 else sps ^ (N.of_nat L - l - 1)).
(* hcp_basis.pyx:49-63, boson_basis.pyx:48-62, spf_basis.pyx:48-72 get_basis_type.  np is max(Np), for spinful fermions
   the pair of maxima; sps = 2 for spinful fermions (fermion.py).  The factor sps**(L-l-1) with l = L in Python is 1/sps
   times 0, hence 0. *)
Definition basis_type (k : kind) (L : nat) (np : option (N * N)) : btype :=
  let sps := match k with Boson b => b | _ => 2 end in
  match np with
  | None => word_for (sps ^ N.of_nat L - 1)
  | Some (a, b) => match k with
                   | Spf => word_for (N.shiftl (s_max sps L a) (N.of_nat L) + s_max sps L b)
                   | _ => word_for (s_max sps L a)
                   end
  end.
