(* Model of the conversions between states, python integers and printed strings:
   /repo/quspin/basis/basis_general/_basis_general_core/source/general_basis_core.pxd:66-95, general_basis_utils.pyx:29-210, 330-400 (get_basis_type),
   /repo/quspin/basis/basis_general/base_general.py:208-236, /repo/quspin/basis/basis_1d/base_1d.py:523-560.
   A fixed-width integer is a number below 2^w; a left shift drops the bits above w (for the boost types; for uint32 and uint64 a shift by w or more is
   undefined in C++ and the model only says what the boost types do). *)
From Verif Require Import AuxN.
Local Open Scope N_scope.

(* general_basis_core.pxd:66-73, 75-84: val ^= (python_val & 1) << i; i += 1; python_val >>= 1, until python_val is 0; the fuel is the number of turns, None when
   it does not suffice *)
Fixpoint to_basis_loop (w : N) (fuel : nat) (v : N) (i val : N) : option N :=
  if v =? 0 then Some val else
  match fuel with
  | O => None
  | S f => to_basis_loop w f (N.shiftr v 1) (i + 1) (N.lxor val (N.shiftl (N.land v 1) i mod 2 ^ w))
  end.
Definition python_to_basis (w : N) (fuel : nat) (v : N) : option N := to_basis_loop w fuel v 0 0.
(* general_basis_core.pxd:86-95: the same with a python integer as the accumulator *)
Fixpoint to_python_loop (fuel : nat) (val i acc : N) : option N :=
  if val =? 0 then Some acc else
  match fuel with
  | O => None
  | S f => to_python_loop f (N.shiftr val 1) (i + 1) (N.lxor acc (N.shiftl (N.land val 1) i))
  end.
Definition basis_to_python (fuel : nat) (v : N) : option N := to_python_loop fuel v 0 0.

(* while(v > 0): v >>= 1; nbits += 1 *)
Fixpoint nbits_loop (fuel : nat) (v nb : N) : option N :=
  if v =? 0 then Some nb else match fuel with O => None | S f => nbits_loop f (N.shiftr v 1) (nb + 1) end.

Inductive dtype := U (w : N) | Obj.
Inductive conv := Cok (d : dtype) (v : N) | C_value_error | C_overflow | C_fuel.
(* general_basis_utils.pyx:113-131: the smallest type *)
Definition smallest (nb : N) : dtype :=
  if nb <=? 32 then U 32 else if nb <=? 64 then U 64 else if nb <=? 256 then U 256 else if nb <=? 1024 then U 1024 else if nb <=? 4096 then U 4096
  else if nb <=? 16384 then U 16384 else Obj.
Definition known (w : N) : bool := (w =? 32) || (w =? 64) || (w =? 256) || (w =? 1024) || (w =? 4096) || (w =? 16384).
(* general_basis_utils.pyx:79-168 python_int_to_basis_int *)
Definition python_int_to_basis_int (fuel : nat) (v : Z) (dt : option dtype) : conv :=
  if (v <? 0)%Z then C_value_error else
  match nbits_loop fuel (Z.to_N v) 0 with
  | None => C_fuel
  | Some nb =>
    match (match dt with None => smallest nb | Some d => d end) with
    | Obj => Cok Obj (Z.to_N v)
    | U w => if known w then
               if w <? nb then C_value_error
               else match python_to_basis w fuel (Z.to_N v) with Some x => Cok (U w) x | None => C_fuel end
             else C_value_error
    end
  end.

(* general_basis_utils.pyx:172-182 search_array; 184-210 _get_basis_index *)
Fixpoint search_array (basis : list N) (val : N) (i : nat) : option nat :=
  match basis with [] => None | b :: basis' => if b =? val then Some i else search_array basis' val (S i) end.
Inductive found := F_at (i : nat) | F_value_error | F_fuel.
Definition get_basis_index (w : N) (fuel : nat) (basis : list N) (v : N) : found :=
  match python_to_basis w fuel v with
  | None => F_fuel
  | Some x => match search_array basis x 0 with Some i => F_at i | None => F_value_error end
  end.

(* general_basis_utils.pyx:348-400 get_basis_type *)
(* (sps-1)*sps**(N-1-i) summed for i < l *)
Fixpoint left_sum (sps n : N) (l : nat) : N :=
  match l with O => 0 | S l' => left_sum sps n l' + (sps - 1) * sps ^ (n - 1 - N.of_nat l') end.
(* python: the float nearest to an integer (ties to even), as an integer; None is OverflowError *)
Definition to_double (x : N) : option N :=
  let nb := N.size x in
  if nb <=? 53 then Some x else
  let s := nb - 53 in
  let q := x / 2 ^ s in let r := x mod 2 ^ s in let half := 2 ^ (s - 1) in
  let q' := if (half <? r) || ((half =? r) && N.odd q) then q + 1 else q in
  if 2 ^ 1024 <=? q' * 2 ^ s then None else Some (q' * 2 ^ s).
Inductive btype := Bt (w : N) | B_value_error | B_overflow | B_fuel.
Inductive npart := NP_none | NP_int (k : N) | NP_list (l : list N).
Definition max_list (l : list N) : option N := match l with [] => None | x :: l' => Some (fold_left N.max l' x) end.
(* the largest representative: s_max.  When N-l-1 is negative sps**(N-l-1) is a float, so that 0*sps**(N-l-1) is 0.0 and s_max is rounded to a float *)
Definition s_max (sps n : N) (np : option N) : option N :=
  match np with
  | None => Some (sps ^ n - 1)
  | Some k =>
    let l := k / (sps - 1) in
    let s := left_sum sps n (N.to_nat l) in
    if l + 1 <=? n then Some (s + (k mod (sps - 1)) * sps ^ (n - l - 1)) else to_double s
  end.
Definition width_of (nb : N) : btype :=
  if nb <=? 32 then Bt 32 else if nb <=? 64 then Bt 64 else if nb <=? 256 then Bt 256 else if nb <=? 1024 then Bt 1024 else if nb <=? 4096 then Bt 4096
  else if nb <=? 16384 then Bt 16384 else B_value_error.
Definition get_basis_type (fuel : nat) (n : N) (np : npart) (sps : N) : btype :=
  match (match np with NP_none => Some None | NP_int k => Some (Some k) | NP_list l => match max_list l with None => None | Some k => Some (Some k) end end) with
  | None => B_value_error
  | Some k =>
    if (match k with Some k => n * (sps - 1) <? k | None => false end) then B_value_error
    else if 2 <? sps then
      match s_max sps n k with
      | None => B_overflow
      | Some s => match nbits_loop fuel s 0 with None => B_fuel | Some nb => width_of nb end
      end
    else if sps =? 2 then width_of n else B_value_error
  end.

(* ---- printed states ---- *)
(* the characters that occur: a decimal digit, a space, a dot, | and > *)
Inductive ch := Dg (d : N) | Sp | Dot | Bar | Ket.
(* the decimal digits of a number, most significant first *)
Fixpoint dec (fuel : nat) (v : N) : list N :=
  match fuel with O => [] | S f => if v <? 10 then [v] else dec f (v / 10) ++ [v mod 10] end.
Definition decimal (v : N) : list N := dec (S (N.to_nat (N.size v))) v.
(* "{:<n>d}".format(v): right aligned in a field of n characters *)
Definition format_d (n : nat) (v : N) : list ch := let s := map Dg (decimal v) in repeat Sp (n - length s) ++ s.
Fixpoint join (sep : list ch) (l : list (list ch)) : list ch := match l with [] => [] | [x] => x | x :: l' => x ++ sep ++ join sep l' end.
(* base_general.py:208-227, base_1d.py:523-543 (state//int(sps**(N-i-1))%sps for the sites i in a range) *)
Definition bits_of (sps : N) (n : nat) (s : N) (sites : list nat) : list N := map (fun i => (s / sps ^ N.of_nat (n - i - 1)) mod sps) sites.
Definition int_to_state (sps : N) (n : nat) (s : N) (bracket : bool) : list ch :=
  let n_space := length (decimal sps) in
  let s_str :=
    if (n <=? 64)%nat then join [Sp] (map (format_d n_space) (bits_of sps n s (seq 0 n)))
    else join [Sp] (map (format_d n_space) (bits_of sps n s (seq 0 32)) ++ [[Dot; Dot; Dot]] ++ map (format_d n_space) (bits_of sps n s (seq (n - 32) 32))) in
  if bracket then [Bar] ++ s_str ++ [Ket] else filter (fun c => match c with Sp => false | _ => true end) s_str.
(* python int(s, base) on these characters: only digits below the base, at least one; spaces around the number are dropped; None is ValueError *)
Fixpoint drop_sp (s : list ch) : list ch := match s with Sp :: s' => drop_sp s' | _ => s end.
Fixpoint digits_of (base : N) (s : list ch) (acc : N) : option N :=
  match s with [] => Some acc | Dg d :: s' => if d <? base then digits_of base s' (acc * base + d) else None | _ => None end.
Definition py_int (base : N) (s : list ch) : option N :=
  let t := rev (drop_sp (rev (drop_sp s))) in
  match t with [] => None | _ => if (2 <=? base) && (base <=? 36) then digits_of base t 0 else None end.
(* base_general.py:229-236: state_to_int(str) looks the parsed number up in the basis and returns the entry *)
Inductive back := Bk (v : N) | Bk_value_error | Bk_fuel.
Definition state_to_int (w : N) (fuel : nat) (sps : N) (basis : list N) (s : list ch) : back :=
  match py_int sps s with
  | None => Bk_value_error
  | Some v => match get_basis_index w fuel basis v with F_at i => match basis_to_python fuel (nth i basis 0) with Some x => Bk x | None => Bk_fuel end | F_value_error => Bk_value_error | F_fuel => Bk_fuel end
  end.
(* base_1d.py:545-560: first int(s) == s, which for a string parses it in base 10 (ValueError when it cannot) and is never equal to the string; the basis is searched
   as an array of numbers *)
Definition state_to_int_1d (sps : N) (basis : list N) (s : list ch) : back :=
  match py_int 10 s with
  | None => Bk_value_error
  | Some _ => match py_int sps s with
              | None => Bk_value_error
              | Some v => match search_array basis v 0 with Some i => Bk (nth i basis 0) | None => Bk_value_error end
              end
  end.
