(* Model of the particle-sector successor functions. *)
From Verif Require Import AuxN.
Local Open Scope N_scope.

(* unsigned negation 0-x and subtraction on w bits *)
Definition neg_w (w x : N) : N := (2 ^ w - x mod 2 ^ w) mod 2 ^ w.
Definition dec_w (w x : N) : N := (x + 2 ^ w - 1) mod 2 ^ w.

(* hcb_basis_core.h:122-126 next_state_pcon (identical code: spinful_fermion_basis_core.h:62-66,
   basis_1d/_basis_1d_core/sources/hcp_next_state.pyx:7-14, spf_next_state.pyx:3-10;
   spinless_fermion_basis_core inherits it); w is the width of the state type:
     if(s==0){return s;}
     I t = (s | (s - 1)) + 1;
     return t | ((((t & (0-t)) / (s & (0-s))) >> 1) - 1);  *)
Definition next_state_pcon (w s : N) : N :=
  if s =? 0 then s
  else
    let t := (N.lor s (s - 1) + 1) mod 2 ^ w in
    N.lor t (dec_w w (N.shiftr (N.land t (neg_w w t) / N.land s (neg_w w s)) 1)).

(* hcb_core.pyx:60-61 get_s0_pcon: sum(1<<i for i in range(Np)) *)
Definition s0_pcon (Np : nat) : N :=
  fold_left (fun acc i => acc + N.shiftl 1 (N.of_nat i)) (seq 0 Np) 0.

(* The loop of make_basis_pcon_sequential (make_general_basis.h:110-134) visits s, next s, next (next s), ...
   for MAX steps; here only the sequence of visited states. *)
Fixpoint visited (next : N -> N) (MAX : nat) (s : N) : list N :=
  match MAX with O => [] | S m => s :: visited next m (next s) end.

(* ---------------- bosons and higher spins ---------------- *)

(* boson_basis_core.h:34-38 : M[0] = 1, M[i] = M[i-1]*sps (no wrap-around: sps^N fits the chosen type) *)
Fixpoint bM (sps : N) (i : nat) : N := match i with O => 1 | S i' => bM sps i' * sps end.

(* boson_basis_core.h:109-117, the loop over j redistributing the particles of sites 0..i;
   j runs from [j] for [cnt] steps *)
Fixpoint boson_refill (sps l n_left : N) (cnt j : nat) (s : N) : N :=
  match cnt with
  | O => s
  | S cnt' =>
      let s := s - (s / bM sps j) mod sps * bM sps j in
      let s := if N.of_nat j <? l then s + (sps - 1) * bM sps j
               else if N.of_nat j =? l then s + n_left * bM sps j else s in
      boson_refill sps l n_left cnt' (S j) s
  end.

(* boson_basis_core.h:97-121, the loop over i; cnt = remaining iterations *)
Fixpoint boson_next_loop (sps : N) (cnt i : nat) (n s : N) : N :=
  match cnt with
  | O => s
  | S cnt' =>
      let b1 := (s / bM sps i) mod sps in
      if 0 <? b1 then
        let n := n + b1 in
        let b2 := (s / bM sps (S i)) mod sps in
        if b2 <? sps - 1 then
          let n := n - 1 in
          let s := s - bM sps i in
          let s := s + bM sps (S i) in
          if 0 <? n then boson_refill sps (n / (sps - 1)) (n mod (sps - 1)) (S i) 0 s
          else s
        else boson_next_loop sps cnt' (S i) n s
      else boson_next_loop sps cnt' (S i) n s
  end.

(* boson_basis_core.h:91-124 next_state_pcon (inherited by higher_spin_basis_core; the 1d version
   boson_next_state.pyx:5-43 has the same loop) *)
Definition boson_next_state_pcon (sps : N) (nsites : nat) (r : N) : N :=
  if r =? 0 then r else boson_next_loop sps (nsites - 1) 0 0 r.

(* boson_core.pyx:92-97 get_s0_pcon (also higher_spin_core.pyx:90-95) *)
Definition boson_s0_pcon (sps : N) (Np : N) : N :=
  let l := Np / (sps - 1) in
  fold_left (fun acc i => acc + (sps - 1) * sps ^ N.of_nat i) (seq 0 (N.to_nat l)) 0
  + (Np mod (sps - 1)) * sps ^ l.

(* ---------------- spinful fermions ---------------- *)
From Verif Require Import M_bitcount.

(* spinful_fermion_basis_core.h:42-45 split_state: right = down spins = low N bits, left = up spins *)
Definition spf_right (bytes N_sys s : N) : N :=
  N.land (N.shiftr (all_ones bytes) (bits_of bytes - N_sys)) s.
Definition spf_left (N_sys s : N) : N := N.shiftr s N_sys.

(* spinful_fermion_basis_core.h:47-56 get_right_min_max; None: undefined shift inside bit_count *)
Definition spf_right_min_max (bytes N_sys s : N) : option (N * N) :=
  match bit_count bytes s N_sys with
  | None => None
  | Some n =>
      if n =? 0 then Some (0, 0)
      else let mn := N.shiftr (all_ones bytes) (bits_of bytes - n) in
           Some (mn, N.shiftl mn (N_sys - n) mod 2 ^ bits_of bytes)
  end.

(* spinful_fermion_basis_core.h:58-60 comb_state *)
Definition spf_comb (bytes N_sys l r : N) : N := (N.shiftl l N_sys + r) mod 2 ^ bits_of bytes.

(* spinful_fermion_basis_core.h:68-87 next_state_pcon *)
Definition spf_next_state_pcon (bytes N_sys s : N) : option N :=
  let s_left := spf_left N_sys s in
  let s_right := spf_right bytes N_sys s in
  match spf_right_min_max bytes N_sys s_right with
  | None => None
  | Some (min_right, max_right) =>
      if s_right <? max_right
      then Some (spf_comb bytes N_sys s_left (next_state_pcon (bits_of bytes) s_right))
      else Some (spf_comb bytes N_sys (next_state_pcon (bits_of bytes) s_left) min_right)
  end.

(* spinful_fermion_core.pyx:61-64 get_s0_pcon, Np = (Nup, Ndown) *)
Definition spf_s0_pcon (N_sys Nup Ndown : nat) : N :=
  s0_pcon Ndown + N.shiftl (s0_pcon Nup) (N.of_nat N_sys).
