(* Model of the orbit traversal of general_basis_core.h
   (/repo/quspin/basis/basis_general/_basis_general_core/source/general_basis_core.h).
   gg and g are C arrays of length nt, modelled as lists; B->map_state(t,depth,phase) multiplies phase by the sign,
   here ms depth t = (image, sign); phases are +1/-1 (P = signed char).  Floating point numbers are reals. *)
From Verif Require Import AuxN SpecC SpecSymm M_benes M_maps.
Local Open Scope nat_scope.

Fixpoint set_nth {X} (l : list X) (i : nat) (v : X) : list X :=
  match l, i with [], _ => [] | _ :: l', O => v :: l' | x :: l', S i' => x :: set_nth l' i' v end.

(* general_basis_core.h:91,115 MAXVALSSUM *)
Definition max_vals_sum (pers : list nat) : nat := fold_left (fun a p => a + (p - 1)) pers 0.
Definition total (gg : list nat) : nat := fold_left Nat.add gg 0.
Definition max_nt : nat := 32.

(* ---- ref_state_core_unrolled, general_basis_core.h:131-198 ---- *)
Record rstate := mkR { r_gg : list nat; r_t : N; r_tp : Z; r_r : N; r_g : list nat; r_ph : Z }.

(* 166-192: inner while loop; depth = c - 1 *)
Fixpoint ref_inner (pers : list nat) (ms : smap) (c : nat) (st : rstate) : rstate :=
  match c with
  | O => st
  | S depth =>
    let st := if (r_r st <? r_t st)%N
              then mkR (r_gg st) (r_t st) (r_tp st) (r_t st) (r_gg st) (r_tp st)
              else st in
    let v := S (nth depth (r_gg st) 0) in
    let change := nth depth pers 0 - 1 <? v in
    let gg := set_nth (r_gg st) depth (if change then 0 else v) in
    let m := ms depth (r_t st) in
    let st := mkR gg (fst m) (r_tp st * snd m)%Z (r_r st) (r_g st) (r_ph st) in
    if change then ref_inner pers ms depth st else st
  end.

(* 153-194: outer while loop *)
Fixpoint ref_outer (fuel : nat) (pers : list nat) (ms : smap) (nt : nat) (st : rstate) : option rstate :=
  match fuel with
  | O => None
  | S f =>
    let status := max_vals_sum pers <=? total (r_gg st) in
    let st' := ref_inner pers ms nt st in
    if status then Some st' else ref_outer f pers ms nt st'
  end.

(* result: representative, g, phase; g0 and phase0 are what the caller left in g[] and phase *)
Definition ref_state (fuel : nat) (pers : list nat) (ms : smap) (nt : nat) (s : N) (g0 : list nat) (phase0 : Z)
  : option (N * list nat * Z) :=
  if (nt =? 0) || (max_nt <? nt) then Some (s, map (fun _ => 0) g0, phase0)
  else match ref_outer fuel pers ms nt (mkR (repeat 0 nt) s 1 s g0 phase0) with
       | Some st => Some (r_r st, r_g st, r_ph st)
       | None => None
       end.

(* ---- check_state_core_unrolled, general_basis_core.h:69-128 ---- *)
Record cstate := mkC { c_gg : list nat; c_t : N; c_ph : Z; c_k : R; c_norm : R }.
Inductive cres := C_nan | C_st (st : cstate).

Local Open Scope R_scope.
(* 85-89 ks[depth] *)
Definition ks (qs : list Z) (pers : list nat) (d : nat) : R := (2 * PI * IZR (nth d qs 0%Z)) / INR (nth d pers 0%nat).

(* 102-122: inner while loop *)
Fixpoint chk_inner (pers : list nat) (qs : list Z) (ms : smap) (nt : nat) (s : N) (c : nat) (st : cstate) : cres :=
  match c with
  | O => C_st st
  | S depth =>
    let v := S (nth depth (c_gg st) 0%nat) in
    let change := (nth depth pers 0%nat - 1 <? v)%nat in
    let gg := set_nth (c_gg st) depth (if change then 0%nat else v) in
    let norm := if ((depth =? nt - 1)%nat && (c_t st =? s)%N)%bool
                then c_norm st + IZR (c_ph st) * cos (c_k st) else c_norm st in
    let m := ms depth (c_t st) in
    let st := mkC gg (fst m) (c_ph st * snd m)%Z (c_k st + ks qs pers depth) norm in
    if (s <? c_t st)%N then C_nan
    else if change then chk_inner pers qs ms nt s depth st else C_st st
  end.

(* 91-124: outer while loop; None: out of fuel *)
Fixpoint chk_outer (fuel : nat) (pers : list nat) (qs : list Z) (ms : smap) (nt : nat) (s : N) (st : cstate) : option cres :=
  match fuel with
  | O => None
  | S f =>
    let status := (max_vals_sum pers <=? total (c_gg st))%nat in
    match chk_inner pers qs ms nt s nt st with
    | C_nan => Some C_nan
    | C_st st' => if status then Some (C_st st') else chk_outer f pers qs ms nt s st'
    end
  end.

(* the returned double: NaN or a number *)
Inductive chk_result := NaN | Norm (x : R).
Definition check_state (fuel : nat) (pers : list nat) (qs : list Z) (ms : smap) (nt : nat) (s : N) : option chk_result :=
  if ((nt =? 0) || (max_nt <? nt))%nat then Some (Norm 1)
  else match chk_outer fuel pers qs ms nt s (mkC (repeat 0%nat nt) s 1 0 0) with
       | Some C_nan => Some NaN
       | Some (C_st st) => Some (Norm (c_norm st))
       | None => None
       end.

(* ---- the map_state of the concrete bases as signed maps ---- *)
Local Open Scope N_scope.
(* hcb_basis_core.h:79-84 (spin-1/2, hard-core bosons): the sign is never touched; a network that could not be
   generated would be undefined behaviour, here the state 0 *)
Definition hcb_smap (ld n : nat) (mlist : list (list Z)) : smap :=
  fun d s => (match hcb_map_state ld n (nth d mlist []) s with Some t => t | None => 0 end, 1%Z).
(* boson_basis_core.h:46-53 map_state (bosons, higher spins) *)
Definition boson_smap (sps : N) (n : nat) (mlist : list (list Z)) : smap :=
  fun d s => (boson_map_bits sps n (nth d mlist []) s, 1%Z).

(* base_general.py:130-164: what the constructor checks about the maps it is given: each one has as many entries as there
   are sites and process_map accepts it and returns the period stored for it *)
Definition accepted (n : nat) (mlist : list (list Z)) (pers : list nat) : Prop :=
  length mlist = length pers /\
  forall d, (d < length pers)%nat -> length (nth d mlist []) = n /\
    exists fuel, process_map fuel (nth d mlist []) = PM_period (nth d pers 0%nat).
