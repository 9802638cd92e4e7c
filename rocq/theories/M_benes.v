(* Model of the Benes network used to permute the bits of a state.
   /repo/quspin/basis/basis_general/_basis_general_core/source/benes_perm.h
   An index array ta_index<I> is a total function; no_index (-1) is None.  Array bounds are not modelled,
   but reading an index array entry that holds no_index and using it as an index is an error (None). *)
From Verif Require Import AuxN.
Local Open Scope N_scope.

Definition arr := N -> option N.
Definition empty_arr : arr := fun _ => None.
Definition upd (a : arr) (i : N) (v : option N) : arr := fun j => if j =? i then v else a j.

(* indices 0 .. bits-1 in loop order *)
Definition iota (bits : nat) : list N := map N.of_nat (seq 0 bits).

(* benes_perm.h:77-89 invert_perm *)
Definition invert_perm (bits : nat) (src : arr) : arr :=
  fold_left (fun tgt i => match src i with Some v => upd tgt v (Some i) | None => tgt end) (iota bits) empty_arr.

(* benes_perm.h:92-105 bit_permute_step on a w-bit type *)
Definition bit_permute_step (w x m shift : N) : N :=
  let t := N.land (N.lxor (N.shiftr x shift) x) m in
  let x := N.lxor x t in
  let t := N.shiftl t shift mod 2 ^ w in
  N.lxor x t.

(* benes_perm.h:111-128 bfly: stages ld-1 down to 0; the configuration is a function of the stage *)
Fixpoint bfly (w : N) (ld : nat) (cfg : nat -> N) (x : N) : N :=
  match ld with
  | O => x
  | S k => bfly w k cfg (bit_permute_step w x (cfg k) (2 ^ N.of_nat k))
  end.

(* benes_perm.h:130-147 ibfly: stages 0 up to ld-1 *)
Fixpoint ibfly (w : N) (ld : nat) (cfg : nat -> N) (x : N) : N :=
  match ld with
  | O => x
  | S k => bit_permute_step w (ibfly w k cfg x) (cfg k) (2 ^ N.of_nat k)
  end.

(* benes_perm.h:153-161 exchange_bit_index applied to a[i], a[j] *)
Definition exchange (a : arr) (i j : N) : arr := upd (upd a i (a j)) j (a i).

(* local variables of gen_benes_ex during one stage (benes_perm.h:174-183) *)
Record bstate := mkB {
  b_src : arr; b_isrc : arr; b_tgt : arr; b_itgt : arr;
  b_csrc : N; b_ctgt : N; b_set : N }.

(* benes_perm.h:222-231 and 244-256: the "cross" branch body on one side: swap the entries idx and
   idx^mask and repair the inverse array.  None: entry read as an index holds no_index. *)
Definition cross (a inv : arr) (mask idx : N) : option (arr * arr) :=
  let idx2 := N.lxor idx mask in
  let a' := exchange a idx idx2 in
  match a' idx2 with
  | None => None
  | Some l => let inv1 := upd inv l (Some idx2) in
              Some (a', match a' idx with Some l' => upd inv1 l' (Some idx) | None => inv1 end)
  end.

Definition bit (i : N) : N := N.shiftl 1 i.

(* benes_perm.h:211-263: the do-while loop that follows one chain; fuel bounds the number of rounds *)
Fixpoint walk (fuel : nat) (mask : N) (s : bstate) (src_idx : N) : option bstate :=
  match fuel with
  | O => None
  | S fuel' =>
    let set1 := N.lor (b_set s) (bit src_idx) in
    match b_src s src_idx with
    | None => None
    | Some lab =>
    match b_itgt s lab with
    | None => None
    | Some tgt_idx =>
    match b_tgt s tgt_idx with
    | None => Some (mkB (b_src s) (b_isrc s) (b_tgt s) (b_itgt s) (b_csrc s) (b_ctgt s) set1)
    | Some _ =>
      (* target side *)
      match
        (if N.land (N.lxor src_idx tgt_idx) mask =? 0
         then Some (N.lxor tgt_idx mask, b_tgt s, b_itgt s, b_ctgt s)
         else match cross (b_tgt s) (b_itgt s) mask tgt_idx with
              | None => None
              | Some (t', i') => Some (tgt_idx, t', i', N.lor (b_ctgt s) (bit (N.ldiff tgt_idx mask)))
              end)
      with
      | None => None
      | Some (tgt_idx, tgt, itgt, ctgt) =>
        match tgt tgt_idx with
        | None => Some (mkB (b_src s) (b_isrc s) tgt itgt (b_csrc s) ctgt set1)
        | Some lab2 =>
        match b_isrc s lab2 with
        | None => None
        | Some src_idx =>
          (* source side *)
          match
            (if N.land (N.lxor src_idx tgt_idx) mask =? 0
             then Some (N.lxor src_idx mask, b_src s, b_isrc s, b_csrc s, N.lor set1 (bit src_idx))
             else match cross (b_src s) (b_isrc s) mask src_idx with
                  | None => None
                  | Some (a', i') => Some (src_idx, a', i', N.lor (b_csrc s) (bit (N.ldiff src_idx mask)),
                                           N.lor set1 (bit (N.lxor src_idx mask)))
                  end)
          with
          | None => None
          | Some (src_idx, src, isrc, csrc, set2) =>
            let s' := mkB src isrc tgt itgt csrc ctgt set2 in
            match src src_idx with
            | None => Some s'
            | Some _ => if N.land (bit src_idx) set2 =? 0 then walk fuel' mask s' src_idx else Some s'
            end
          end
        end end
      end
    end end end
  end.

(* benes_perm.h:206-263: body of the aux_idx loop *)
Definition aux_step (bits : nat) (mask : N) (s : bstate) (src_idx : N) : option bstate :=
  if N.land (bit src_idx) (b_set s) =? 0 then
    match b_src s src_idx with
    | None => Some s
    | Some _ => walk (S bits) mask s src_idx
    end
  else Some s.

(* benes_perm.h:204-268: one pass of the main_idx loop *)
Definition main_step (bits : nat) (stage : nat) (so : option bstate) (main_idx : N) : option bstate :=
  match so with
  | None => None
  | Some s =>
    let mask := N.shiftl 1 (N.of_nat stage) in
    if N.land main_idx mask =? 0 then
      match aux_step bits mask s (main_idx + N.shiftl 0 (N.of_nat stage)) with
      | None => None
      | Some s => aux_step bits mask s (main_idx + N.shiftl 1 (N.of_nat stage))
      end
    else Some s
  end.

(* benes_perm.h:197-271: one stage; returns the arrays and the two masks written to cfg[stage] *)
Definition gen_stage (bits : nat) (stage : nat) (src isrc tgt itgt : arr) : option bstate :=
  fold_left (main_step bits stage) (iota bits) (Some (mkB src isrc tgt itgt 0 0 0)).

(* benes_perm.h:197-272 with the stage order of gen_benes (278-287): ld-1 down to 0 *)
Fixpoint gen_stages (bits : nat) (ld : nat) (src isrc tgt itgt : arr) : option ((nat -> N) * (nat -> N)) :=
  match ld with
  | O => Some (fun _ => 0, fun _ => 0)
  | S k =>
    match gen_stage bits k src isrc tgt itgt with
    | None => None
    | Some s =>
      match gen_stages bits k (b_src s) (b_isrc s) (b_tgt s) (b_itgt s) with
      | None => None
      | Some (c1, c2) => Some (fun j => if Nat.eqb j k then b_csrc s else c1 j,
                               fun j => if Nat.eqb j k then b_ctgt s else c2 j)
      end
    end
  end.

(* benes_perm.h:185-196 (initialisation) and 278-287 gen_benes, on a type with 2^ld bits *)
Definition gen_benes (ld : nat) (c_tgt : arr) : option ((nat -> N) * (nat -> N)) :=
  let bits := Nat.pow 2 ld in
  let tgt := fold_left (fun a s => match c_tgt s with Some _ => upd a s (Some s) | None => a end) (iota bits) empty_arr in
  let src := fold_left (fun a s => match c_tgt s with Some v => upd a v (Some s) | None => a end) (iota bits) empty_arr in
  gen_stages bits ld src (invert_perm bits src) tgt (invert_perm bits tgt).

(* benes_perm.h:297-303 benes_bwd; self = (b1, b2) *)
Definition benes_bwd (ld : nat) (self : (nat -> N) * (nat -> N)) (x : N) : N :=
  let w := N.of_nat (Nat.pow 2 ld) in
  ibfly w ld (fst self) (bfly w ld (snd self) x).

(* benes_perm.h:289-295 benes_fwd *)
Definition benes_fwd (ld : nat) (self : (nat -> N) * (nat -> N)) (x : N) : N :=
  let w := N.of_nat (Nat.pow 2 ld) in
  ibfly w ld (snd self) (bfly w ld (fst self) x).
