(* Model of the construction of the list of basis states:
   /repo/quspin/basis/basis_general/_basis_general_core/source/make_general_basis.h,
   hcb_core.pyx:67-106 (boson_core.pyx:103-142, higher_spin_core.pyx:101-140 are the same), base_general.py:733-778. *)
From Verif Require Import AuxN SpecC SpecSymm SpecSector SpecBasis M_symm M_next.
Local Open Scope nat_scope.

(* make_general_basis.h:85-88, 116-119: double norm = check_state(s); npy_intp int_norm = norm; kept iff not NaN and
   int_norm > 0.  Conversion to an integer is Int_part (floor; the C truncation differs only for negative numbers,
   which are not > 0 either way).  The value stored in n[] is the norm converted to the integer type of n. *)
Definition int_norm (x : R) : Z := Int_part x.
Definition keep (pers : list nat) (qs : list Z) (ms : smap) (nt : nat) (s : N) : option Z :=
  match check_state (group_order pers) pers qs ms nt s with
  | Some (Norm x) => if (0 <? int_norm x)%Z then Some (int_norm x) else None
  | _ => None
  end.

Section Make.
Variable kp : N -> option Z.          (* keep, above *)
Variable next : N -> N.               (* s+1 (make_basis) or next_state_pcon (make_basis_pcon) *)

Definition push (s : N) (l : list (N * Z)) : list (N * Z) := match kp s with Some n => l ++ [(s, n)] | None => l end.

(* make_basis_sequential 74-106 and make_basis_pcon_sequential 110-142 (they differ only in next and in the start);
   acc = the entries 0..Ns-1 of basis[] and n[]; None = the return value -1 *)
Fixpoint seq_loop (mem_MAX : nat) (MAX : nat) (s : N) (acc : list (N * Z)) : option (list (N * Z)) :=
  match MAX with
  | O => Some (rev acc)                                       (* 104-105 std::reverse *)
  | S MAX' => if mem_MAX <=? length acc then None             (* 81-84 insuff_mem *)
              else seq_loop mem_MAX MAX' (next s) (push s acc)
  end.
Definition make_seq (mem_MAX MAX : nat) (s0 : N) : option (list (N * Z)) := seq_loop mem_MAX MAX s0 [].

(* make_basis_parallel 155-249, make_basis_pcon_parallel 252-349.
   166-191 / 270-291: thread t starts at the t-th candidate and advances nthread candidates at a time while chunk > 0 *)
Fixpoint thread_loop (nthread : nat) (fuel : nat) (chunk : Z) (s : N) (block : list (N * Z)) : list (N * Z) :=
  match fuel with
  | O => block
  | S f => if (0 <? chunk)%Z
           then thread_loop nthread f (chunk - Z.of_nat nthread)%Z (Nat.iter nthread next s) (push s block)
           else block
  end.
Definition thread_block (nthread MAX : nat) (s0 : N) (t : nat) : list (N * Z) :=
  thread_loop nthread MAX (Z.of_nat MAX - Z.of_nat t)%Z (Nat.iter t next s0) [].

(* 199-202: for(i=0;i<nthread;i++) master_pos[i+1] += master_pos[i] *)
Definition prefix_sums (nthread : nat) (pos : nat -> nat) : nat -> nat :=
  fold_left (fun p i => fun a => if a =? S i then p (S i) + p i else p a) (seq 0 nthread) pos.

(* 214-218: master_block[start+i] = thread_block[i] for i < end - start *)
Definition copy_writes (block : list (N * Z)) (start cnt : nat) : list (nat * (N * Z)) :=
  map (fun i => (start + i, nth i block (0%N, 0%Z))) (seq 0 cnt).

(* One run of the parallel construction.  Between two barriers the stores of the threads are interleaved in any order.
   The last loop is an omp for: shares says which iterations each thread executes. *)
Inductive par_run (nthread mem_MAX MAX : nat) (s0 : N) : option (list (N * Z)) -> Prop :=
| par : forall pw pos junk mw master srt shares ow out,
    let block := thread_block nthread MAX s0 in
    (* 191: master_pos[threadn+1] = thread_block.size() (the vector is zero-initialised) *)
    interleave (map (fun t => [(S t, length (block t))]) (seq 0 nthread)) pw ->
    pos = prefix_sums nthread (stores pw (fun _ => 0)) ->
    let Ns := pos nthread in
    Ns <= mem_MAX ->                                                    (* 203-204 *)
    interleave (map (fun t => copy_writes (block t) (pos t) (pos (S t) - pos t)) (seq 0 nthread)) mw ->
    master = stores mw junk ->
    sorts_descending (map master (seq 0 Ns)) srt ->                     (* 222-233 *)
    Permutation (concat shares) (seq 0 Ns) ->                           (* 237-241 *)
    interleave (map (map (fun i => (i, nth i srt (0%N, 0%Z)))) shares) ow ->
    out = stores ow junk ->
    par_run nthread mem_MAX MAX s0 (Some (map out (seq 0 Ns)))
| par_insufficient : forall pw pos,
    let block := thread_block nthread MAX s0 in
    interleave (map (fun t => [(S t, length (block t))]) (seq 0 nthread)) pw ->
    pos = prefix_sums nthread (stores pw (fun _ => 0)) ->
    mem_MAX < pos nthread ->
    par_run nthread mem_MAX MAX s0 None.

(* 356-386 make_basis, make_basis_pcon: choice between the two *)
Definition make_run (max_threads nthread nt : nat) (mem_MAX MAX : nat) (s0 : N) (res : option (list (N * Z))) : Prop :=
  if ((1 <? max_threads) && (max_threads <? MAX) && (0 <? nt))%bool
  then par_run nthread mem_MAX MAX s0 res
  else res = make_seq mem_MAX MAX s0.
End Make.

(* hcb_core.pyx:78-106: a list of particle numbers; mk np room = result of _make_basis_pcon in the remaining buffer *)
Fixpoint make_sectors {A} (mk : A -> nat -> option (list (N * Z))) (nps : list A) (mem_MAX : nat) (acc : list (N * Z))
  : option (list (N * Z)) :=
  match nps with
  | [] => Some acc
  | np :: rest =>
    match mk np (mem_MAX - length acc) with
    | None => None
    | Some l => if mem_MAX <? length (acc ++ l) then None else make_sectors mk rest mem_MAX (acc ++ l)
    end
  end.
