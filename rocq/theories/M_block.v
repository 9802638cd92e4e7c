(* Model of the class block_ops (tools/block_tools.py:232-246, 305-502, 565-604, 681-788): its dictionaries of blocks and
   saved matrices, and the methods evolve and expm.
   Bases, projectors, Hamiltonians and the solvers of scipy are fields of [external]; the theorems say what is assumed of
   them.  A dictionary with block labels is the list of its items in order of insertion, which is what str(block) shows; a
   projector is the list of its columns.  n_jobs = jobs + 1.  The generator pipeline (C37) hands the blocks' states on in
   order, so iterate=True yields the columns of the array.  Real numbers are exact.  Left out: types of the arguments,
   imag_time, states with several columns, num = 0, what is saved by a call that raises an exception in compute_all_blocks, and
   saved matrices that were changed through H_dict or P_dict. *)
From Verif Require Import AuxN SpecC SpecExpm SpecLanczos SpecExpect M_symop.
Local Open Scope nat_scope.

Definition blk := list (nat * Z).
Record external := {
  basis : Type;
  basis_con : blk -> basis;                          (* basis_con( *basis_args, **block ) *)
  Ns : basis -> nat;
  get_proj : basis -> list vec;
  checks_pass : basis -> bool;                       (* check_symm, check_herm, check_pcon as asked for *)
  hamil : basis -> R -> mat;                         (* hamiltonian(static,dynamic,basis=b), at time t *)
  solve : nat -> (R -> mat) -> list C -> R -> list R -> list (list C);  (* H.evolve(psi,t0,times): states *)
  expm_multiply : nat -> mat -> list C -> list C;
  expm_grid : nat -> mat -> list C -> R -> R -> nat -> bool -> list (list C); (* with start, stop, num, endpoint *)
  tol : R;                                           (* 1000*finfo(dtype).eps *)
  old_scipy : bool                                   (* 775: complex matrices and ver[1] < 19 *)
}.
Inductive exn := ValueErr | TypeErr | RuntimeErr.
Inductive res (X : Type) := Raises (e : exn) | Returns (x : X).
Arguments Raises {X} e.
Arguments Returns {X} x.

Definition blk_eq (x y : blk) : bool := if list_eq_dec (fun p q : nat * Z => ltac:(decide equality; [apply Z.eq_dec|apply Nat.eq_dec])) x y then true else false.
Definition lookup {X} (k : blk) (d : list (blk * X)) : option X :=
  match find (fun e => blk_eq (fst e) k) d with Some e => Some (snd e) | None => None end.
(* d[k] = x *)
Definition store {X} (k : blk) (x : X) (d : list (blk * X)) : list (blk * X) :=
  match lookup k d with
  | Some _ => map (fun e => if blk_eq (fst e) k then (k, x) else e) d
  | None => d ++ [(k, x)]
  end.
(* block.update(basis_kwargs) *)
Definition update_item (b : blk) (kv : nat * Z) : blk :=
  if existsb (fun e => fst e =? fst kv) b then map (fun e => if fst e =? fst kv then kv else e) b else b ++ [kv].
Definition update (b kwargs : blk) : blk := fold_left update_item kwargs b.

Section Ext.
Variable ext : external.
Record block_ops := {
  basis_dict : list (blk * basis ext);
  H_dict : list (blk * (R -> mat));
  P_dict : list (blk * list vec);
  checked : bool;
  save : bool
}.

(* block_tools.py:481-484: b = hamiltonian(...) with the checks for the first one only *)
Definition make_H (o : block_ops) (b : basis ext) : res (R -> mat) :=
  if checked o then Returns (hamil ext b) else if checks_pass ext b then Returns (hamil ext b) else Raises TypeErr.
(* 486-502 _get_H *)
Definition get_H (o : block_ops) (k : blk) (b : basis ext) : res (R -> mat) * block_ops :=
  match lookup k (H_dict o) with
  | Some H => (Returns H, o)
  | None =>
      match make_H o b with
      | Raises e => (Raises e, o)
      | Returns H => (Returns H, {| basis_dict := basis_dict o; H_dict := if save o then store k H (H_dict o) else H_dict o;
                                    P_dict := P_dict o; checked := true; save := save o |})
      end
  end.
(* 476-484 _get_P *)
Definition get_P (o : block_ops) (k : blk) (b : basis ext) : list vec * block_ops :=
  match lookup k (P_dict o) with
  | Some p => (p, o)
  | None => (get_proj ext b, {| basis_dict := basis_dict o; H_dict := H_dict o;
                                P_dict := if save o then store k (get_proj ext b) (P_dict o) else P_dict o; checked := checked o; save := save o |})
  end.
(* 460-473 compute_all_blocks *)
Definition compute_block (s : res block_ops) (e : blk * basis ext) : res block_ops :=
  match s with
  | Raises x => Raises x
  | Returns o =>
      let o1 := match lookup (fst e) (P_dict o) with
                | Some _ => o
                | None => {| basis_dict := basis_dict o; H_dict := H_dict o; P_dict := store (fst e) (get_proj ext (snd e)) (P_dict o); checked := checked o; save := save o |}
                end in
      match lookup (fst e) (H_dict o1) with
      | Some _ => Returns o1
      | None =>
          match make_H o1 (snd e) with
          | Raises x => Raises x
          | Returns H => Returns {| basis_dict := basis_dict o1; H_dict := store (fst e) H (H_dict o1); P_dict := P_dict o1; checked := true; save := save o1 |}
          end
      end
  end.
Definition compute_all (o : block_ops) : res block_ops := fold_left compute_block (basis_dict o) (Returns o).
(* 359-363: one block of the constructor *)
Definition add_block (kwargs : blk) (d : list (blk * basis ext)) (block : blk) : list (blk * basis ext) :=
  let block' := update block kwargs in
  let b := basis_con ext block' in
  if 0 <? Ns ext b then store block' b d else d.
(* 347-367 __init__ *)
Definition construct (blocks : list blk) (kwargs : blk) (save_previous compute : bool) : res block_ops :=
  let o := {| basis_dict := fold_left (add_block kwargs) blocks []; H_dict := []; P_dict := []; checked := false;
              save := if compute then true else save_previous |} in
  if compute then compute_all o else Returns o.
(* 434-443 update_blocks: no basis_kwargs here *)
Definition update_block (d : list (blk * basis ext)) (block : blk) : list (blk * basis ext) :=
  match lookup block d with
  | Some _ => d
  | None => let b := basis_con ext block in if 0 <? Ns ext b then store block b d else d
  end.
Definition update_blocks (o : block_ops) (blocks : list blk) (compute : bool) : res block_ops :=
  let o' := {| basis_dict := fold_left update_block blocks (basis_dict o); H_dict := H_dict o; P_dict := P_dict o; checked := checked o; save := save o |} in
  if compute then compute_all o' else Returns o'.

(* numpy.linalg.norm *)
Definition norm_l (v : list C) : R := sqrt (Rsum v (fun z => fst z * fst z + snd z * snd z)%R).
Record kept := { key_basis : basis ext; kP : list vec; kpsi : list C; kH : R -> mat }.
(* 570-584 (= 726-737): p.H.dot(psi_0); blocks with a projection are kept *)
Definition collect1 (n : nat) (psi0 : vec) (s : res (list kept) * block_ops) (e : blk * basis ext) : res (list kept) * block_ops :=
  match s with
  | (Raises x, o) => (Raises x, o)
  | (Returns l, o) =>
      let (p, o1) := get_P o (fst e) (snd e) in
      let psi := map (fun c => inner n c psi0) p in
      if Rlt_dec (tol ext) (norm_l psi) then
        match get_H o1 (fst e) (snd e) with
        | (Raises x, o2) => (Raises x, o2)
        | (Returns H, o2) => (Returns (l ++ [{| key_basis := snd e; kP := p; kpsi := psi; kH := H |}]), o2)
        end
      else (Returns l, o1)
  end.
Definition collect (n : nat) (psi0 : vec) (o : block_ops) : res (list kept) * block_ops :=
  fold_left (collect1 n psi0) (basis_dict o) (Returns [], o).

(* P.dot(psi) of the stacked projector; None: the dimensions differ *)
Definition dot (cols : list vec) (psi : list C) : option vec :=
  if length cols =? length psi then Some (fun k => Csum (combine cols psi) (fun s => fst s k * snd s)%C) else None.
Definition to_full (P : list vec) (states : list (list C)) : res (list vec) :=
  match all_some (map (dot P) states) with Some r => Returns r | None => Raises ValueErr end.
(* vstack or hstack of the states of the blocks, for each of m times *)
Definition stack_times (m : nat) (l : list (list (list C))) : list (list C) :=
  map (fun k => concat (map (fun states => nth k states []) l)) (seq 0 m).

(* 565-604 evolve; block_diag_hamiltonian (84-132) is given a list of hamiltonian objects and raises ValueError *)
Definition evolve (o : block_ops) (n : nat) (psi0 : vec) (t0 : R) (times : list R) (block_diag : bool) : res (list vec) * block_ops :=
  match collect n psi0 o with
  | (Raises x, o') => (Raises x, o')
  | (Returns l, o') =>
      if (block_diag && negb (length l =? 0))%bool then (Raises ValueErr, o')
      else match l with
           | [] => (Raises RuntimeErr, o')
           | _ => (to_full (concat (map kP l)) (stack_times (length times) (map (fun x => solve ext (Ns ext (key_basis x)) (kH x) (kpsi x) t0 times) l)), o')
           end
  end.

(* 737-739 *)
Definition exponent (te : R) (a : C) (shift : option C) (x : kept) : nat * mat :=
  (Ns ext (key_basis x),
   fun i j => let h := (kH x te i j * a)%C in match shift with Some s => (h + a * s * delta i j)%C | None => h end).
(* scipy.sparse.block_diag *)
Definition block_diag2 (x y : nat * mat) : nat * mat :=
  (fst x + fst y, fun i j => if i <? fst x then (if j <? fst x then snd x i j else C0) else (if j <? fst x then C0 else snd y (i - fst x) (j - fst x))).
Definition block_diag_of (l : list (nat * mat)) : nat * mat := fold_right block_diag2 (0, fun _ _ => C0) l.
(* l[i:i+n] *)
Definition slice {X} (l : list X) (i n : nat) : list X := firstn n (skipn i l).
(* 743-768; hstack of an empty list raises ValueError *)
Definition groups {X} (jobs : nat) (l : list X) : list (list X) :=
  let n_pp := length l / S jobs in
  let n_left := n_pp + length l mod S jobs in
  slice l 0 n_left :: map (fun i => slice l (n_left + i * n_pp) n_pp) (seq 0 jobs).
Definition join (g : list ((nat * mat) * list C)) : (nat * mat) * list C := (block_diag_of (map fst g), concat (map snd g)).
Definition regroup (block_diag : bool) (jobs : nat) (l : list ((nat * mat) * list C)) : option (list ((nat * mat) * list C)) :=
  if (block_diag && negb (length l =? 0))%bool
  then (if existsb (fun g => length g =? 0) (groups jobs l) then None else Some (map join (groups jobs l)))
  else Some l.

(* numpy.linspace(start,stop,num,endpoint,retstep=True): spacing *)
Definition spacing (start stop : R) (num : nat) (endpoint : bool) : R :=
  if endpoint then ((stop - start) / INR (num - 1))%R else ((stop - start) / INR num)%R.
Definition scale (c : R) (M : nat * mat) : mat := fun i j => (RtoC c * snd M i j)%C.
(* 232-246 _expm_gen *)
Fixpoint expm_steps (M : nat * mat) (dt : R) (psi : list C) (m : nat) : list (list C) :=
  match m with
  | O => []
  | S m' => let psi' := expm_multiply ext (fst M) (scale dt M) psi in psi' :: expm_steps M dt psi' m'
  end.
Definition expm_gen (start dt : R) (num : nat) (x : (nat * mat) * list C) : list (list C) :=
  let psi := if Req_EM_T start 0%R then snd x else expm_multiply ext (fst (fst x)) (scale start (fst x)) (snd x) in
  psi :: expm_steps (fst x) dt psi (num - 1).

(* 681-722: None: no time grid *)
Definition grid (iterate : bool) (start stop : option R) (num : option nat) (endpoint : option bool) : res (option (R * R * nat * bool)) :=
  let num' := match num with Some m => m | None => 50 end in
  let endpoint' := match endpoint with Some e => e | None => true end in
  match start, stop with
  | None, None =>
      if iterate then Raises ValueErr
      else match num, endpoint with None, None => Returns None | _, _ => Raises ValueErr end
  | Some a, Some b => Returns (Some (a, b, num', endpoint'))
  | _, _ => if iterate then Raises TypeErr else Raises ValueErr
  end.
(* 623-788 expm *)
Definition expm (o : block_ops) (n : nat) (psi0 : vec) (te : R) (iterate : bool) (jobs : nat) (block_diag : bool) (a : C)
    (start stop : option R) (endpoint : option bool) (num : option nat) (shift : option C) : res (list vec) * block_ops :=
  match grid iterate start stop num endpoint with
  | Raises x => (Raises x, o)
  | Returns g =>
    match collect n psi0 o with
    | (Raises x, o') => (Raises x, o')
    | (Returns l, o') =>
      match regroup block_diag jobs (map (fun x => (exponent te a shift x, kpsi x)) l) with
      | None => (Raises ValueErr, o')
      | Some hs =>
        match l with
        | [] => (Raises RuntimeErr, o')
        | _ =>
          let P := concat (map kP l) in
          match g with
          | None => (to_full P [concat (map (fun x => expm_multiply ext (fst (fst x)) (snd (fst x)) (snd x)) hs)], o')
          | Some (a0, b0, m, ep) =>
              if (iterate || old_scipy ext)%bool
              then (to_full P (stack_times m (map (expm_gen a0 (spacing a0 b0 m ep) m) hs)), o')
              else (to_full P (stack_times m (map (fun x => expm_grid ext (fst (fst x)) (snd (fst x)) (snd x) a0 b0 m ep) hs)), o')
          end
        end
      end
    end
  end.

(* what can happen to an object *)
Inductive reachable : block_ops -> Prop :=
  | r_new blocks kwargs sp c o : construct blocks kwargs sp c = Returns o -> reachable o
  | r_update o blocks c o' : reachable o -> update_blocks o blocks c = Returns o' -> reachable o'
  | r_compute o o' : reachable o -> compute_all o = Returns o' -> reachable o'
  | r_evolve o n psi0 t0 ts bd : reachable o -> reachable (snd (evolve o n psi0 t0 ts bd))
  | r_expm o n psi0 te it jobs bd a st sp ep num sh : reachable o -> reachable (snd (expm o n psi0 te it jobs bd a st sp ep num sh)).
End Ext.
