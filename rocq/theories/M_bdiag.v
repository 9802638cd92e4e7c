(* Model of block_diag_hamiltonian (tools/block_tools.py:30-137), with the parts of the class hamiltonian it uses:
   make_dynamic (operators/_make_hamiltonian.py:44-77, 117-149) and the sum of matrices with drives (hamiltonian_core.py:257-430).
   A drive is a pair (f, f_args), hashed as the code does without collisions (for those see C31).  Iteration over a Python set
   gives its elements in an order that depends on their hashes, here an argument; dictionaries keep the order of insertion.
   A matrix is the sum of the matrices of its terms: consolidation of equal terms and the coupling threshold eps are left out,
   as are types of arguments, data types, and terms given as matrices.  block_diag of an empty list raises ValueError, or gives
   a matrix of another shape, which raises ValueError too. *)
From Verif Require Import AuxN SpecC SpecExpm SpecLanczos SpecExpect M_block.
Local Open Scope nat_scope.

Record builder := {
  bas : Type;
  con : blk -> bas;                                  (* basis_con( *basis_args, **block ) *)
  dim : bas -> nat;                                  (* b.Ns *)
  proj : bas -> list vec;                            (* b.get_proj(dtype, **get_proj_kwargs): columns *)
  passes : bas -> bool;                              (* check_symm, check_herm, check_pcon as asked for *)
  term : Type;
  drive : Type;
  drive_eq : forall f g : drive, {f = g} + {f <> g};
  value : drive -> R -> C;
  matrix_of : bas -> term -> mat;
  atol : R                                           (* 100*finfo(dtype).eps *)
}.
Inductive fault := ValueError | TypeError | IndexError.
Inductive outcome (X : Type) := Fails (e : fault) | Gives (x : X).
Arguments Fails {X} e.
Arguments Gives {X} x.

Section B.
Variable B : builder.
(* basis._make_matrix *)
Definition make_matrix (b : bas B) (l : list (term B)) : mat := fun i j => Csum l (fun x => matrix_of B b x i j).
(* _make_hamiltonian.py:44-77: the keys of the dictionary, in order of insertion *)
Definition drives (dynamic : list (term B * drive B)) : list (drive B) :=
  fold_left (fun ds e => if in_dec (drive_eq B) (snd e) ds then ds else ds ++ [snd e]) dynamic [].
(* the list under key f *)
Definition terms_of (dynamic : list (term B * drive B)) (f : drive B) : list (term B) :=
  map fst (filter (fun e => if drive_eq B (snd e) f then true else false) dynamic).
(* _make_hamiltonian.py:12-19 *)
Definition almost_zero (b : bas B) (M : mat) : bool :=
  forallb (fun i => forallb (fun j => if Rle_dec (Cabs (M i j)) (atol B) then true else false) (seq 0 (dim B b))) (seq 0 (dim B b)).
(* _make_hamiltonian.py:137-149: matrices that are almost zero are left out *)
Definition make_dynamic (b : bas B) (dynamic : list (term B * drive B)) : list (drive B * mat) :=
  filter (fun e => negb (almost_zero b (snd e))) (map (fun f => (f, make_matrix b (terms_of dynamic f))) (drives dynamic)).

(* block_tools.py:119-120: for i,Hd in enumerate(H.dynamic.values()): dynamic_list[i][0].append(Hd) *)
Fixpoint append_all (l : list (nat * mat)) (dl : list (list (nat * mat) * drive B)) : option (list (list (nat * mat) * drive B)) :=
  match l with
  | [] => Some dl
  | M :: l' =>
      match dl with
      | [] => None
      | (ms, f) :: dl' => match append_all l' dl' with Some r => Some ((ms ++ [M], f) :: r) | None => None end
      end
  end.
Record loop_state := { check : bool; P_list : list (list vec); static_mats : list (nat * mat); dynamic_list : list (list (nat * mat) * drive B) }.
(* 108-120: one block; the checks are made for the first one *)
Definition add (static : list (term B)) (dynamic : list (term B * drive B)) (s : outcome loop_state) (block : blk) : outcome loop_state :=
  match s with
  | Fails e => Fails e
  | Gives st =>
      let b := con B block in
      if (check st && negb (passes B b))%bool then Fails TypeError
      else match append_all (map (fun e => (dim B b, snd e)) (make_dynamic b dynamic)) (dynamic_list st) with
           | None => Fails IndexError
           | Some dl => Gives {| check := false; P_list := P_list st ++ [proj B b];
                                 static_mats := static_mats st ++ [(dim B b, make_matrix b static)]; dynamic_list := dl |}
           end
  end.
Record result := { P : list vec; H_dim : nat; H_static : mat; H_dynamic : list (drive B * mat) }.
(* 103-137; order = list(set(...)); hamiltonian_core.py:2327-2330 rejects matrices of another shape *)
Definition block_diag_hamiltonian (blocks : list blk) (static : list (term B)) (dynamic : list (term B * drive B)) (kwargs : blk)
    (order : list (drive B)) : outcome result :=
  match fold_left (add static dynamic) (map (fun block => update block kwargs) blocks)
          (Gives {| check := true; P_list := []; static_mats := []; dynamic_list := map (fun f => ([], f)) order |}) with
  | Fails e => Fails e
  | Gives st =>
      match static_mats st with
      | [] => Fails ValueError
      | _ =>
          let S := block_diag_of (static_mats st) in
          let D := map (fun x => (snd x, block_diag_of (fst x))) (dynamic_list st) in
          if forallb (fun x => fst (snd x) =? fst S) D
          then Gives {| P := concat (P_list st); H_dim := fst S; H_static := snd S; H_dynamic := map (fun x => (fst x, snd (snd x))) D |}
          else Fails ValueError
      end
  end.
(* hamiltonian.__call__ *)
Definition at_time (H : result) (t : R) : mat :=
  fun i j => (H_static H i j + Csum (H_dynamic H) (fun e => value B (fst e) t * snd e i j))%C.
End B.
