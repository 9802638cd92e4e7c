(* Model of diag_ensemble (/repo/quspin/tools/measurements.py:100, 263-457) and _inf_time_obs (1149-1265).
   Floating point is exact apart from nan and infinities (M_entropy.num).  Not modelled: Srdm_Renyi (lines 392-423), which needs the eigenvalues of a sum of partial traces;
   N is a number of type int, V2 a complex array of n rows and n columns.  None: an exception is raised. *)
From Verif Require Import AuxN SpecC SpecExpm SpecLanczos SpecExpect SpecEntropy M_entropy.
Local Open Scope R_scope.

(* numbers in f_args[0]: their Python type decides the type of the array of weights *)
Inductive number := PyInt (z : Z) | PyFloat (x : R).
Definition num_val (a : number) : R := match a with PyInt z => IZR z | PyFloat x => x end.
Inductive f_arguments := Beta (x : number) | Betas (l : list number).
Record dictionary := { d_V1 : mat; d_E1 : list R; d_f : option (list R -> R -> list R); d_args : f_arguments; d_norm : option bool; d_states : option (list nat) }.
Inductive system := Vector (psi : vec) | Matrix (rho : mat) | PyList | Dict (d : dictionary).
Inductive observable := NoObs | ObsHam (A : mat) | ObsArray (A : mat).
Inductive key := K_Obs | K_delta_t | K_delta_q | K_Sd | K_f_norm | K_rho.
(* values: a number; a number for every argument of f and, if V1_state is given, for every state in it; the diagonal of the density matrix *)
Inductive output := Single (x : num) | Many (l : list num) (states : option (list num)) | Norms (l : list R) | Diagonal (rho : nat -> R) | Diagonals (rho : nat -> nat -> R).

Definition np_sqrt (x : num) : num := match x with Nan => Nan | NInf => Nan | PInf => PInf | Fin x => if Rlt_dec x 0 then Nan else Fin (sqrt x) end.
(* numpy.sort *)
Fixpoint insert (x : R) (l : list R) : list R := match l with [] => [x] | y :: l' => if Rle_dec x y then x :: l else y :: insert x l' end.
Definition sort (l : list R) : list R := fold_right insert [] l.
(* lines 264-266 *)
Definition degenerate (eps : R) (E2 : list R) : bool := existsb (fun d => if Rlt_dec d (1000 * eps) then true else false) (diff (sort E2)).

Section Ensemble.
Context (n : nat) (eps : R) (V2 : mat).
(* line 289: abs(system_state.conj().dot(V2))**2 *)
Definition rho_pure (psi : vec) (j : nat) : R := let c := Csum (seq 0 n) (fun i => Cconj (psi i) * V2 i j)%C in fst c * fst c + snd c * snd c.
(* line 293: einsum('ij,ji->i', V2.T.conj(), system_state.dot(V2)).real *)
Definition rho_DM (A : mat) (j : nat) : R := fst (Csum (seq 0 n) (fun i => Cconj (V2 i j) * Csum (seq 0 n) (fun k => A i k * V2 k j)))%C.
(* line 354: abs(V2.conj().T.dot(V1))**2, component (j,psi) *)
Definition rho_V1 (V1 : mat) (j p : nat) : R := let c := Csum (seq 0 n) (fun i => Cconj (V2 i j) * V1 i p)%C in fst c * fst c + snd c * snd c.
(* line 366: rho[rho<=1E-16] = finfo.eps *)
Definition floored (x : R) : R := if Rle_dec x (/ 10 ^ 16) then eps else x.

(* line 375, 387: V2.T.conj().dot(Obs.dot(V2)) *)
Definition rotated (O : mat) (j k : nat) : C := Csum (seq 0 n) (fun i => Cconj (V2 i j) * Csum (seq 0 n) (fun m => O i m * V2 m k))%C.
(* line 1218 with line 380 *)
Definition obs_d (O : mat) (rho : nat -> R) : R := Rsum (seq 0 n) (fun j => fst (rotated O j j) * rho j).
(* line 1223 with lines 376-377: the squares of the elements, the diagonal set to zero *)
Definition delta_t2 (O : mat) (rho : nat -> R) : R :=
  fst (Csum (seq 0 n) (fun j => Csum (seq 0 n) (fun k => RtoC (rho j) * (if (j =? k)%nat then C0 else rotated O j k * rotated O j k) * RtoC (rho k))))%C.
(* line 1227 with line 379 *)
Definition delta_q2 (O : mat) (rho : nat -> R) : R :=
  Rsum (seq 0 n) (fun j => rho j * fst (Csum (seq 0 n) (fun k => rotated O j k * rotated O k j)%C)) - delta_t2 O rho - obs_d O rho * obs_d O rho.

(* lines 272-274: `if not Obs`; the truth value of an array with several entries raises *)
Definition obs_check (o : observable) (wanted : bool) : bool :=
  if wanted then match o with NoObs => false | ObsHam _ => true | ObsArray A => (n =? 1)%nat && (if Req_EM_T (fst (A 0%nat 0%nat)) 0 then if Req_EM_T (snd (A 0%nat 0%nat)) 0 then false else true else true) end else true.
Definition obs_matrix (o : observable) : option mat := match o with NoObs => None | ObsHam A | ObsArray A => Some A end.

(* 1149-1265 for one vector rho: which keys there are and their values *)
Definition values_for (o : observable) (dt dq sd : bool) (alpha : R) (rho : nat -> R) : option (list (key * num)) :=
  match ensemble_entropy alpha (map rho (seq 0 n)) with
  | None => None
  | Some s =>
      Some (match obs_matrix o with
            | None => []
            | Some A => (K_Obs, Fin (obs_d A rho)) :: (if dt || dq then [(K_delta_t, np_sqrt (Fin (delta_t2 A rho)))] else []) ++ (if dq then [(K_delta_q, np_sqrt (Fin (delta_q2 A rho)))] else [])
            end ++ (if sd then [(K_Sd, s)] else []))
  end.

(* lines 323-325, 340-350: the distribution and its weights; the array has the type of f_args[0][0] *)
Definition thermal (E : list R) (beta : R) : list R := map (fun e => exp (- beta * (e - nth 0 E 0))) E.
Definition truncate (x : R) : R := if Rle_dec 0 x then IZR (Int_part x) else - IZR (Int_part (- x)).
Definition cast (first : number) (x : R) : R := match first with PyInt _ => truncate x | PyFloat _ => x end.
Definition weights (d : dictionary) (first arg : number) : list R :=
  let w := match d_f d with Some f => f (d_E1 d) (num_val arg) | None => thermal (d_E1 d) (num_val arg) end in
  map (cast first) (match d_norm d with Some false => w | _ => map (fun x => x / Rsum w (fun y => y)) w end).
Definition norm_of (d : dictionary) (first arg : number) : R :=
  cast first (Rsum (match d_f d with Some f => f (d_E1 d) (num_val arg) | None => thermal (d_E1 d) (num_val arg) end) (fun y => y)).
(* value.dot(column of rho_mixed) *)
Definition np_dot (v : list num) (w : list R) : num := fold_left np_add (map (fun x => np_mul (snd x) (fst x)) (combine v w)) (Fin 0).
Definition scaled (density : bool) (N : nat) (x : num) : num := if density then np_div x (INR N) else x.
(* lines 333-337 *)
Definition states_check (d : dictionary) : bool :=
  match d_states d with None => true | Some [] => false | Some l => forallb (fun p => (p <? length (d_E1 d))%nat) l end.
Definition keys_for (o : observable) (dt dq sd : bool) : list key :=
  match obs_matrix o with None => [] | Some _ => K_Obs :: (if dt || dq then [K_delta_t] else []) ++ (if dq then [K_delta_q] else []) end ++ (if sd then [K_Sd] else []).
Definition key_eqb (a b : key) : bool := match a, b with K_Obs, K_Obs | K_delta_t, K_delta_t | K_delta_q, K_delta_q | K_Sd, K_Sd | K_f_norm, K_f_norm | K_rho, K_rho => true | _, _ => false end.
Definition lookup {X} (k : key) (l : list (key * X)) (d : X) : X := match find (fun x => key_eqb k (fst x)) l with Some x => snd x | None => d end.

Definition diag_ensemble (N : nat) (s : system) (E2 : list R) (density : bool) (alpha : R) (rho_d : bool) (o : observable) (dt dq sd : bool) : option (list (key * output)) :=
  if degenerate eps E2 then None
  else if negb (obs_check o (dt || dq)) then None
  else
    let single rho :=
      match values_for o dt dq sd alpha rho with
      | None => None
      | Some l => Some (map (fun x => (fst x, Single (scaled density N (snd x)))) l ++ (if rho_d then [(K_rho, Diagonal rho)] else []))
      end in
    match s with
    | PyList => None (* line 285: a list has no attribute shape *)
    | Vector psi => single (fun j => floored (rho_pure psi j))
    | Matrix A => single (fun j => floored (rho_DM A j))
    | Dict d =>
        if unsorted (d_E1 d) then None
        else match d_args d with
             | Beta _ => None (* len(f_args[0]) of a number *)
             | Betas [] => None (* type(f_args[0][0]) *)
             | Betas ((first :: _) as args) =>
                 if negb (states_check d) then None
                 else
                   let rho p j := floored (rho_V1 (d_V1 d) j p) in
                   let per_state := map (fun p => values_for o dt dq sd alpha (rho p)) (seq 0 (length (d_E1 d))) in
                   if existsb (fun x => match x with None => true | _ => false end) per_state then None
                   else
                     let value k := map (fun x => match x with Some l => scaled density N (lookup k l Nan) | None => Nan end) per_state in
                     Some (map (fun k => (k, Many (map (fun a => np_dot (value k) (weights d first a)) args)
                                                  (match d_states d with None => None | Some l => Some (map (fun p => nth p (value k) Nan) l) end))) (keys_for o dt dq sd)
                           ++ (match d_norm d with Some false => [(K_f_norm, Norms (map (norm_of d first) args))] | _ => [] end)
                           ++ (if rho_d then [(K_rho, match d_states d with Some l => Diagonals (fun p => rho (nth p l 0%nat)) | None => Diagonals rho end)] else []))
             end
    end.
End Ensemble.
