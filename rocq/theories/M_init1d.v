(* Model of the constructors of the one-dimensional bases (basis_1d/spin.py, boson.py, fermion.py, base_1d.py): the checks of
   the arguments and the choice of the block that is built.
   Simplified: L is a nonnegative int, a an int (None: 1), check_z_symm a truth value; the argument _Np, the keyword tests (an
   unknown keyword raises ValueError) and warnings are left out; the densities m, nb and nf are treated in count_of_density. *)
From Verif Require Import AuxN SpecBlock1d SpecInit1d M_alloc1d.
From Coq Require Import Reals.
From Flocq Require Import Core.
Local Open Scope Z_scope.

Inductive exn := TypeErr | ValueErr | ZeroDivErr | IndexErr | NameErr.
(* the exception, or the block with kblock and a and the list of particle numbers handed to the compiled code *)
Inductive outcome (P : Type) := Raises (e : exn) | Built (b : block) (kblock a : Z) (np : option (list P)).
Arguments Raises {P}. Arguments Built {P}.

(* type(x) is int *)
Definition is_int (x : label) : bool := match x with Int _ => true | _ => false end.
Definition val (x : label) : Z := match x with Int z => z | _ => 0 end.
(* base_1d.py:77-95: if x is not None: if type(x) is not int: raise TypeError; if abs(x) != 1: raise ValueError *)
Definition bad (x : label) : option exn :=
  match x with Absent => None | Other => Some TypeErr | Int z => if Z.abs z =? 1 then None else Some ValueErr end.
Fixpoint first_bad (l : list label) : option exn :=
  match l with [] => None | x :: l' => match bad x with Some e => Some e | None => first_bad l' end end.

(* base_1d.py:139-405, the chain of if/elif; l holds the labels as passed by the derived class, full: Np is None *)
Definition branch (l : labels) (full : bool) : block :=
  let k := is_int (l_k l) in let p := is_int (l_p l) in let z := is_int (l_z l) in
  let A := is_int (l_A l) in let B := is_int (l_B l) in let pz := is_int (l_pz l) in
  let vp := val (l_p l) in let vz := val (l_z l) in let vA := val (l_A l) in let vB := val (l_B l) in let vpz := val (l_pz l) in
  if (k && p && z)%bool then BT_P_Z vp vz
  else if (k && A && B)%bool then BT_A_B vA vB
  else if (k && pz)%bool then BT_PZ vpz
  else if (k && p)%bool then BT_P vp
  else if (k && z)%bool then BT_Z vz
  else if (k && A)%bool then BT_A vA
  else if (k && B)%bool then BT_B vB
  else if (p && z)%bool then BP_Z vp vz
  else if (A && B)%bool then BA_B vA vB
  else if p then BP vp
  else if z then BZ vz
  else if A then BA vA
  else if B then BB vB
  else if pz then BPZ vpz
  else if k then BT
  else if full then BFull else BNo.

(* base_1d.py:46-405 basis_1d.__init__: the checks in their order.  get_basis_type raises ValueError for an empty list of
   particle numbers (max of an empty list; line 106) *)
Definition base_init {P} (sps : Z) (L : nat) (np : option (list P)) (a : Z) (l : labels) : outcome P :=
  if (L =? 0)%nat then Raises TypeErr
  else if sps <? 2 then Raises ValueErr
  else if a =? 0 then Raises ZeroDivErr
  else if negb (Z.of_nat L mod a =? 0) then Raises ValueErr
  else match first_bad [l_p l; l_z l; l_A l; l_B l; l_pz l] with
  | Some e => Raises e
  | None =>
    match l_k l with Other => Raises TypeErr | _ =>
      let kblock := val (l_k l) mod (Z.of_nat L / a) in
      match np with Some [] => Raises ValueErr | _ =>
        if (is_int (l_p l) && (is_int (l_A l) || is_int (l_B l)))%bool then Raises ValueErr
        else Built (branch l (match np with None => true | Some _ => false end)) kblock a np
      end
    end
  end.

(* the argument Nup, Nb or Nf: None, an int, an iterable of ints, or something that is neither.  A list with elements of
   other types is not rejected (the TypeError is built but not raised: spin.py:132, boson.py:122, fermion.py:93) and is left out *)
Inductive number_arg := N_none | N_one (n : Z) | N_list (l : list Z) | N_other.
Definition number_list (x : number_arg) : option (option (list Z)) :=
  match x with N_none => Some None | N_one n => Some (Some [n]) | N_list l => Some (Some l) | N_other => None end.
Definition given {P} (np : option (list P)) : bool := match np with Some _ => true | None => false end.
(* spin.py:184-203, boson.py:180-202: the checks made when check_z_symm is not switched off.  z, pz: the variables zblock and
   pzblock at that point; half: the test of the first particle number.  The ValueError for several numbers is built but not raised *)
Definition z_checks {P} (half : P -> option exn) (L : nat) (sps : Z) (np : option (list P)) (a : Z) (k z A B pz : label) : option exn :=
  match (match np with
         | Some l => if (is_int z || is_int pz)%bool then
                       match l with
                       | [] => Some IndexErr
                       | n :: _ => if negb ((Z.of_nat L * (sps - 1)) mod 2 =? 0) then Some ValueErr else half n
                       end
                     else None
         | None => None
         end) with
  | Some e => Some e
  | None =>
    if (given np && (is_int A || is_int B))%bool then Some ValueErr
    else if (is_int k && (is_int A || is_int B) && negb (a mod 2 =? 0))%bool then Some ValueErr
    else None
  end.
(* spin.py:115-122: negative numbers count from the top, M = int(2*S*L) *)
Definition wrap_number (M n : Z) : Z := if n <? 0 then M + n + 1 else n.
Definition wrap_arg (M : Z) (x : number_arg) : number_arg :=
  match x with N_one n => N_one (wrap_number M n) | N_list l => N_list (map (wrap_number M) l) | _ => x end.
(* spin.py:92-241 spin_basis_1d.__init__; sps = 2S+1 *)
Definition spin_init (sps : Z) (L : nat) (Nup : number_arg) (a : Z) (check_z_symm : bool) (l : labels) : outcome Z :=
  match number_list (wrap_arg ((sps - 1) * Z.of_nat L) Nup) with
  | None => Raises TypeErr
  | Some np =>
    let pz := if (is_int (l_p l) && is_int (l_z l))%bool then Int (val (l_p l) * val (l_z l)) else l_pz l in
    let z := if (is_int (l_A l) && is_int (l_B l))%bool then Int (val (l_A l) * val (l_B l)) else l_z l in
    match (if check_z_symm then z_checks (fun n => if n =? Z.of_nat L * (sps - 1) / 2 then None else Some ValueErr) L sps np a (l_k l) z (l_A l) (l_B l) pz else None) with
    | Some e => Raises e
    | None => base_init sps L np a (Labels (l_k l) (l_p l) z (l_A l) (l_B l) pz)
    end
  end.
(* spin.py:205, 224, boson.py:204, 216: the compiled modules for hard-core bosons or for higher spins *)
Definition site_kind (sps : Z) : M_bits1d.kind := if sps <=? 2 then M_bits1d.Hcp false else M_bits1d.Boson (Z.to_N sps).
(* boson.py:75-226 boson_basis_1d.__init__.  The labels are cblock, cAblock, cBblock, pcblock.  cblock, cAblock and cBblock are
   renamed to zblock, zAblock, zBblock if they are ints; pcblock is never renamed.  Line 191 compares the undefined name Np *)
Definition rename (x : label) : label := if is_int x then x else Absent.
Definition boson_init (sps : option Z) (L : nat) (Nb : number_arg) (a : Z) (check_z_symm : bool) (l : labels) : outcome Z :=
  match sps, Nb with None, N_none => Raises ValueErr | _, _ =>
  match number_list Nb with
  | None => Raises TypeErr
  | Some np =>
    match (match sps, np with
           | Some q, _ => Some q
           | None, Some (n :: ns) => Some (fold_left Z.max ns n + 1)
           | None, _ => None
           end) with
    | None => Raises ValueErr
    | Some sps =>
      if ((2 <? sps) && (is_int (l_z l) || is_int (l_A l) || is_int (l_B l)))%bool then Raises ValueErr
      else
        let pz := if (is_int (l_p l) && is_int (l_z l))%bool then Int (val (l_p l) * val (l_z l)) else Absent in
        let z := if (is_int (l_A l) && is_int (l_B l))%bool then Int (val (l_A l) * val (l_B l)) else rename (l_z l) in
        match (if check_z_symm then z_checks (fun _ => Some NameErr) L sps np a (l_k l) (l_z l) (l_A l) (l_B l) (l_pz l) else None) with
        | Some e => Raises e
        | None => base_init sps L np a (Labels (l_k l) (l_p l) z (rename (l_A l)) (rename (l_B l)) pz)
        end
    end
  end end.
(* fermion.py:58-128 spinless_fermion_basis_1d.__init__: only kblock and pblock are accepted *)
Definition fermion_init (L : nat) (Nf : number_arg) (a : Z) (k p : label) : outcome Z :=
  match number_list Nf with
  | None => Raises TypeErr
  | Some np => base_init 2 L np a (Labels k p Absent Absent Absent Absent)
  end.
(* fermion.py:226-371 spinful_fermion_basis_1d.__init__; the argument Nf: None, a pair of ints, an iterable of pairs.
   (fermion.py:285-288: numbers above L are rejected for a pair; 303-304, 325-326: outside 0..L for a list) *)
Inductive pair_arg := F_none | F_pair (u d : Z) | F_list (l : list (Z * Z)).
Definition spinful_init (L : nat) (Nf : pair_arg) (a : Z) (check_z_symm : bool) (k p s ps : label) : outcome (Z * Z) :=
  let bound := Z.of_nat L in
  let half (n : Z * Z) := if ((fst n =? bound / 2) && (snd n =? bound / 2))%bool then None else Some ValueErr in
  match (match Nf with
         | F_none => Some None
         | F_pair u d => if ((bound <? u) || (bound <? d))%bool then None else Some (Some [(u, d)])
         | F_list [] => None
         | F_list l => if existsb (fun n => (bound <? fst n) || (fst n <? 0) || (bound <? snd n) || (snd n <? 0))%bool l then None else Some (Some l)
         end) with
  | None => Raises ValueErr
  | Some np =>
    let pz := if (is_int p && is_int s)%bool then Int (val p * val s) else ps in
    match (if check_z_symm then z_checks half L 2 np a k s Absent Absent pz else None) with
    | Some e => Raises e
    | None => base_init 2 L np a (Labels k p s Absent Absent pz)
    end
  end.
(* spin.py:108-112: Nup = int((m+S)*L); boson.py:99, 108: Nb = int(nb*L) and fermion.py:80: Nf = int(nf*L) are the case S = 0.
   m and S are doubles *)
Definition count_of_density (S m : R) (L : nat) : Z := Ztrunc (float64 (float64 (m + S) * INR L)).
(* hcp_basis.pyx:49-53, boson_basis.pyx:48-52, spf_basis.pyx:48-52 get_basis_type for Np = None: the smallest of uint32, uint64
   and Python integers that holds sps**L-1; sps is 2 for spinful fermions *)
Definition full_type (sps : N) (L : nat) : M_bits1d.btype :=
  (if sps ^ N.of_nat L - 1 <? 2 ^ 32 then M_bits1d.U32 else if sps ^ N.of_nat L - 1 <? 2 ^ 64 then M_bits1d.U64 else M_bits1d.PyInt)%N.
