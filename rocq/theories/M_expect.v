(* Model of expt_value, quant_fluct and matrix_ele of quspin/operators/hamiltonian_core.py, quantum_operator_core.py and
   quantum_LinearOperator_core.py.  Arrays are taken at their values (the compiled products are modelled in M_sparse.v, the parameters of
   quantum_operator in M_qop.v); check=True. *)
From Verif Require Import AuxN SpecC SpecExpm SpecLanczos SpecExpect.
Local Open Scope nat_scope.

(* Raises: an exception *)
Inductive result := Num (z : C) | Nums (l : list C) | Tab (l : list (list C)) | Raises.
Definition rows (V : array) : nat := match V with V1 r _ | V2 r _ _ | V3 r _ _ _ | Sp r _ _ => r end.

(* hamiltonian_core.py:686-700 one product: the static part overwrites, the others are added *)
Definition product (H : operator) (t : R) (v : vec) : vec := fun i =>
  fold_left (fun acc d => acc + fst d t * Csum (seq 0 (Ns H)) (fun j => snd d i j * v j))%C (driven H) (Csum (seq 0 (Ns H)) (fun j => fixed H i j * v j))%C.
(* 617-722 dot.  With a list of times: 653-656 calls V.get_col of a scipy matrix, which does not exist; 658-675 one slice at a time; the slice
   of a one-dimensional array is a single number, which does not fit.  With one time: 677-716 (a three-dimensional array is rejected by the
   compiled products; dense matrices would be multiplied along the wrong axis, not modelled) *)
Definition dot (H : operator) (tm : time) (V : array) : option array :=
  if negb (rows V =? Ns H) then None else
  match tm, V with
  | At t, V1 r f => Some (V1 r (product H t f))
  | At t, V2 r k f => Some (V2 r k (fun i m => product H t (column f m) i))
  | At t, Sp r k f => Some (Sp r k (fun i m => product H t (column f m) i))
  | At _, V3 _ _ _ _ => None
  | Times ts, V2 r k f => if k =? length ts then Some (V2 r k (fun i m => product H (nth m ts 0%R) (column f m) i)) else None
  | Times ts, V3 r m k f =>
      if (k =? length ts) && (r =? m) then Some (V3 r m k (fun i l c => product H (nth c ts 0%R) (fun j => f j l c) i)) else None
  | Times _, (V1 _ _ | Sp _ _ _) => None
  end.

(* numpy: squeeze drops the dimensions of size one; None: nothing is left *)
Definition squeeze (V : array) : option array :=
  match V with
  | V1 r f => if r =? 1 then None else Some V
  | V2 r k f => match r =? 1, k =? 1 with true, true => None | true, false => Some (V1 k (f 0)) | false, true => Some (V1 r (fun i => f i 0)) | false, false => Some V end
  | _ => Some V
  end.
(* numpy: vdot flattens its arguments *)
Definition flat (V : array) : nat * vec :=
  match V with V1 r f => (r, f) | V2 r k f => (r * k, fun p => f (p / k) (p mod k)) | V3 r m k f => (r * m * k, fun p => f (p / (m * k)) (p / k mod m) (p mod k)) | Sp r k f => (r * k, fun p => f (p / k) (p mod k)) end.
Definition vdot (V W : array) : result :=
  let '(a, f) := flat V in let '(b, g) := flat W in if a =? b then Num (Csum (seq 0 a) (fun p => Cconj (f p) * g p)%C) else Raises.
(* numpy: einsum("ij,ij->j", conj(V), W) *)
Definition columns_dot (r k : nat) (f g : mat) : list C := map (fun m => Csum (seq 0 r) (fun i => Cconj (f i m) * g i m)%C) (seq 0 k).
(* hamiltonian_core.py:894-903 several times *)
Definition core_times (Vl Vr : array) : result :=
  match Vl, Vr with
  | V2 r k f, V2 r' k' g => if (r =? r') && (k =? k') then Nums (columns_dot r k f g) else Raises
  | V3 _ _ _ _, V3 r m k g => if r =? m then Nums (map (fun c => Csum (seq 0 r) (fun i => g i i c)) (seq 0 k)) else Raises
  | _, _ => Raises
  end.
(* 905-918 one time, quantum_operator_core.py:661-674, quantum_LinearOperator_core.py:414-427.  asscalar needs exactly one entry; shape[1] of
   a one-dimensional array and the trace of a number raise *)
Definition core_one (Vl Vr : array) (pure : bool) : result :=
  match Vr with
  | Sp r k g =>
    match Vl with
    | Sp r' k' f => if negb (r' =? k') || pure then (if k' * k =? 1 then Num (Csum (seq 0 r) (fun i => Cconj (f i 0) * g i 0)%C) else Raises) else Num (Csum (seq 0 r) (fun i => g i i))
    | _ => Raises
    end
  | _ =>
    match squeeze Vr with
    | None => Raises
    | Some (V1 r g) => vdot Vl (V1 r g)
    | Some (V2 r k g) =>
      match Vl with
      | V2 r' k' f => if negb (r' =? k') || pure then (if (r =? r') && (k =? k') then Nums (columns_dot r k f g) else Raises) else Num (Csum (seq 0 r) (fun i => g i i))
      | _ => Raises
      end
    | Some _ => Raises
    end
  end.
Definition core (tm : time) (Vl Vr : array) (pure : bool) : result := match tm with At _ => core_one Vl Vr pure | Times _ => core_times Vl Vr end.

(* hamiltonian_core.py:877-891 *)
Definition expt_value (H : operator) (tm : time) (pure : bool) (V : array) : result :=
  if Ns H =? 0 then Nums [] else match dot H tm V with None => Raises | Some W => core tm V W pure end.
Definition square (r : result) : result := match r with Num z => Num (z * z)%C | Nums l => Nums (map (fun z => z * z)%C l) | _ => Raises end.
Definition minus (a b : result) : result :=
  match a, b with
  | Num x, Num y => Num (x - y)%C
  | Nums l, Nums l' => if length l =? length l' then Nums (map (fun p => fst p - snd p)%C (combine l l')) else Raises
  | _, _ => Raises
  end.
(* len(V.shape) > 1 and V.shape[0] != V.shape[1] *)
Definition oblong (V : array) : bool := match V with V1 _ _ => false | V2 r k _ | Sp r k _ => negb (r =? k) | V3 r m _ _ => negb (r =? m) end.
(* 818-840 *)
Definition quant_fluct (H : operator) (tm : time) (pure : bool) (V : array) : result :=
  if Ns H =? 0 then Nums [] else
  match dot H tm V with
  | None => Raises
  | Some W =>
    let sq := square (core tm V W pure) in
    if oblong V || pure then minus (core tm W W pure) sq
    else match dot H tm W with None => Raises | Some W2 => minus (core tm V W2 pure) sq end
  end.

(* 958-985 matrix_ele; a scipy matrix on the right of a numpy array, and three-dimensional arrays on the left, are not modelled (Raises) *)
Definition table (k k' : nat) (f : mat) : list (list C) := map (fun a => map (f a) (seq 0 k')) (seq 0 k).
Definition matrix_ele (H : operator) (tm : time) (diagonal : bool) (Vl Vr : array) : result :=
  match dot H tm Vr with
  | None => Raises
  | Some W =>
    if negb (rows Vl =? Ns H) then Raises else
    let n := Ns H in
    let ip (f g : vec) := Csum (seq 0 n) (fun i => Cconj (f i) * g i)%C in
    match Vl, W with
    | _, V3 _ _ _ _ | V3 _ _ _ _, _ => Raises
    | V1 _ f, V1 _ g => if diagonal then Raises else Num (ip f g)
    | V1 _ f, V2 _ k g => if diagonal then Raises else Nums (map (fun m => ip f (column g m)) (seq 0 k))
    | (V2 _ k f | Sp _ k f), V1 _ g => if diagonal then Raises else Nums (map (fun m => ip (column f m) g) (seq 0 k))
    | V2 _ k f, V2 _ k' g | Sp _ k f, V2 _ k' g | Sp _ k f, Sp _ k' g =>
        if diagonal then (if k =? k' then Nums (map (fun m => ip (column f m) (column g m)) (seq 0 k)) else Raises)
        else Tab (table k k' (fun a b => ip (column f a) (column g b)))
    | _, Sp _ _ _ => Raises
    end
  end.

(* quantum_operator for fixed parameters, with the matrix A; quantum_operator_core.py:650-659 expt_value.  dot rejects more than two
   dimensions (473-474) *)
Definition q_dot (n : nat) (A : mat) (V : array) : option array :=
  if negb (rows V =? n) then None else
  match V with
  | V1 r f => Some (V1 r (apply n A f))
  | V2 r k f => Some (V2 r k (fun i m => apply n A (column f m) i))
  | Sp r k f => Some (Sp r k (fun i m => apply n A (column f m) i))
  | V3 _ _ _ _ => None
  end.
Definition q_expt_value (n : nat) (A : mat) (pure : bool) (V : array) : result :=
  if n =? 0 then Nums [] else match q_dot n A V with None => Raises | Some W => core_one V W pure end.
(* quantum_operator_core.py:591-613: V.shape[1] of a one-dimensional array raises IndexError; 610 uses the name time, which is not defined *)
Definition q_quant_fluct (n : nat) (A : mat) (pure : bool) (V : array) : result :=
  if n =? 0 then Nums [] else
  match q_dot n A V with
  | None => Raises
  | Some W =>
    let sq := square (core_one V W pure) in
    match sq, V with
    | Raises, _ => Raises
    | _, V1 _ _ => Raises
    | _, _ => if oblong V || pure then minus (core_one W W pure) sq else Raises
    end
  end.
(* quantum_LinearOperator_core.py:359-369: 360 uses the name check, which is not defined *)
Definition l_quant_fluct (n : nat) (A : mat) (pure : bool) (V : array) : result := if n =? 0 then Nums [] else Raises.
