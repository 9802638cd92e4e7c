(* Model of /repo/quspin/operators/_functions.py.  None is an exception (AttributeError, or RecursionError when the fuel of a product is used up). *)
From Verif Require Import AuxN SpecC SpecExpm SpecFunc.
Local Open Scope nat_scope.

Definition bind {A B} (x : option A) (f : A -> option B) : option B := match x with Some a => f a | None => None end.
Notation "'do' x <- a ; b" := (bind a (fun x => b)) (at level 200, x name, a at level 100, b at level 200).

(* sorting a list of integers in place (69) *)
Fixpoint insert (x : Z) (l : list Z) : list Z := match l with [] => [x] | y :: l' => if (x <=? y)%Z then x :: l else y :: insert x l' end.
Definition sort (l : list Z) : list Z := fold_right insert [] l.

Section Func.
Variables (F Args : Type).
(* the value of a user's function at a time with the extra arguments *)
Variable call : F -> Args -> R -> C.
Variable h : hashing F Args.

(* the classes function 5-8, mul_function 54-78, conjugate_function 98-103, pow_function 121-127 *)
Inductive fn := Fun (f : F) (a : Args) | Mul (x y : fn) | Conj (x : fn) | Pow (x : fn) (p : nat).
(* __call__ 41-42, 80-81, 105-106, 129-130 *)
Fixpoint eval (x : fn) (t : R) : C :=
  match x with Fun f a => call f a t | Mul x y => (eval x t * eval y t)%C | Conj x => Cconj (eval x t) | Pow x p => Cpow (eval x t) p end.
(* _hash_list 34-35, 66-70, 114-115, 135-136: _f and _args exist only in objects of the class function itself *)
Fixpoint hash_list (x : fn) : option (list Z) :=
  match x with
  | Fun f a => Some [h_fun h f a]
  | Mul x y => do l <- hash_list x; do l' <- hash_list y; Some (sort (l ++ l'))
  | Conj x => match x with Fun f a => Some [h_conj h f a] | _ => None end
  | Pow x p => match x with Fun f a => Some [h_pow h f a p] | _ => None end
  end.
(* __hash__ 37-39 *)
Definition hash (x : fn) : option Z := do l <- hash_list x; Some (h_tuple h l).
(* __eq__ 22-26 *)
Definition feq (x y : fn) : option bool := do a <- hash x; do b <- hash y; Some (a =? b)%Z.
(* __contains__ 31-32, 72-73, 117-118, 144-145 *)
Fixpoint contains (x other : fn) : option bool :=
  match x with
  | Fun _ _ => feq x other
  | Mul x y => do b <- contains x other; if b then Some true else contains y other
  | Conj x => contains x other
  | Pow x _ => contains x other
  end.
(* __mul__ 44-50, 87-93, 138-142 *)
Fixpoint fmul (fuel : nat) (x other : fn) : option fn :=
  match fuel with
  | 0 => None
  | S fuel =>
    match x with
    | Fun _ _ | Conj _ => do e <- feq x other; if e then Some (Pow x 2) else
        do c <- contains other x; if c then fmul fuel other x else Some (Mul x other)
    | Mul x1 x2 => do c <- contains x1 other; if c then (do y <- fmul fuel x1 other; Some (Mul y x2)) else
        do c2 <- contains x2 other; if c2 then (do y <- fmul fuel x2 other; Some (Mul x1 y)) else Some (Mul x other)
    | Pow x1 p => do e <- feq x1 other; if e then Some (Pow x1 (p + 1)) else Some (Mul x other)
    end
  end.
(* conjugate 10-11, 108-109; conj 19-20 *)
Definition fconj (x : fn) : option fn :=
  match x with Fun f a => Some (Conj (Fun f a)) | Conj x => Some x | _ => None end.
End Func.
Arguments Fun {F Args}. Arguments Mul {F Args}. Arguments Conj {F Args}. Arguments Pow {F Args}.
Arguments eval {F Args}. Arguments hash_list {F Args}. Arguments hash {F Args}. Arguments feq {F Args}. Arguments contains {F Args}. Arguments fmul {F Args}. Arguments fconj {F Args}.

(* Python's hash of an integer of absolute value below 2^61-1, and of a tuple from the hashes of its elements (given by comb) *)
Definition py_hash_int (x : Z) : Z := if (x =? -1)%Z then (-2)%Z else x.
Definition py_hashing (comb : list Z -> Z) (i_hash : Z) : hashing Z (list Z) :=
  {| h_fun := fun f a => comb [f; comb (map py_hash_int a)]; h_conj := fun f a => comb [i_hash; f; comb (map py_hash_int a)];
     h_pow := fun f a p => comb [f; comb (map py_hash_int a); Z.of_nat p]; h_tuple := fun l => comb (map py_hash_int l) |}.
