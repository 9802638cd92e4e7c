(* Specification of exponentials of operators on a grid: laws of the matrix exponential, equidistant grids. *)
From Verif Require Import AuxN SpecC SpecExpm SpecHam.
Local Open Scope nat_scope.

Definition identity_mat : cmat := fun i j => if i =? j then C1 else C0.
Definition scaled (t : R) (M : cmat) : cmat := mat_scale (RtoC t) M.
(* E is the matrix exponential for the n x n matrices in K: what is used of it *)
Record exponential_on (n : nat) (K : cmat -> Prop) (E : cmat -> cmat) : Prop := {
  K_same : forall A B, K A -> same n A B -> K B;
  K_scale : forall c M, K M -> K (mat_scale c M);
  K_T : forall M, K M -> K (mat_T M);
  K_conj : forall M, K M -> K (mat_conj M);
  E_same : forall A B, K A -> same n A B -> same n (E A) (E B);
  E_zero : forall M, K M -> same n (E (scaled 0 M)) identity_mat;
  E_add : forall s t M, K M -> same n (E (scaled (s + t) M)) (mat_mul n (E (scaled s M)) (E (scaled t M)));
  E_T : forall M, K M -> same n (E (mat_T M)) (mat_T (E M));
  E_conj : forall M, K M -> same n (E (mat_conj M)) (mat_conj (E M))
}.
(* num equidistant points from start, the last one stop (endpoint) or one step before it *)
Definition equidistant (start stop : R) (num : nat) (endpoint : bool) (g : list R) : Prop :=
  length g = num /\ exists d, (forall k, k < num -> nth k g 0%R = (start + INR k * d)%R) /\
    (2 <= num -> (start + INR (if endpoint then num - 1 else num)%nat * d)%R = stop).
