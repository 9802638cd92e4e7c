(* Specification of the evolution with a complete eigenbasis: eigenbases, the equation of motion of density matrices. *)
From Verif Require Import AuxN SpecC SpecExpm SpecLanczos SpecExpect SpecFloquet.
Local Open Scope nat_scope.

(* the columns of V are an orthonormal basis of eigenvectors of H, with the real eigenvalues E *)
Definition eigenbasis (n : nat) (H : mat) (E : list R) (V : mat) : Prop :=
  length E = n /\ unitary n V /\ forall j k, j < n -> k < n -> apply n H (column V j) k = (RtoC (nth j E 0%R) * V k j)%C.
(* rho' = -i (H rho - rho H), entry by entry *)
Definition solves_density (n : nat) (H : mat) (rho : R -> mat) : Prop :=
  forall t i l, i < n -> l < n -> has_derivative (fun s => rho s i l) t (- Ci * (mul n H (rho t) i l - mul n (rho t) H i l))%C.
Definition evolves_density (n : nat) (H : mat) (T : R) (r0 r1 : mat) : Prop :=
  exists rho, solves_density n H rho /\ (forall i l, i < n -> l < n -> rho 0%R i l = r0 i l) /\ (forall i l, i < n -> l < n -> rho T i l = r1 i l).
(* sum of p |v><v| *)
Definition mixture (l : list (R * vec)) : mat := fun i k => Csum l (fun x => RtoC (fst x) * (snd x i * Cconj (snd x k)))%C.
