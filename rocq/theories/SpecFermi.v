(* Specification: fermionic states under permutations of the orbitals. *)
From Verif Require Import AuxN SpecC SpecDigits SpecMaps SpecSymm SpecOps.
Local Open Scope nat_scope.

(* pairs of occupied orbitals k < l whose images are in the opposite order *)
Definition crossing (n : nat) (m : list Z) (s : N) (kl : nat * nat) : bool :=
  ((fst kl <? snd kl) && (target (nth (snd kl) m 0%Z) <? target (nth (fst kl) m 0%Z)) && (site_val 2 n s (fst kl) =? 1)%N && (site_val 2 n s (snd kl) =? 1)%N)%bool.
Definition crossings (n : nat) (m : list Z) (s : N) : nat := length (filter (crossing n m s) (list_prod (seq 0 n) (seq 0 n))).
(* occupied orbitals at odd positions that the map inverts *)
Definition odd_inverted (n : nat) (m : list Z) (s : N) : nat :=
  length (filter (fun k => (flips (nth k m 0%Z) && Nat.odd k && (site_val 2 n s k =? 1)%N)%bool) (seq 0 n)).
(* orbitals whose images are filled in the image of the vacuum and lie behind the image of i *)
Definition filled_behind (n : nat) (m : list Z) (i : nat) : nat :=
  length (filter (fun k => (flips (nth k m 0%Z) && (target (nth i m 0%Z) <? target (nth k m 0%Z)))%bool) (seq 0 n)).

Definition neg_one_pow (k : nat) : Z := if Nat.odd k then (-1)%Z else 1%Z.

(* the matrix of a signed map of states *)
Definition map_matrix (f : N -> N * Z) : cmat := fun r s => if (r =? fst (f s))%N then RtoC (IZR (snd (f s))) else C0.
(* orbital permutations without inversions *)
Definition no_inversion (m : list Z) : Prop := forall z, In z m -> flips z = false.
