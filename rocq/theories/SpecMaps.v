(* Specification: signed site permutations and their action on states. *)
From Verif Require Import AuxN SpecDigits.
From Coq Require Export Permutation.
Local Open Scope N_scope.

(* a map entry z >= 0 sends a site to site z; z < 0 sends it to site -(z+1) and inverts it *)
Definition target (z : Z) : nat := Z.to_nat (if (z <? 0)%Z then (- z - 1)%Z else z).
Definition flips (z : Z) : bool := (z <? 0)%Z.

(* every site is the target of exactly one of the n entries *)
Definition signed_perm (n : nat) (m : list Z) : Prop := Permutation (map target m) (seq 0 n).

(* value at site j of an n-site state with local dimension B; site 0 is the most significant digit *)
Definition site_val (B : N) (n : nat) (s : N) (j : nat) : N := digit B s (n - 1 - j).

(* t is s with every site j moved to its target, inverted (v -> B-1-v) where the map says so *)
Definition moved (B : N) (n : nat) (m : list Z) (s t : N) : Prop :=
  t < B ^ N.of_nat n /\
  forall j, (j < n)%nat ->
    site_val B n t (target (nth j m 0%Z)) =
    if flips (nth j m 0%Z) then B - 1 - site_val B n s j else site_val B n s j.
