(* Model of the dimension formula of boson sectors. *)
From Verif Require Import AuxN SpecSector.
Local Open Scope Z_scope.

(* sum of f over range(n) *)
Fixpoint zsum (n : nat) (f : nat -> Z) : Z := match n with O => 0 | S n' => zsum n' f + f n' end.

(* boson.py:7-27 H_dim(Np,N,m_max); the same code in boson_core.pyx:22-41, higher_spin_core.pyx:20-39 and
   basis_1d/_basis_1d_core/{hcp,boson,spf}_basis.pyx.
     Ns = 0
     for r in range(N//(m_max+1)+1):
         r_2 = N - r*(m_max+1)
         if r % 2 == 0: Ns +=  comb(length,r) * comb(length + r_2 - 1,r_2)
         else:          Ns += -comb(length,r) * comb(length + r_2 - 1,r_2)
   scipy.special.comb(.,.,exact=True) is Pascal's triangle for the non-negative arguments that occur for length >= 1. *)
Definition H_dim (Np length m_max : nat) : Z :=
  zsum (Np / (m_max + 1) + 1) (fun r =>
    let r_2 := (Np - r * (m_max + 1))%nat in
    if Nat.even r then Z.of_nat (binom length r) * Z.of_nat (binom (length + r_2 - 1) r_2)
    else - (Z.of_nat (binom length r)) * Z.of_nat (binom (length + r_2 - 1) r_2)).
