(* Model of histories of views of a hamiltonian object (quspin/operators/hamiltonian_core.py). *)
From Verif Require Import AuxN SpecC SpecExpm SpecFunc SpecHam SpecViews M_func M_ham.
Local Open Scope nat_scope.

Section Views.
Variables (F Args : Type) (h : hashing F Args).
(* one step: the name that is used, and what is made of it.  1839-1854 transpose, 1861-1876 conjugate, 1886-1901 getH, 2053-2054 copy *)
Definition ham_view (hs : list (ham F Args)) (u : use) : act (ham F Args) :=
  match nth_error hs (name_of u) with
  | None => fail
  | Some A => match u with
              | View Tr copy _ => transpose F Args h copy A
              | View Cj _ _ => conjugate F Args h A
              | View Ad copy _ => getH F Args h copy A
              | Copy _ => copy_ham F Args h A
              | _ => fail end
  end.
Fixpoint ham_views (hs : list (ham F Args)) (us : list use) : act (list (ham F Args)) :=
  match us with [] => ret hs | u :: us' => run H <- ham_view hs u; ham_views (hs ++ [H]) us' end.
End Views.
