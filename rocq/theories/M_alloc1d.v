(* Model of the sizes of the arrays that the constructors of the one-dimensional bases allocate before filling them. *)
From Verif Require Import AuxN M_bits1d SpecChain1d M_hdim.
From Flocq Require Import Core.
From Coq Require Import Reals.
Local Open Scope Z_scope.

(* hcp_basis.pyx:66-79, boson_basis.pyx:64-76, spf_basis.pyx:75-87 get_Ns, first part: the number of states without
   symmetries.  np is the argument Np (None or the list of particle numbers); for spinful fermions its elements are pairs, for
   the others the second component is not used.
     if Np is None: Ns = sps**L (spinful: sps**(2*L))
     else: Ns = 0; for np in Np: Ns += H_dim(np,L,sps-1)  (spinful: H_dim(np_left,L,sps-1)*H_dim(np_right,L,sps-1)) *)
Definition sector_size (k : kind) (L : nat) (np : nat * nat) : Z :=
  match k with
  | Spf => H_dim (fst np) L (N.to_nat (levels k) - 1) * H_dim (snd np) L (N.to_nat (levels k) - 1)
  | _ => H_dim (fst np) L (N.to_nat (levels k) - 1)
  end.
Definition number_of_states (k : kind) (L : nat) (np : option (list (nat * nat))) : Z :=
  match np with
  | None => Z.of_N (levels k ^ N.of_nat (sites k L))
  | Some l => fold_left (fun Ns np => Ns + sector_size k L np) l 0
  end.
(* a Python float operation: the exact result rounded to the nearest double, ties to even (no overflow) *)
Definition float64 (x : R) : R := round radix2 (FLT_exp (-1074) 53) ZnearestE x.
(* hcp_basis.pyx:81-85, boson_basis.pyx:78-82, spf_basis.pyx:89-93 get_Ns, second part.
     if kblock is not None: return int((1+1.0/(L//a))*Ns/(L//a)+(L//a))
     else: return Ns
   int truncates. base_1d.py:105 allocates arrays of this length (base_1d.py:140-420 _np.empty((Ns,),...)). *)
Definition estimate (Ns : Z) (n : nat) : Z :=
  Ztrunc (float64 (float64 (float64 (float64 (1 + float64 (1 / INR n)) * float64 (IZR Ns)) / INR n) + INR n)).
Definition get_Ns (k : kind) (L a : nat) (np : option (list (nat * nat))) (kblock : bool) : Z :=
  if kblock then estimate (number_of_states k L np) (L / a) else number_of_states k L np.
