(* Specification: the symmetry block of a sector, sorted lists, contract of sorting routines, interleavings. *)
From Verif Require Import AuxN SpecC SpecSymm SpecSector.
Local Open Scope nat_scope.

(* s belongs to the block of sector S with quantum numbers qs, n = number of group elements fixing s *)
Definition in_block (S : N -> Prop) (nt : nat) (pers : list nat) (qs : list Z) (ms : smap) (s : N) (n : Z) : Prop :=
  S s /\ (forall t, reach nt ms s t -> (t <= s)%N) /\ compatible pers qs ms s /\
  n = Z.of_nat (length (filter (fun g => (fst (gact ms g s) =? s)%N) (group pers))).

(* a list of (state, norm) with strictly decreasing states holding exactly the pairs in P *)
Definition lists_decreasing (P : N -> Z -> Prop) (l : list (N * Z)) : Prop :=
  StronglySorted (fun a b => (fst b < fst a)%N) l /\ forall s n, In (s, n) l <-> P s n.

(* what std::sort / block_indirect_sort / numpy argsort guarantee when sorting by decreasing first component *)
Definition sorts_descending (inp out : list (N * Z)) : Prop :=
  Permutation inp out /\ StronglySorted (fun a b => (fst b <= fst a)%N) out.

(* r is some merge of the sequences ls that keeps the order inside each *)
Inductive interleave {A : Type} : list (list A) -> list A -> Prop :=
| il_done : forall ls, Forall (fun l => l = []) ls -> interleave ls []
| il_step : forall pre a l post r, interleave (pre ++ l :: post) r -> interleave (pre ++ (a :: l) :: post) (a :: r).

(* memory after a sequence of (address, value) stores *)
Definition stores {A : Type} (ws : list (nat * A)) (m : nat -> A) : nat -> A :=
  fold_left (fun m w => fun a => if a =? fst w then snd w else m a) ws m.
