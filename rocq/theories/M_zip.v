(* Model of save_zip and load_zip, quspin/operators/quantum_operator_core.py:1470-1566.  A zip archive is a list of named members in the
   order written.  pickle, save_npz/load_npz and savez/load are taken to return what was stored, and load_npz to fail on a file written by
   savez; names that the file system rejects for other reasons than a slash (which names a directory that does not exist) are not modelled. *)
From Verif Require Import AuxN SpecZip.
Local Open Scope nat_scope.

Fixpoint starts (p s : name) : bool :=
  match p, s with [], _ => true | _, [] => false | a :: p', b :: s' => (a =? b)%char && starts p' s' end.
(* p in s *)
Fixpoint sub_in (p s : name) : bool := starts p s || match s with [] => false | _ :: s' => sub_in p s' end.
(* s.replace(p, ""): occurrences are removed from left to right without overlaps; skip counts the characters still to be removed *)
Fixpoint remove_all (p : name) (skip : nat) (s : name) : name :=
  match s with
  | [] => []
  | c :: s' => match skip with
               | S k => remove_all p k s'
               | O => if starts p s then remove_all p (length p - 1) s' else c :: remove_all p 0 s'
               end
  end.

Section Zip.
Context {M B : Type}.
Variable mat_dtype : M -> dtype.
(* _make_hamiltonian.py:12-20  _check_almost_zero *)
Variable almost_zero : M -> bool.
Inductive content := Pickle (b : B) | Npz (m : M) | Npy (m : M).
Definition archive := list (name * content).

(* quantum_operator_core.py:1504-1511  the name of the member *)
Definition file_of (sparse : bool) (k : name) : name := text (if sparse then "sparse_" else "dense_") ++ k ++ text ".npz".
(* :1503-1520  the loop over the matrices; the second component says whether it finished *)
Fixpoint save_terms (l : list (name * (bool * M))) (arch : archive) : archive * bool :=
  match l with
  | [] => (arch, true)
  | (k, (sparse, m)) :: l' =>
      let file := file_of sparse k in
      if existsb (Ascii.eqb "/") k then (arch, false)
      else if existsb (fun e => if list_eq_dec ascii_dec (fst e) file then true else false) arch then (arch, false)
      else save_terms l' (arch ++ [(file, if sparse then Npz m else Npy m)])
  end.
(* :1490-1502  save_zip: what the archive holds afterwards, and whether the call returned *)
Definition save_zip (o : op M B) (save_basis : bool) : archive * bool :=
  save_terms (terms o) (match op_basis o with Some b => if save_basis then [(text "basis.pickle", Pickle b)] else [] | None => [] end).

Definition dput (d : list (name * (bool * M))) (k : name) (m : bool * M) : list (name * (bool * M)) :=
  (fix go d := match d with [] => [(k, m)] | e :: d' => if list_eq_dec ascii_dec (fst e) k then (fst e, m) :: d' else e :: go d' end) d.
(* :1537-1564  the loop over the members: the dictionary, the data type and the basis so far *)
Fixpoint load_terms (arch : archive) (d : list (name * (bool * M))) (t : option dtype) (b : option B) : option (list (name * (bool * M)) * option dtype * option B) :=
  match arch with
  | [] => Some (d, t, b)
  | (file, c) :: arch' =>
      if list_eq_dec ascii_dec file (text "basis.pickle") then match c with Pickle b' => load_terms arch' d t (Some b') | _ => None end
      else if sub_in (text "sparse") file then
        match c with
        | Npz m => load_terms arch' (dput d (remove_all (text ".npz") 0 (remove_all (text "sparse_") 0 file)) (true, m))
                              (Some (match t with None => mat_dtype m | Some t' => result_type t' (mat_dtype m) end)) b
        | _ => None
        end
      else
        match c with
        | Npy m => load_terms arch' (dput d (remove_all (text ".npz") 0 (remove_all (text "dense_") 0 file)) (false, m))
                              (Some (match t with None => mat_dtype m | Some t' => result_type t' (mat_dtype m) end)) b
        | _ => None
        end
  end.
(* :1566 and 100-104, 281-290  the constructor rejects unsupported data types and drops matrices that are almost zero *)
Definition load_zip (arch : archive) : option (op M B) :=
  match load_terms arch [] None None with
  | Some (d, Some t, b) => if supported t then Some {| terms := filter (fun e => negb (almost_zero (snd (snd e)))) d; op_dtype := t; op_basis := b |} else None
  | _ => None
  end.
End Zip.
