From Verif Require Import AuxN SpecZip M_zip.
Local Open Scope nat_scope.

Lemma starts_true p s : starts p s = true <-> exists b, s = p ++ b.
Proof.
  revert s. induction p as [|a p IH]; intros s; cbn.
  - split; [exists s; reflexivity|reflexivity].
  - destruct s as [|b s]; [split; [discriminate|intros [b H]; discriminate]|].
    rewrite andb_true_iff, Ascii.eqb_eq, IH. split.
    + intros [-> [c ->]]. exists c. reflexivity.
    + intros [c H]. injection H as -> ->. split; [reflexivity|exists c; reflexivity].
Qed.
Lemma sub_in_true p s : sub_in p s = true <-> contains p s.
Proof.
  unfold contains. induction s as [|c s IH]; cbn [sub_in]; rewrite orb_true_iff, starts_true; split.
  - intros [[b ->]|H]; [exists [], b; reflexivity|discriminate].
  - intros (a & b & H). left. destruct a; [exists b; exact H|discriminate].
  - intros [[b H]|H]; [exists [], b; exact H|]. apply IH in H. destruct H as (a & b & ->). exists (c :: a), b. reflexivity.
  - intros ([|c' a] & b & H); [left; exists b; exact H|]. right. apply IH. injection H as -> ->. exists a, b. reflexivity.
Qed.
Lemma not_starts p s : ~ contains p s -> starts p s = false.
Proof. intros H. destruct (starts p s) eqn:E; [|reflexivity]. exfalso. apply H. apply starts_true in E. destruct E as [b ->]. exists [], b. reflexivity. Qed.
Lemma contains_cons p c s : contains p s -> contains p (c :: s).
Proof. intros (a & b & ->). exists (c :: a), b. reflexivity. Qed.
Lemma remove_none p s : ~ contains p s -> remove_all p 0 s = s.
Proof.
  induction s as [|c s IH]; intros H; [reflexivity|]. cbn [remove_all]. rewrite not_starts by exact H. f_equal. apply IH.
  intros X. apply H, contains_cons, X.
Qed.
Lemma remove_length p s : forall k, length (remove_all p k s) <= length s.
Proof. induction s as [|c s IH]; intros k; cbn [remove_all length]; [lia|]. destruct k; [destruct (starts p (c :: s)); cbn [length]|]; rewrite ?IH; auto with arith. Qed.
Lemma remove_shorter p s : p <> [] -> contains p s -> length (remove_all p 0 s) < length s.
Proof.
  intros Np. induction s as [|c s IH]; intros H.
  - destruct H as (a & b & H). symmetry in H. apply app_eq_nil in H. destruct H as [_ H]. apply app_eq_nil in H. destruct H. contradiction.
  - cbn [remove_all length]. destruct (starts p (c :: s)) eqn:E.
    + pose proof (remove_length p s (length p - 1)). lia.
    + cbn [length]. destruct H as ([|c' a] & b & H).
      * exfalso. assert (starts p (c :: s) = true) by (apply starts_true; exists b; exact H). congruence.
      * injection H as -> ->. specialize (IH (ex_intro _ a (ex_intro _ b eq_refl))). lia.
Qed.
(* a text whose first character does not occur inside p is not cut into by p *)
Lemma starts_app p s c t : ~ In c (tl p) -> s <> [] -> starts p (s ++ c :: t) = starts p s.
Proof.
  destruct p as [|a p]; [reflexivity|]. cbn [tl]. intros Hc. destruct s as [|x s]; [congruence|]. intros _. cbn [app starts]. f_equal.
  revert s. induction p as [|b p IH]; intros s; [reflexivity|]. destruct s as [|y s]; cbn [app starts].
  - replace (b =? c)%char with false; [reflexivity|]. symmetry. apply Ascii.eqb_neq. intros ->. apply Hc. left; reflexivity.
  - f_equal. apply IH. intros X. apply Hc. right; exact X.
Qed.
Lemma starts_len p s : starts p s = true -> length p <= length s.
Proof. intros H. apply starts_true in H. destruct H as [b ->]. rewrite app_length. lia. Qed.
Lemma remove_app p c t : ~ In c (tl p) -> forall s k, k <= length s -> remove_all p k (s ++ c :: t) = remove_all p k s ++ remove_all p 0 (c :: t).
Proof.
  intros Hc. induction s as [|x s IH]; intros k Hk.
  - cbn [length] in Hk. replace k with 0 by lia. reflexivity.
  - change ((x :: s) ++ c :: t) with (x :: (s ++ c :: t)). cbn [remove_all length] in *. destruct k as [|k]; [|apply IH; lia].
    rewrite app_comm_cons, starts_app by (auto || discriminate). destruct (starts p (x :: s)) eqn:E.
    + apply IH. apply starts_len in E. cbn [length] in E. lia.
    + cbn [app]. f_equal. apply IH. lia.
Qed.
Lemma remove_head p s : p <> [] -> remove_all p 0 (p ++ s) = remove_all p 0 s.
Proof.
  intros Np. destruct p as [|a p]; [congruence|]. cbn [app remove_all].
  replace (starts (a :: p) (a :: p ++ s)) with true by (symmetry; apply starts_true; exists s; reflexivity).
  replace (length (a :: p) - 1) with (length p) by (cbn [length]; lia).
  assert (G : forall q, remove_all (a :: p) (length q) (q ++ s) = remove_all (a :: p) 0 s); [|apply G].
  clear. intros q. induction q as [|b q IH]; [reflexivity|]. cbn [length app remove_all]. exact IH.
Qed.

Definition decode (sparse : bool) (file : name) : name := remove_all (text ".npz") 0 (remove_all (text (if sparse then "sparse_" else "dense_")) 0 file).
Lemma decode_file sparse k : decode sparse (file_of sparse k) = remove_all (text ".npz") 0 (remove_all (text (if sparse then "sparse_" else "dense_")) 0 k).
Proof.
  unfold decode, file_of. rewrite remove_head by (destruct sparse; discriminate).
  change (text ".npz") with ("."%char :: text "npz").
  rewrite remove_app by (try lia; destruct sparse; cbn; intuition; discriminate).
  replace (remove_all (text (if sparse then "sparse_" else "dense_")) 0 ("."%char :: text "npz")) with ("."%char :: text "npz") by (destruct sparse; reflexivity).
  rewrite remove_app by (try lia; cbn; intuition; discriminate).
  replace (remove_all ("."%char :: text "npz") 0 ("."%char :: text "npz")) with (@nil ascii) by reflexivity.
  rewrite app_nil_r. reflexivity.
Qed.
(* the name is recovered exactly when nothing in it looks like the added texts *)
Lemma decode_iff sparse k : decode sparse (file_of sparse k) = k <-> ~ contains (text ".npz") k /\ ~ contains (text (if sparse then "sparse_" else "dense_")) k.
Proof.
  rewrite decode_file. split.
  - intros E. set (p := text (if sparse then "sparse_" else "dense_")) in *.
    assert (Np : p <> []) by (unfold p; destruct sparse; discriminate).
    assert (L : length (remove_all (text ".npz") 0 (remove_all p 0 k)) = length k) by (rewrite E; reflexivity).
    assert (A : ~ contains p k).
    { intros H. pose proof (remove_shorter p k Np H). pose proof (remove_length (text ".npz") (remove_all p 0 k) 0). lia. }
    split; [|exact A]. intros H. rewrite (remove_none p k A) in L. assert (N2 : text ".npz" <> []) by discriminate.
    pose proof (remove_shorter _ _ N2 H). lia.
  - intros [A B]. rewrite (remove_none _ k B). apply remove_none, A.
Qed.

Lemma contains_split p c s t : ~ In c p -> contains p (s ++ c :: t) -> contains p s \/ contains p t.
Proof.
  intros Hc (a & b & E). revert s E. induction a as [|x a IH]; intros s E.
  - cbn [app] in E. left. revert s E. induction p as [|y p IHp]; intros s E; [exists [], s; reflexivity|].
    destruct s as [|z s]; cbn [app] in E; injection E as E1 E2; [exfalso; apply Hc; left; congruence|].
    destruct (IHp (fun h => Hc (or_intror h)) s E2) as (a' & b' & ->). subst z.
    (* p starts the rest *)
    assert (S : exists b2, a' ++ p ++ b' = p ++ b2).
    { clear IHp. assert (G : forall q u, (u ++ c :: t) = q ++ b -> ~ In c q -> exists b2, u = q ++ b2).
      { clear. induction q as [|w q IH]; intros u E N; [exists u; reflexivity|]. destruct u as [|v u]; cbn [app] in E; injection E as E1 E2; [exfalso; apply N; left; congruence|].
        destruct (IH u E2 (fun h => N (or_intror h))) as [b2 ->]. exists b2. subst. reflexivity. }
      apply (G p); [exact E2|]. intros h. apply Hc. right; exact h. }
    destruct S as [b2 ->]. exists [], b2. reflexivity.
  - destruct s as [|z s]; cbn [app] in E; injection E as E1 E2.
    + right. exists a, b. exact E2.
    + destruct (IH s E2) as [(a' & b' & ->)|H]; [left|right; exact H]. exists (z :: a'), b'. reflexivity.
Qed.
Lemma no_sparse : ~ contains (text "sparse") (text "npz").
Proof. rewrite <- sub_in_true. discriminate. Qed.
(* the test that tells the two kinds of files apart *)
Lemma sparse_file k : sub_in (text "sparse") (file_of true k) = true.
Proof. apply sub_in_true. exists [], (text "_" ++ k ++ text ".npz"). reflexivity. Qed.
Lemma dense_file k : sub_in (text "sparse") (file_of false k) = true <-> contains (text "sparse") k.
Proof.
  rewrite sub_in_true. unfold file_of. split.
  - intros H. change (text "dense_" ++ k ++ text ".npz") with (text "dense" ++ "_"%char :: (k ++ "."%char :: text "npz")) in H.
    apply contains_split in H; [|cbn; intuition; discriminate]. destruct H as [H|H].
    + exfalso. apply sub_in_true in H. discriminate.
    + apply contains_split in H; [|cbn; intuition; discriminate]. destruct H as [H|H]; [exact H|]. exfalso. apply no_sparse, H.
  - intros (a & b & ->). exists (text "dense_" ++ a), (b ++ text ".npz"). rewrite <- !app_assoc. reflexivity.
Qed.
Lemma file_inj s s' k k' : file_of s k = file_of s' k' -> s = s' /\ k = k'.
Proof.
  unfold file_of. destruct s, s'; intros H; try discriminate H; split; try reflexivity.
  - cbn in H. injection H as H. apply app_inv_tail in H. exact H.
  - cbn in H. injection H as H. apply app_inv_tail in H. exact H.
Qed.
Lemma file_basis s k : file_of s k <> text "basis.pickle".
Proof. destruct s; intros H; discriminate H. Qed.

Section Zip.
Context {M B : Type}.
Variable mat_dtype : M -> dtype.
Variable almost_zero : M -> bool.
Notation term := (name * (bool * M))%type.
Definition member (e : term) : name * @content M B := (file_of (fst (snd e)) (fst e), if fst (snd e) then Npz (snd (snd e)) else Npy (snd (snd e))).
Definition basis_part (o : op M B) (save_basis : bool) : @archive M B :=
  match op_basis o with Some b => if save_basis then [(text "basis.pickle", Pickle b)] else [] | None => [] end.
Definition no_slash (k : name) : Prop := ~ In "/"%char k.
Lemma slash k : no_slash k -> existsb (Ascii.eqb "/") k = false.
Proof.
  intros H. destruct (existsb (Ascii.eqb "/") k) eqn:E; [|reflexivity]. exfalso. apply H. apply existsb_exists in E. destruct E as (x & I & E).
  apply Ascii.eqb_eq in E. subst x. exact I.
Qed.
Lemma save_ok (l : list term) : forall arch, Forall (fun e => no_slash (fst e)) l -> NoDup (map (fun e => file_of (fst (snd e)) (fst e)) l) ->
  (forall e, In e l -> ~ In (file_of (fst (snd e)) (fst e)) (map fst arch)) -> save_terms l arch = (arch ++ map member l, true).
Proof.
  induction l as [|[k [s m]] l IH]; intros arch F N D; cbn [save_terms map].
  - rewrite app_nil_r. reflexivity.
  - inversion F; subst. inversion N; subst. cbn [fst snd] in *. rewrite slash by assumption.
    replace (existsb _ arch) with false.
    + rewrite IH; [rewrite <- app_assoc; reflexivity|assumption|assumption|]. intros e I J. rewrite map_app, in_app_iff in J. destruct J as [J|[J|[]]].
      * apply (D e); [right; assumption|exact J].
      * cbn [fst] in J. match goal with Hn : ~ In _ (map _ l) |- _ => apply Hn end. rewrite J. apply (in_map (fun e => file_of (fst (snd e)) (fst e))). exact I.
    + symmetry. destruct (existsb _ arch) eqn:E; [|reflexivity]. exfalso. apply existsb_exists in E. destruct E as (x & I & E).
      cbn beta in E. revert E. match goal with |- (if ?c then _ else _) = true -> _ => destruct c as [Q|] end; [intros _|intros W; discriminate W].
      apply (D (k, (s, m)) (or_introl eq_refl)). cbn [fst snd]. rewrite <- Q.
      apply in_map, I.
Qed.
Lemma files_nodup (l : list term) : NoDup (map fst l) -> NoDup (map (fun e => file_of (fst (snd e)) (fst e)) l).
Proof.
  induction l as [|e l IH]; cbn [map]; intros H; [constructor|]. inversion H; subst. constructor; [|auto].
  intros I. apply in_map_iff in I. destruct I as (e' & E & I). apply file_inj in E. destruct E as [_ E]. apply H2. rewrite <- E. apply in_map, I.
Qed.
Lemma save_spec o b : NoDup (map fst (terms o)) -> Forall (fun e => no_slash (fst e)) (terms o) ->
  save_zip o b = (basis_part o b ++ map member (terms o), true).
Proof.
  intros N F. unfold save_zip. fold (basis_part o b). apply save_ok; [exact F|apply files_nodup, N|]. intros e I J.
  assert (G : forall x, In x (map fst (basis_part o b)) -> x = text "basis.pickle").
  { unfold basis_part. destruct (op_basis o); [destruct b|]; intros x H; [destruct H as [H|[]]; symmetry; exact H|destruct H|destruct H]. }
  apply G in J. apply file_basis in J. exact J.
Qed.

(* numpy's type of all the matrices *)
Definition join_dtype (t : option dtype) (l : list term) : option dtype :=
  fold_left (fun t e => Some (match t with None => mat_dtype (snd (snd e)) | Some t' => result_type t' (mat_dtype (snd (snd e))) end)) l t.
Lemma dput_new (d : list term) k m : ~ In k (map fst d) -> dput d k m = d ++ [(k, m)].
Proof.
  unfold dput. induction d as [|e d IH]; intros H; [reflexivity|]. cbn [app]. match goal with |- (if ?c then _ else _) = _ => destruct c as [E|] end; [exfalso; apply H; left; exact E|].
  f_equal. apply IH. intros I. apply H. right; exact I.
Qed.
Definition plain_term (e : term) : Prop := plain (fst (snd e)) (fst e).
Lemma load_members (l : list term) : forall d t b, Forall plain_term l -> NoDup (map fst (d ++ l)) ->
  load_terms mat_dtype (map member l) d t b = Some (d ++ l, join_dtype t l, b).
Proof.
  induction l as [|[k [s m]] l IH]; intros d t b F N; cbn [map load_terms join_dtype fold_left member fst snd].
  - rewrite app_nil_r. reflexivity.
  - inversion F as [|? ? F1 F2]; subst. unfold plain_term, plain in F1. cbn [fst snd] in F1. destruct F1 as [F0 F1].
    destruct (list_eq_dec ascii_dec (file_of s k) (text "basis.pickle")) as [E|_]; [exfalso; exact (file_basis _ _ E)|].
    assert (D : decode s (file_of s k) = k) by (apply decode_iff; destruct s; tauto).
    assert (Nk : ~ In k (map fst d)).
    { rewrite map_app in N. cbn [map fst] in N. apply NoDup_remove_2 in N. intros I. apply N. apply in_or_app. left; exact I. }
    assert (N' : NoDup (map fst ((d ++ [(k, (s, m))]) ++ l))) by (rewrite <- app_assoc; exact N).
    destruct s.
    + rewrite sparse_file. unfold decode in D. rewrite D, dput_new by exact Nk. rewrite IH by assumption. rewrite <- app_assoc. reflexivity.
    + replace (sub_in (text "sparse") (file_of false k)) with false.
      * unfold decode in D. rewrite D, dput_new by exact Nk. rewrite IH by assumption. rewrite <- app_assoc. reflexivity.
      * symmetry. destruct (sub_in (text "sparse") (file_of false k)) eqn:E; [|reflexivity]. apply dense_file in E. tauto.
Qed.
Lemma load_basis o s (arch : @archive M B) :
  load_terms mat_dtype (basis_part o s ++ arch) [] None None = load_terms mat_dtype arch [] None (if s then op_basis o else None).
Proof.
  unfold basis_part. destruct (op_basis o) as [b|]; [|destruct s; reflexivity]. destruct s; [|reflexivity].
  cbn [app load_terms]. destruct (list_eq_dec ascii_dec (text "basis.pickle") (text "basis.pickle")); [reflexivity|congruence].
Qed.
End Zip.
