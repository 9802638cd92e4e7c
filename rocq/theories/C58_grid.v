(* C58: block_ops.expm on a grid, also step by step. *)
From Verif Require Import AuxN SpecC SpecExpm SpecLanczos SpecExpect SpecFloquet SpecBlock M_symop P_floquet M_block P_block P_unique C58_block C58_expm C58_cases.
Local Open Scope nat_scope.

(* w = exp(t A) v determines w, and exponentials compose. *)
Theorem C58_exponential : forall n A,
  (forall t v w w', exponential n A t v w -> exponential n A t v w' -> forall k, k < n -> w k = w' k) /\
  (forall s t u v w, exponential n A s u v -> exponential n A t v w -> exponential n A (s + t) u w).
Proof. intros n A. split; [exact (exponential_unique n A)|exact (exponential_compose n A)]. Qed.
Print Assumptions C58_exponential.

(* With and without iterate, and with every version of scipy: the state for the k-th point of the grid is the exponential for this time. *)
Theorem C58_expm_grid : forall ext o n H psi0 te iterate jobs bd a shift start stop endpoint num,
  reachable ext o -> right_blocks ext o n H -> (forall M, given ext o n psi0 te a shift M -> right_expm1 ext M /\ right_grid1 ext M) ->
  used ext n psi0 o <> [] -> (bd = true -> S jobs <= length (used ext n psi0 o)) ->
  let A := affine a (match shift with Some s => s | None => C0 end) (H te) in
  let m := match num with Some m => m | None => 50 end in let e := match endpoint with Some e => e | None => true end in
  exists ws, fst (expm ext o n psi0 te iterate jobs bd a (Some start) (Some stop) endpoint num shift) = Returns ws /\ length ws = m /\
    forall k, k < m -> exponential n A (time start stop m e k) (used_part ext o n psi0) (nth k ws z0).
Proof.
  intros ext o n H psi0 te iterate jobs bd a shift start stop endpoint num HR HB HE HU HJ A m e.
  destruct (proj2 (C58_expm_partial ext o n H psi0 te iterate jobs bd a shift HR HB HE HU HJ) start stop endpoint num) as (ws & E & L & P).
  exists ws. split; [exact E|]. split; [exact L|]. intros k Hk. specialize (P k Hk). fold A m e in P. destruct (iterate || old_scipy ext)%bool; [|exact P].
  apply exponentials_repeat in P. replace (time start stop m e k) with (start + INR k * (time start stop m e 1 - start))%R; [exact P|].
  unfold time. cbn [INR]. ring.
Qed.
Print Assumptions C58_expm_grid.

(* So the result does not depend on iterate, on the number of jobs and on block_diag. *)
Theorem C58_expm_options : forall ext o n H psi0 te iterate jobs bd iterate' jobs' bd' a shift start stop endpoint num,
  reachable ext o -> right_blocks ext o n H -> (forall M, given ext o n psi0 te a shift M -> right_expm1 ext M /\ right_grid1 ext M) ->
  used ext n psi0 o <> [] -> (bd = true -> S jobs <= length (used ext n psi0 o)) -> (bd' = true -> S jobs' <= length (used ext n psi0 o)) ->
  exists ws ws', fst (expm ext o n psi0 te iterate jobs bd a (Some start) (Some stop) endpoint num shift) = Returns ws /\
    fst (expm ext o n psi0 te iterate' jobs' bd' a (Some start) (Some stop) endpoint num shift) = Returns ws' /\
    length ws = length ws' /\ forall k i, k < length ws -> i < n -> nth k ws z0 i = nth k ws' z0 i.
Proof.
  intros ext o n H psi0 te iterate jobs bd iterate' jobs' bd' a shift start stop endpoint num HR HB HE HU HJ HJ'.
  destruct (C58_expm_grid ext o n H psi0 te iterate jobs bd a shift start stop endpoint num HR HB HE HU HJ) as (ws & E & L & P).
  destruct (C58_expm_grid ext o n H psi0 te iterate' jobs' bd' a shift start stop endpoint num HR HB HE HU HJ') as (ws' & E' & L' & P').
  exists ws, ws'. split; [exact E|]. split; [exact E'|]. split; [congruence|]. intros k i Hk Hi. rewrite L in Hk.
  exact (exponential_unique n _ _ _ _ _ (P k Hk) (P' k Hk) i Hi).
Qed.
Print Assumptions C58_expm_options.

(* the three levels of C58_cases.v, two jobs and block_diag, step by step *)
Example three_expm_grid : exists ws, fst (expm three three_obj 3 ones 0 true 1 true (- Ci) (Some 0%R) (Some 2%R) None (Some 5) None) = Returns ws /\ length ws = 5 /\
  forall k, k < 5 -> exponential 3 (affine (- Ci) C0 (H3 0)) (INR k / 2) (used_part three three_obj 3 ones) (nth k ws z0).
Proof.
  destruct (C58_expm_grid three three_obj 3 H3 ones 0 true 1 true (- Ci)%C None 0%R 2%R None (Some 5) three_reachable (three_blocks three_obj) (three_expm three_obj ones 0 (- Ci)%C None)) as (ws & E & L & P).
  - rewrite three_used. discriminate.
  - rewrite three_used. cbn. lia.
  - exists ws. split; [exact E|]. split; [exact L|]. intros k Hk. specialize (P k Hk). replace (INR k / 2)%R with (time 0 2 5 true k); [exact P|].
    unfold time. cbn [Nat.sub]. replace (INR 4) with 4%R by (cbn; ring). field.
Qed.
