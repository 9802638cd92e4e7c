(* The families of words of the checks. *)
From Verif Require Import AuxN SpecMaps SpecFermi SpecChain M_bits1d SpecChain1d SpecCheck1d M_check1d P_maps P_square P_bits1d P_bits1d4 P_bits1d5 P_check1d P_check1d2 P_check1d3 P_check1d4 P_check1d5.
Local Open Scope nat_scope.

Ltac fgen := match goal with |- product_of _ [] => exists [] | |- product_of _ [?a] => exists [[a]] | |- product_of [[?a; ?b]] [?a; ?b] => exists [[a; b]] | |- product_of [_; [?a; ?b]] [?a; ?b] => exists [[a; b]] | |- product_of _ [?a; ?b] => exists [[a]; [b]] end;
  split; [repeat constructor; cbn; tauto|reflexivity].
Ltac finl H := cbn in H; repeat match type of H with _ \/ _ => destruct H as [<-|H] end; try (destruct H; fail).
Ltac fcl := first [exists []; split; [cbn; tauto|reflexivity]|exists [LP]; split; [cbn; tauto|reflexivity]|exists [LZ]; split; [cbn; tauto|reflexivity]|exists [LA]; split; [cbn; tauto|reflexivity]|exists [LB]; split; [cbn; tauto|reflexivity]|exists [LP; LZ]; split; [cbn; tauto|reflexivity]|exists [LA; LB]; split; [cbn; tauto|reflexivity]].
Ltac fam SF HTL tac := constructor;
  [exact SF|exact HTL
  |let g := fresh in let H := fresh in intros g H; finl H; repeat (apply Forall_cons || apply Forall_nil); split; tac
  |first [left; reflexivity|let g := fresh in let H := fresh in intros g H X; finl H; cbn in X; decompose [or] X; discriminate || contradiction]
  |let g := fresh in let H := fresh in intros g H; finl H; fgen
  |left; reflexivity
  |let g := fresh in let H := fresh in let X := fresh in intros g H X; finl H; cbn in X; decompose [or] X; discriminate || contradiction
  |let p := fresh in let g := fresh in let H := fresh in let H' := fresh in intros p g H H'; finl H; finl H'; fcl].
Ltac okt := cbn; auto.
Section F.
Variables (w : btype) (k : kind) (L T : nat).
Hypothesis SF : states_fit w k L.
Lemma one_T : 1 <= 1 /\ exists n, L = 1 * n. Proof. split; [lia|]. exists L. lia. Qed.
Lemma fam_p : family w k L 1 false false [[LP]] [[]; [LP]]. Proof. fam SF one_T okt. Qed.
Lemma fam_z : has_inversion k -> family w k L 1 false false [[LZ]] [[]; [LZ]]. Proof. intros HI. fam SF one_T okt. Qed.
Lemma fam_pz : has_inversion k -> family w k L 1 false false [[LP; LZ]] [[]; [LP; LZ]]. Proof. intros HI. fam SF one_T okt. Qed.
Lemma fam_p_z : has_inversion k -> family w k L 1 false false [[LP]; [LZ]] [[]; [LP]; [LZ]; [LP; LZ]]. Proof. intros HI. fam SF one_T okt. Qed.
Lemma fam_a : has_sublattices k -> family w k L 1 true false [[LA]] [[]; [LA]]. Proof. intros HI. fam SF one_T okt. Qed.
Lemma fam_b : has_sublattices k -> family w k L 1 true false [[LB]] [[]; [LB]]. Proof. intros HI. fam SF one_T okt. Qed.
Lemma fam_a_b : has_sublattices k -> family w k L 1 true false [[LA]; [LB]] [[]; [LA]; [LB]; [LA; LB]]. Proof. intros HI. fam SF one_T okt. Qed.
Hypothesis HC : cells w k L T.
Lemma cell_T : 1 <= T /\ exists n, L = T * n. Proof. destruct HC as (_ & H). exact H. Qed.
Lemma cell_le : T <= L. Proof. pose proof (HL1 w k L SF). destruct cell_T as [H1 [n E]]. destruct n; nia. Qed.
Lemma cell_lok : P_check1d.lok w k L T LT. Proof. split; [apply cell_le|apply HC]. Qed.
Ltac okT := first [exact cell_lok|cbn; auto].
Lemma fam_t : family w k L T false true [[LT]] [[]]. Proof. fam SF cell_T okT. Qed.
Lemma fam_tp : family w k L T false true [[LT]; [LP]] [[]; [LP]]. Proof. fam SF cell_T okT. Qed.
Lemma fam_tz : has_inversion k -> family w k L T false true [[LT]; [LZ]] [[]; [LZ]]. Proof. intros HI. fam SF cell_T okT. Qed.
Lemma fam_tpz : has_inversion k -> family w k L T false true [[LT]; [LP; LZ]] [[]; [LP; LZ]]. Proof. intros HI. fam SF cell_T okT. Qed.
Lemma fam_tp_z : has_inversion k -> family w k L T false true [[LT]; [LP]; [LZ]] [[]; [LP]; [LZ]; [LP; LZ]]. Proof. intros HI. fam SF cell_T okT. Qed.
Hypothesis Ex : Nat.even L = true /\ Nat.even T = true.
Lemma fam_ta : has_sublattices k -> family w k L T true true [[LT]; [LA]] [[]; [LA]]. Proof. intros HI. fam SF cell_T okT. Qed.
Lemma fam_tb : has_sublattices k -> family w k L T true true [[LT]; [LB]] [[]; [LB]]. Proof. intros HI. fam SF cell_T okT. Qed.
Lemma fam_ta_b : has_sublattices k -> family w k L T true true [[LT]; [LA]; [LB]] [[]; [LA]; [LB]; [LA; LB]]. Proof. intros HI. fam SF cell_T okT. Qed.
End F.
