From Verif Require Import Base BaseLemmas Tac RndModel RndLemmas RandSpec RandSeqModel ShuffleProofs HackModel HackSpec HackProofs HackProofs2 HackProofs3 HackProofs5.
From Coq Require Import ZArith List Lia Permutation.
Import ListNotations.
Open Scope Z_scope.

Lemma abs_step : forall n f l r m M, 0 <= l -> r < Z.of_nat n -> 47 <= r - l + 1 -> (forall i, l <= i <= r -> f i = NO_VALUE) -> M = m + (r - l + 1) -> (-1 < m \/ M < -1) ->
  forall e0 e1 e2 e3 e4, l + 2 < e0 -> e0 < e1 -> e1 < e2 -> e2 < e3 -> e3 < e4 -> e4 < r - 2 -> forall fuel g, is_i64 m -> is_i64 M -> (Z.to_nat (r - l) <= fuel)%nat -> fiveIndices l r = [e0; e1; e2; e3; e4] ->
  dualPivot fuel l r (mkHacked (arr n f) (arr n g) m M) = Ok (mkHacked (arr n (K3 f l r m M)) (arr n (T l r e0 e1 e3 e4 g)) (m + 2) (M - 2), l + 2, r - 2, m + 1, M - 1).
Proof.
  intros n f l r m M Hl Hr HL HF HM NO e0 e1 e2 e3 e4 E0 E1 E2 E3 E4 E5 fuel g I1 I2 FU EF.
  unfold dualPivot. rewrite EF. change (aget [e0; e1; e2; e3; e4] 0) with (Ok e0). change (aget [e0; e1; e2; e3; e4] 1) with (Ok e1). change (aget [e0; e1; e2; e3; e4] 3) with (Ok e3). change (aget [e0; e1; e2; e3; e4] 4) with (Ok e4). cbv zeta. cbn [bind].
  rewrite setMin_arr; [|lia|apply HF; lia|mach; lia]. cbn [bind].
  rewrite setMin_arr; [|lia|rewrite fset_other by lia; apply HF; lia|mach; lia]. cbn [bind].
  rewrite setMax_arr; [|lia|rewrite !fset_other by lia; apply HF; lia|mach; lia]. cbn [bind].
  rewrite setMax_arr; [|lia|rewrite !fset_other by lia; apply HF; lia|mach; lia]. cbn [bind].
  replace (m + 1 + 1) with (m + 2) by lia. replace (M - 1 - 1) with (M - 2) by lia.
  set (f1 := fset (fset (fset (fset f e4 m) e3 (m + 1)) e0 M) e1 (M - 1)).
  assert (A0 : f1 e0 = M) by (unfold f1, fset; eqbs; reflexivity). assert (A1 : f1 e1 = M - 1) by (unfold f1, fset; eqbs; reflexivity).
  assert (A3 : f1 e3 = m + 1) by (unfold f1, fset; eqbs; reflexivity). assert (A4 : f1 e4 = m) by (unfold f1, fset; eqbs; reflexivity).
  assert (AM : forall i, l <= i <= r -> i <> e0 -> i <> e1 -> i <> e3 -> i <> e4 -> f1 i = NO_VALUE) by (intros i I D0 D1 D3 D4; unfold f1, fset; eqbs; apply HF; lia).
  pose proof (rest_gen n l r Hl Hr e0 e1 e2 e3 e4 E0 E1 E2 E3 E4 E5 (m + 2) (M - 2) fuel f1 g FU) as R. rewrite A0, A1, A3, A4, (AM e2) in R by lia.
  unfold rest in R. rewrite R; try less.
  - do 6 f_equal. apply arr_ext. intros i I. unfold T, K3. rewrite A0, A1, A3, A4. eqbs; try reflexivity; try (rewrite AM by lia; symmetry; apply HF; lia). unfold f1, fset. eqbs; reflexivity.
  - intros i I D0 D1 D3 D4. rewrite AM by assumption. split; less.
Qed.
Lemma setMin_no : forall n f g a b i, 0 <= i < Z.of_nat n -> f i <> NO_VALUE -> setMin (mkHacked (arr n f) (arr n g) a b) i = Ok (mkHacked (arr n f) (arr n g) a b).
Proof. intros n f g a b i I F. unfold setMin. cbn [hdata]. rewrite aget_arr by exact I. cbn [bind]. replace (f i =? NO_VALUE) with false by (symmetry; apply Z.eqb_neq; exact F). reflexivity. Qed.
Lemma setMax_no : forall n f g a b i, 0 <= i < Z.of_nat n -> f i <> NO_VALUE -> setMax (mkHacked (arr n f) (arr n g) a b) i = Ok (mkHacked (arr n f) (arr n g) a b).
Proof. intros n f g a b i I F. unfold setMax. cbn [hdata]. rewrite aget_arr by exact I. cbn [bind]. replace (f i =? NO_VALUE) with false by (symmetry; apply Z.eqb_neq; exact F). reflexivity. Qed.
(* the same step on the values themselves *)
Lemma conc_step : forall n c l r m M, 0 <= l -> r < Z.of_nat n -> (-1 < m \/ M < -1) -> m + 4 <= M ->
  forall e0 e1 e2 e3 e4, l + 2 < e0 -> e0 < e1 -> e1 < e2 -> e2 < e3 -> e3 < e4 -> e4 < r - 2 -> forall fuel g a b, (Z.to_nat (r - l) <= fuel)%nat -> fiveIndices l r = [e0; e1; e2; e3; e4] ->
  c e0 = M -> c e1 = M - 1 -> c e3 = m + 1 -> c e4 = m -> (forall i, l <= i <= r -> i <> e0 -> i <> e1 -> i <> e3 -> i <> e4 -> m + 2 <= c i <= M - 2) ->
  dualPivot fuel l r (mkHacked (arr n c) (arr n g) a b) = Ok (mkHacked (arr n (T l r e0 e1 e3 e4 c)) (arr n (T l r e0 e1 e3 e4 g)) a b, l + 2, r - 2, m + 1, M - 1).
Proof.
  intros n c l r m M Hl Hr NO MM e0 e1 e2 e3 e4 E0 E1 E2 E3 E4 E5 fuel g a b FU EF A0 A1 A3 A4 AM.
  unfold dualPivot. rewrite EF. change (aget [e0; e1; e2; e3; e4] 0) with (Ok e0). change (aget [e0; e1; e2; e3; e4] 1) with (Ok e1). change (aget [e0; e1; e2; e3; e4] 3) with (Ok e3). change (aget [e0; e1; e2; e3; e4] 4) with (Ok e4). cbv zeta. cbn [bind].
  assert (X : forall z, m <= z <= M -> z <> NO_VALUE) by (unfold NO_VALUE; lia).
  rewrite setMin_no by (lia || apply X; lia). cbn [bind]. rewrite setMin_no by (lia || apply X; lia). cbn [bind]. rewrite setMax_no by (lia || apply X; lia). cbn [bind]. rewrite setMax_no by (lia || apply X; lia). cbn [bind].
  pose proof (rest_gen n l r Hl Hr e0 e1 e2 e3 e4 E0 E1 E2 E3 E4 E5 a b fuel c g FU) as R. pose proof (AM e2 ltac:(lia) ltac:(lia) ltac:(lia) ltac:(lia) ltac:(lia)) as A2. rewrite A0, A1, A3, A4 in R.
  unfold rest in R. apply R; try less. intros i I D0 D1 D3 D4. pose proof (AM i I D0 D1 D3 D4). split; less.
Qed.

Definition keeps (n : nat) (l r : Z) (g g' : Z -> Z) : Prop :=
  (forall i, 0 <= i < Z.of_nat n -> ~ l <= i <= r -> g' i = g i) /\ (forall i, l <= i <= r -> exists j, l <= j <= r /\ g i = g' j).
Lemma seg_keeps : forall n g (x y z q : list Z), arr n g = x ++ y ++ z -> Permutation y q ->
  exists g', x ++ q ++ z = arr n g' /\ keeps n (Z.of_nat (length x)) (Z.of_nat (length x + length y) - 1) g g'.
Proof.
  intros n g x y z q E P. assert (LN : n = (length x + length y + length z)%nat) by (rewrite <- (arr_len n g), E, !app_length; lia). pose proof (Permutation_length P) as LQ.
  exists (fun i => nth (Z.to_nat i) (x ++ q ++ z) 0). split; [apply as_arr; rewrite !app_length; lia|].
  assert (G : forall i, 0 <= i < Z.of_nat n -> g i = nth (Z.to_nat i) (x ++ y ++ z) 0) by (intros i I; rewrite <- E, arr_nth by lia; rewrite Z2Nat.id by lia; reflexivity). split.
  - intros i I O. rewrite (G i I). destruct (Z_lt_le_dec i (Z.of_nat (length x))) as [A|A]; [rewrite !app_nth1 by lia; reflexivity|]. rewrite !(app_nth2 x) by lia. rewrite !app_nth2 by lia. f_equal. lia.
  - intros i I. rewrite G by lia. rewrite app_nth2 by lia. rewrite app_nth1 by lia. assert (IN : In (nth (Z.to_nat i - length x) y 0) q) by (apply (Permutation_in _ P), nth_In; lia).
    apply (In_nth _ _ 0) in IN. destruct IN as (j & J & EJ). exists (Z.of_nat (length x + j)). split; [lia|]. rewrite Nat2Z.id, app_nth2 by lia. rewrite app_nth1 by lia. rewrite <- EJ. f_equal. lia.
Qed.
Lemma small_keeps : forall (A D : list Z) k m mx n g, is_i64 m -> is_i64 (m + Z.of_nat k) -> n = length (A ++ repeat NO_VALUE k ++ D) ->
  always (small (Z.of_nat (length A)) (Z.of_nat (length A + k) - 1) (mkHacked (A ++ repeat NO_VALUE k ++ D) (arr n g) m mx))
    (returns (fun s => exists g', s = mkHacked (A ++ zseq m k ++ D) (arr n g') (m + Z.of_nat k) mx /\ keeps n (Z.of_nat (length A)) (Z.of_nat (length A + k) - 1) g g')).
Proof.
  intros A D k m mx n g M1 M2 LP. rewrite !app_length, repeat_length in LP. destruct (split_three (arr n g) (length A) k) as (x & y & z & E & LX & LY); [rewrite arr_len; lia|].
  rewrite E. rewrite small_run by assumption. apply always_bind. eapply always_mono; [|apply shuffle_always]. intros o O. destruct o as [q| | |]; try contradiction. cbn [returns] in O. cbn [ret always].
  rewrite range_p by assumption. destruct (seg_keeps n g x y z q E O) as (g' & E' & K). rewrite E'. rewrite LX, LY in K. exists g'. split; [reflexivity|exact K].
Qed.
(* a range of one known value *)
Lemma one_keeps : forall (A D : list Z) v m mx n g, v <> NO_VALUE -> n = length (A ++ v :: D) ->
  always (small (Z.of_nat (length A)) (Z.of_nat (length A)) (mkHacked (A ++ v :: D) (arr n g) m mx)) (returns (fun s => s = mkHacked (A ++ v :: D) (arr n g) m mx)).
Proof.
  intros A D v m mx n g V LP. rewrite !app_length in LP. cbn [length] in LP. destruct (split_three (arr n g) (length A) 1) as (x & y & z & E & LX & LY); [rewrite arr_len; lia|]. rewrite E.
  unfold small. cbn [hdata hp].
  replace ((Z.of_nat (length A) <? 0) || (Z.of_nat (length A) + 1 <? Z.of_nat (length A)) || (alen (A ++ v :: D) <? Z.of_nat (length A) + 1)) with false by (unfold alen; rewrite !app_length; cbn [length]; lia).
  replace (Z.to_nat (Z.of_nat (length A) + 1 - Z.of_nat (length A))) with 1%nat by lia. cbn [fillDown]. unfold setMin. cbn [hdata]. rewrite aget_mid. cbn [bind].
  replace (v =? NO_VALUE) with false by (symmetry; apply Z.eqb_neq; exact V). cbn [bind lift rbind hdata hp]. change (A ++ v :: D) with (A ++ [v] ++ D). rewrite range_mid by (cbn [length]; lia).
  change (sortInts [v]) with [v]. apply always_bind.
  assert (Q : forall x y : list Z, firstn (length x) (x ++ y) = x) by (clear; intros x y; induction x as [|u x IH]; cbn; [reflexivity|rewrite IH; reflexivity]).
  assert (Q2 : forall x y : list Z, skipn (length x) (x ++ y) = y) by (clear; intros x y; induction x as [|u x IH]; cbn; [reflexivity|exact IH]).
  assert (E1 : firstn 1 (skipn (Z.to_nat (Z.of_nat (length A))) (x ++ y ++ z)) = y) by (rewrite Nat2Z.id, <- LX, Q2, <- LY; apply Q).
  rewrite E1. eapply always_mono; [|apply shuffle_always]. intros o O. destruct o as [q| | |]; try contradiction. cbn [returns] in O. cbn [ret always returns].
  rewrite (range_mid x y z) by lia. destruct y as [|u [|u' y]]; try discriminate. apply Permutation_length_1_inv in O. rewrite O. reflexivity.
Qed.
Lemma vals_in : forall m L x, In x (vals m L) -> m <= x <= m + Z.of_nat L.
Proof.
  intros m L x X. assert (B : (2 * rounds L <= L)%nat) by (destruct (Nat.lt_ge_cases L 47) as [H|H]; [rewrite rounds_small by exact H; lia|destruct (rounds_step L H); lia]).
  unfold vals in X. apply in_app_iff in X. rewrite !zs_in in X. lia.
Qed.
