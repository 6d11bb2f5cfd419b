From Verif Require Import Base BaseLemmas Tac RndModel RndLemmas RandSpec RandSeqModel ShuffleProofs HackModel HackProofs.
From Coq Require Import ZArith List Lia Permutation.
Import ListNotations.
Open Scope Z_scope.

(* ---- arrays as functions ---- *)
Definition arr (n : nat) (f : Z -> Z) : list Z := map f (zseq 0 n).
Definition fset (f : Z -> Z) (i x : Z) : Z -> Z := fun j => if j =? i then x else f j.
Definition fswap (f : Z -> Z) (i j : Z) : Z -> Z := fset (fset f i (f j)) j (f i).
Lemma arr_len : forall n f, length (arr n f) = n.
Proof. intros. unfold arr. rewrite map_length. apply zs_len. Qed.
Lemma arr_nth : forall n f i, (i < n)%nat -> nth i (arr n f) 0 = f (Z.of_nat i).
Proof. intros n f i I. unfold arr. rewrite (nth_indep _ 0 (f 0)) by (rewrite map_length, zs_len; lia). rewrite map_nth, zs_nth by lia. f_equal. Qed.
Lemma arr_of : forall l n f, length l = n -> (forall i, (i < n)%nat -> nth i l 0 = f (Z.of_nat i)) -> l = arr n f.
Proof. intros l n f L H. apply (nth_ext _ _ 0 0); [rewrite arr_len; exact L|]. intros i I. rewrite H, arr_nth by lia. reflexivity. Qed.
Lemma arr_ext : forall n f g, (forall i, 0 <= i < Z.of_nat n -> f i = g i) -> arr n f = arr n g.
Proof. intros n f g H. apply map_ext_in. intros i I. apply zs_in in I. apply H. lia. Qed.
Lemma aget_arr : forall n f i, 0 <= i < Z.of_nat n -> aget (arr n f) i = Ok (f i).
Proof. intros n f i I. unfold aget. replace (i <? 0) with false by lia. rewrite (nth_error_nth' _ 0) by (rewrite arr_len; lia). rewrite arr_nth by lia. rewrite Z2Nat.id by lia. reflexivity. Qed.
Lemma aset_arr : forall n f i x, 0 <= i < Z.of_nat n -> aset (arr n f) i x = Ok (arr n (fset f i x)).
Proof.
  intros n f i x I. unfold aset, alen. rewrite arr_len. replace ((0 <=? i) && (i <? Z.of_nat n)) with true by lia. f_equal. apply arr_of; [rewrite upd_length; apply arr_len|].
  intros j J. unfold fset. destruct (Z.of_nat j =? i) eqn:E; [replace (Z.to_nat i) with j by lia; apply nth_upd_same; rewrite arr_len; lia|]. rewrite nth_upd_other by lia. apply arr_nth. lia.
Qed.
Lemma aswap_arr : forall n f i j, 0 <= i < Z.of_nat n -> 0 <= j < Z.of_nat n -> aswap (arr n f) i j = Ok (arr n (fswap f i j)).
Proof. intros n f i j I J. unfold aswap. rewrite !aget_arr by lia. cbn [bind]. rewrite aset_arr by lia. cbn [bind]. rewrite aset_arr by lia. reflexivity. Qed.
Lemma fset_same : forall f i x, fset f i x i = x.
Proof. intros. unfold fset. rewrite Z.eqb_refl. reflexivity. Qed.
Lemma fset_other : forall f i j x, j <> i -> fset f i x j = f j.
Proof. intros. unfold fset. replace (j =? i) with false by lia. reflexivity. Qed.
Lemma fswap_l : forall f i j, fswap f i j i = f j.
Proof. intros. unfold fswap, fset. destruct (i =? j) eqn:E; [apply Z.eqb_eq in E; congruence|]. rewrite Z.eqb_refl. reflexivity. Qed.
Lemma fswap_r : forall f i j, fswap f i j j = f i.
Proof. intros. unfold fswap. apply fset_same. Qed.
Lemma fswap_o : forall f i j k, k <> i -> k <> j -> fswap f i j k = f k.
Proof. intros. unfold fswap. rewrite !fset_other by assumption. reflexivity. Qed.
Lemma fswap_perm : forall n f i j, 0 <= i < Z.of_nat n -> 0 <= j < Z.of_nat n -> Permutation (arr n f) (arr n (fswap f i j)).
Proof.
  intros n f i j I J. unfold arr. destruct (Z.eq_dec i j) as [E|E]; [subst j; assert (X : arr n (fswap f i i) = arr n f); [apply arr_ext; intros k K; destruct (Z.eq_dec k i) as [->|D]; [apply fswap_l|apply fswap_o; assumption]|unfold arr in X; rewrite X; apply Permutation_refl]|].
  set (sg := fun k => if k =? i then j else if k =? j then i else k).
  assert (S : map (fswap f i j) (zseq 0 n) = map f (map sg (zseq 0 n))).
  { rewrite map_map. apply map_ext. intros k. unfold sg. destruct (k =? i) eqn:A; [apply Z.eqb_eq in A; subst; apply fswap_l|]. destruct (k =? j) eqn:B; [apply Z.eqb_eq in B; subst; apply fswap_r|]. apply fswap_o; lia. }
  rewrite S. apply Permutation_map. apply NoDup_Permutation_bis; [apply zs_nodup|rewrite map_length; lia|].
  intros x X. apply in_map_iff. exists (sg x). apply zs_in in X. unfold sg. split; [destruct (x =? i) eqn:A, (x =? j) eqn:B; try rewrite Z.eqb_refl; try lia; [destruct (j =? i) eqn:C; lia|rewrite A, B; reflexivity]|].
  apply zs_in. destruct (x =? i), (x =? j); lia.
Qed.
Lemma swap_arr : forall n f g m M i j, 0 <= i < Z.of_nat n -> 0 <= j < Z.of_nat n ->
  swapBoth (mkHacked (arr n f) (arr n g) m M) i j = Ok (mkHacked (arr n (fswap f i j)) (arr n (fswap g i j)) m M).
Proof. intros. unfold swapBoth. cbn [hdata hp]. rewrite !aswap_arr by assumption. reflexivity. Qed.
Lemma move_arr : forall n f g m M i j, 0 <= i < Z.of_nat n -> 0 <= j < Z.of_nat n ->
  moveBoth (mkHacked (arr n f) (arr n g) m M) i j = Ok (mkHacked (arr n (fset f i (f j))) (arr n (fset g i (g j))) m M).
Proof. intros. unfold moveBoth. cbn [hdata hp]. rewrite !aget_arr by assumption. cbn [bind]. rewrite !aset_arr by assumption. reflexivity. Qed.
Lemma setBoth_arr : forall n f g m M i x y, 0 <= i < Z.of_nat n ->
  setBoth (mkHacked (arr n f) (arr n g) m M) i x y = Ok (mkHacked (arr n (fset f i x)) (arr n (fset g i y)) m M).
Proof. intros. unfold setBoth. cbn [hdata hp]. rewrite !aset_arr by assumption. reflexivity. Qed.
Lemma setMin_arr : forall n f g m M i, 0 <= i < Z.of_nat n -> f i = NO_VALUE -> is_i64 (m + 1) ->
  setMin (mkHacked (arr n f) (arr n g) m M) i = Ok (mkHacked (arr n (fset f i m)) (arr n g) (m + 1) M).
Proof. intros n f g m M i I F C. unfold setMin. cbn [hdata hp hmin hmax]. rewrite aget_arr by assumption. cbn [bind]. rewrite F. change (NO_VALUE =? NO_VALUE) with true. cbv iota. rewrite aset_arr by assumption. cbn [bind]. rewrite chk_Ok by assumption. reflexivity. Qed.
Lemma setMax_arr : forall n f g m M i, 0 <= i < Z.of_nat n -> f i = NO_VALUE -> is_i64 (M - 1) ->
  setMax (mkHacked (arr n f) (arr n g) m M) i = Ok (mkHacked (arr n (fset f i M)) (arr n g) m (M - 1)).
Proof. intros n f g m M i I F C. unfold setMax. cbn [hdata hp hmin hmax]. rewrite aget_arr by assumption. cbn [bind]. rewrite F. change (NO_VALUE =? NO_VALUE) with true. cbv iota. rewrite aset_arr by assumption. cbn [bind]. rewrite chk_Ok by assumption. reflexivity. Qed.

(* ---- the loop over values that stay where they are ---- *)
Lemma part_skip : forall j fuel lt gt k less great n f g m M, 0 <= k + 1 -> k + Z.of_nat j <= great -> great < Z.of_nat n ->
  (forall i, k < i <= k + Z.of_nat j -> lt (f i) = false /\ gt (f i) = false) ->
  partLoop (j + fuel) lt gt k less great (mkHacked (arr n f) (arr n g) m M) = partLoop fuel lt gt (k + Z.of_nat j) less great (mkHacked (arr n f) (arr n g) m M).
Proof.
  induction j as [|j IH]; intros fuel lt gt k less great n f g m M K G N H; [cbn [Nat.add]; f_equal; lia|].
  cbn [Nat.add partLoop]. cbv zeta. replace (k + 1 <=? great) with true by lia. cbn [hdata]. rewrite aget_arr by lia. cbn [bind]. destruct (H (k + 1)) as [H1 H2]; [lia|]. rewrite H1, H2.
  rewrite IH; [f_equal; lia|lia|lia|lia|intros i I; apply H; lia].
Qed.

Lemma five_ok : forall l r, 47 <= r - l + 1 -> exists e0 e1 e2 e3 e4, fiveIndices l r = [e0; e1; e2; e3; e4] /\ l + 2 < e0 /\ e0 < e1 /\ e1 < e2 /\ e2 < e3 /\ e3 < e4 /\ e4 < r - 2.
Proof.
  intros l r L. unfold fiveIndices. cbv zeta. rewrite !Z.shiftr_div_pow2 by lia. change (2 ^ 3) with 8. change (2 ^ 6) with 64. change (2 ^ 1) with 2.
  do 5 eexists. split; [reflexivity|]. repeat split; Z.to_euclidean_division_equations; lia.
Qed.
Ltac eqbs := repeat match goal with |- context [?a =? ?b] => destruct (Z.eqb_spec a b); [try (exfalso; lia)|try (exfalso; lia)] end.
Ltac less := unfold myLess, myGreater, NO_VALUE; cbn [hmin hmax]; eqbs; cbn [negb andb]; lia.

Lemma scanUp_stop : forall fuel s piv less x, (0 < fuel)%nat -> aget (hdata s) (less + 1) = Ok x -> myLess s x piv = false -> scanUp fuel s piv less = Ok (less + 1).
Proof. intros [|fuel] s piv less x H A B; [lia|]. cbn [scanUp]. rewrite A. cbn [bind]. rewrite B. reflexivity. Qed.
Lemma scanDown_stop : forall fuel s piv great x, (0 < fuel)%nat -> aget (hdata s) (great - 1) = Ok x -> myGreater s x piv = false -> scanDown fuel s piv great = Ok (great - 1).
Proof. intros [|fuel] s piv great x H A B; [lia|]. cbn [scanDown]. rewrite A. cbn [bind]. rewrite B. reflexivity. Qed.

Section Part.
  Variables (n : nat) (f : Z -> Z) (l r m M : Z).
  Hypothesis Hl : 0 <= l.
  Hypothesis Hr : r < Z.of_nat n.
  Hypothesis HL : 47 <= r - l + 1.
  Hypothesis HF : forall i, l <= i <= r -> f i = NO_VALUE.
  Hypothesis HM : M = m + (r - l + 1).
  Hypothesis Hno : -1 < m \/ M < -1.
  Variables (e0 e1 e2 e3 e4 : Z).
  Hypothesis E0 : l + 2 < e0.
  Hypothesis E1 : e0 < e1.
  Hypothesis E2 : e1 < e2.
  Hypothesis E3 : e2 < e3.
  Hypothesis E4 : e3 < e4.
  Hypothesis E5 : e4 < r - 2.
  Notation e := [e0; e1; e2; e3; e4].
  Definition F (a0 a1 a2 a3 a4 : Z) : Z -> Z := fun i => if i =? e0 then a0 else if i =? e1 then a1 else if i =? e2 then a2 else if i =? e3 then a3 else if i =? e4 then a4 else f i.

  Lemma sink_S : forall j i i' ff g a b, aget e (Z.of_nat (S j)) = Ok i -> aget e (Z.of_nat j) = Ok i' -> 0 <= i < Z.of_nat n -> 0 <= i' < Z.of_nat n ->
    sink (S j) e (mkHacked (arr n ff) (arr n g) a b) = if myLess (mkHacked [] [] a b) (ff i) (ff i') then sink j e (mkHacked (arr n (fswap ff i i')) (arr n (fswap g i i')) a b) else Ok (mkHacked (arr n ff) (arr n g) a b).
  Proof.
    intros j i i' ff g a b I I' B B'. cbn [sink]. rewrite I, I'. cbn [bind hdata]. rewrite !aget_arr by assumption. cbn [bind]. 
    change (myLess (mkHacked (arr n ff) (arr n g) a b)) with (myLess (mkHacked [] [] a b)). destruct (myLess _ _ _); [|reflexivity]. rewrite swap_arr by assumption. reflexivity.
  Qed.
  Lemma sink_0 : forall s, sink 0 e s = Ok s. Proof. reflexivity. Qed.
  Lemma F0 : forall a0 a1 a2 a3 a4, F a0 a1 a2 a3 a4 e0 = a0. Proof. intros. unfold F. eqbs. reflexivity. Qed.
  Lemma F1 : forall a0 a1 a2 a3 a4, F a0 a1 a2 a3 a4 e1 = a1. Proof. intros. unfold F. eqbs. reflexivity. Qed.
  Lemma F2 : forall a0 a1 a2 a3 a4, F a0 a1 a2 a3 a4 e2 = a2. Proof. intros. unfold F. eqbs. reflexivity. Qed.
  Lemma F3 : forall a0 a1 a2 a3 a4, F a0 a1 a2 a3 a4 e3 = a3. Proof. intros. unfold F. eqbs. reflexivity. Qed.
  Lemma F4 : forall a0 a1 a2 a3 a4, F a0 a1 a2 a3 a4 e4 = a4. Proof. intros. unfold F. eqbs. reflexivity. Qed.
  Lemma S10 : forall a0 a1 a2 a3 a4, arr n (fswap (F a0 a1 a2 a3 a4) e1 e0) = arr n (F a1 a0 a2 a3 a4).
  Proof. intros. apply arr_ext. intros i I. unfold fswap, fset. rewrite F0, F1. unfold F. eqbs; reflexivity. Qed.
  Lemma S21 : forall a0 a1 a2 a3 a4, arr n (fswap (F a0 a1 a2 a3 a4) e2 e1) = arr n (F a0 a2 a1 a3 a4).
  Proof. intros. apply arr_ext. intros i I. unfold fswap, fset. rewrite F1, F2. unfold F. eqbs; reflexivity. Qed.
  Lemma S32 : forall a0 a1 a2 a3 a4, arr n (fswap (F a0 a1 a2 a3 a4) e3 e2) = arr n (F a0 a1 a3 a2 a4).
  Proof. intros. apply arr_ext. intros i I. unfold fswap, fset. rewrite F2, F3. unfold F. eqbs; reflexivity. Qed.
  Lemma S43 : forall a0 a1 a2 a3 a4, arr n (fswap (F a0 a1 a2 a3 a4) e4 e3) = arr n (F a0 a1 a2 a4 a3).
  Proof. intros. apply arr_ext. intros i I. unfold fswap, fset. rewrite F3, F4. unfold F. eqbs; reflexivity. Qed.

  Lemma sinks_ok : forall g, exists G, Permutation (arr n g) (arr n G) /\
    (let! s := sink 1 e (mkHacked (arr n (F M (M - 1) NO_VALUE (m + 1) m)) (arr n g) (m + 2) (M - 2)) in
     let! s := sink 2 e s in let! s := sink 3 e s in sink 4 e s) = Ok (mkHacked (arr n (F m (m + 1) NO_VALUE (M - 1) M)) (arr n G) (m + 2) (M - 2)).
  Proof.
    intros g. eexists. split; cycle 1.
    - rewrite (sink_S 0 e1 e0) by (reflexivity || lia). rewrite F0, F1. replace (myLess _ _ _) with true by (symmetry; less). cbv iota. rewrite S10, sink_0. cbn [bind].
      rewrite (sink_S 1 e2 e1) by (reflexivity || lia). rewrite F1, F2. replace (myLess _ _ _) with true by (symmetry; less). cbv iota. rewrite S21.
      rewrite (sink_S 0 e1 e0) by (reflexivity || lia). rewrite F0, F1. replace (myLess _ _ _) with true by (symmetry; less). cbv iota. rewrite S10, sink_0. cbn [bind].
      rewrite (sink_S 2 e3 e2) by (reflexivity || lia). rewrite F2, F3. replace (myLess _ _ _) with true by (symmetry; less). cbv iota. rewrite S32.
      rewrite (sink_S 1 e2 e1) by (reflexivity || lia). rewrite F1, F2. replace (myLess _ _ _) with true by (symmetry; less). cbv iota. rewrite S21.
      rewrite (sink_S 0 e1 e0) by (reflexivity || lia). rewrite F0, F1. replace (myLess _ _ _) with true by (symmetry; less). cbv iota. rewrite S10, sink_0. cbn [bind].
      rewrite (sink_S 3 e4 e3) by (reflexivity || lia). rewrite F3, F4. replace (myLess _ _ _) with true by (symmetry; less). cbv iota. rewrite S43.
      rewrite (sink_S 2 e3 e2) by (reflexivity || lia). rewrite F2, F3. replace (myLess _ _ _) with true by (symmetry; less). cbv iota. rewrite S32.
      rewrite (sink_S 1 e2 e1) by (reflexivity || lia). rewrite F1, F2. replace (myLess _ _ _) with true by (symmetry; less). cbv iota. rewrite S21.
      rewrite (sink_S 0 e1 e0) by (reflexivity || lia). rewrite F0, F1. replace (myLess _ _ _) with true by (symmetry; less). cbv iota. rewrite S10, sink_0. cbn [bind].
      reflexivity.
    - do 10 (eapply Permutation_trans; [|apply fswap_perm; lia]). apply Permutation_refl.
  Qed.

  Lemma at_no : forall i, l <= i <= r -> i <> e0 -> i <> e4 -> F m NO_VALUE NO_VALUE NO_VALUE M i = NO_VALUE.
  Proof. intros i I A B. unfold F. eqbs; try reflexivity. apply HF. lia. Qed.
  Definition K1 : Z -> Z := fun i => if i =? l + 1 then m else if i =? e4 then M else f i.
  Definition K2 : Z -> Z := fun i => if i =? l + 1 then m else if i =? r - 1 then M else f i.
  Definition K3 : Z -> Z := fun i => if i =? l then m else if i =? l + 1 then m + 1 else if i =? r - 1 then M - 1 else if i =? r then M else f i.
  Lemma to_K1 : arr n (fswap (F m NO_VALUE NO_VALUE NO_VALUE M) e0 (l + 1)) = arr n K1.
  Proof.
    apply arr_ext. intros i I. unfold fswap, fset, K1. rewrite (at_no (l + 1)) by lia. rewrite F0.
    destruct (Z.eqb_spec i (l + 1)); [reflexivity|]. destruct (Z.eqb_spec i e0); [subst i; replace (e0 =? e4) with false by lia; symmetry; apply HF; lia|].
    unfold F. eqbs; try reflexivity; symmetry; apply HF; lia.
  Qed.
  Lemma to_K2 : arr n (fswap K1 e4 (r - 1)) = arr n K2.
  Proof.
    apply arr_ext. intros i I. unfold fswap, fset, K1, K2. eqbs; try reflexivity; subst; try (rewrite !HF by lia); try reflexivity; try lia; symmetry; apply HF; lia.
  Qed.
  Lemma to_K3 : arr n (fset (fset (fset (fset K2 l (K2 (l + 1))) (l + 1) (m + 1)) r (fset (fset K2 l (K2 (l + 1))) (l + 1) (m + 1) (r - 1))) (r - 1) (M - 1)) = arr n K3.
  Proof. apply arr_ext. intros i I. unfold fset, K2, K3. eqbs; reflexivity. Qed.

  Lemma loop_ok : forall fuel g, (Z.to_nat (r - l) <= fuel)%nat -> let s := mkHacked [] [] (m + 2) (M - 2) in
    partLoop fuel (fun x => myLess s x (m + 1)) (fun x => myGreater s x (M - 1)) l (l + 1) (r - 1) (mkHacked (arr n (F m NO_VALUE NO_VALUE NO_VALUE M)) (arr n g) (m + 2) (M - 2)) =
    Ok (mkHacked (arr n K2) (arr n (fswap (fswap g e0 (l + 1)) e4 (r - 1))) (m + 2) (M - 2), l + 2, r - 2).
  Proof.
    intros fuel g FU s. set (j1 := Z.to_nat (e0 - 1 - l)). set (j2 := Z.to_nat (e4 - 1 - e0)). set (j3 := Z.to_nat (r - 2 - e4)).
    replace fuel with (j1 + S (j2 + S (j3 + S (fuel - (j1 + j2 + j3 + 3)))))%nat by lia. set (u := (fuel - (j1 + j2 + j3 + 3))%nat).
    rewrite part_skip; [|lia|lia|lia|intros i I; rewrite at_no by lia; split; subst s; less].
    cbn [partLoop]. cbv zeta. replace (l + Z.of_nat j1 + 1) with e0 by lia. replace (e0 <=? r - 1) with true by lia. cbn [hdata]. rewrite aget_arr by lia. cbn [bind]. rewrite F0.
    replace (myLess s m (m + 1)) with true by (subst s; symmetry; less). rewrite swap_arr by lia. cbn [bind]. rewrite to_K1. replace (l + 1 + 1) with (l + 2) by lia.
    rewrite part_skip; [|lia|lia|lia|].
    2:{ intros i I. assert (K : K1 i = NO_VALUE) by (unfold K1; eqbs; apply HF; lia). rewrite K. split; subst s; less. }
    assert (KE : K1 e4 = M) by (unfold K1; eqbs; reflexivity). assert (KR : K1 (r - 1) = NO_VALUE) by (unfold K1; eqbs; apply HF; lia).
    cbn [partLoop]. cbv zeta. replace (e0 + Z.of_nat j2 + 1) with e4 by lia. replace (e4 <=? r - 1) with true by lia. cbn [hdata]. rewrite aget_arr by lia. cbn [bind]. rewrite KE.
    replace (myLess s M (m + 1)) with false by (subst s; symmetry; less). replace (myGreater s M (M - 1)) with true by (subst s; symmetry; less).
    replace (j3 + S u)%nat with (S (j3 + u)) at 1 by lia. cbn [dropGreat]. rewrite aget_arr by lia. cbn [bind]. rewrite KR. replace (myGreater s NO_VALUE (M - 1)) with false by (subst s; symmetry; less). cbn [bind].
    rewrite swap_arr by lia. cbn [bind]. rewrite to_K2. cbn [hdata]. rewrite aget_arr by lia. cbn [bind]. assert (KE2 : K2 e4 = NO_VALUE) by (unfold K2; eqbs; apply HF; lia). rewrite KE2.
    replace (myLess s NO_VALUE (m + 1)) with false by (subst s; symmetry; less). replace (r - 1 - 1) with (r - 2) by lia.
    rewrite part_skip; [|lia|lia|lia|].
    2:{ intros i I. assert (K : K2 i = NO_VALUE) by (unfold K2; eqbs; apply HF; lia). rewrite K. split; subst s; less. }
    cbn [partLoop]. cbv zeta. replace (e4 + Z.of_nat j3 + 1 <=? r - 2) with false by lia. reflexivity.
  Qed.
  Lemma g_perm : forall G, Permutation (arr n G)
    (arr n (let g1 := fset G e1 (G l) in let g2 := fset g1 e3 (g1 r) in let g3 := fswap (fswap g2 e0 (l + 1)) e4 (r - 1) in
     let g4 := fset g3 l (g3 (l + 1)) in let g5 := fset g4 (l + 1) (G e1) in let g6 := fset g5 r (g5 (r - 1)) in fset g6 (r - 1) (G e3))).
  Proof.
    intros G. cbv zeta. apply (Permutation_trans (l' := arr n (fswap (fswap (fswap (fswap (fswap (fswap G l e1) r e3) e0 (l + 1)) e4 (r - 1)) l (l + 1)) r (r - 1)))).
    - do 6 (eapply Permutation_trans; [|apply fswap_perm; lia]). apply Permutation_refl.
    - match goal with |- Permutation ?a ?b => replace b with a; [apply Permutation_refl|] end. apply arr_ext. intros i I. unfold fswap, fset. eqbs; subst; reflexivity || congruence || (f_equal; lia).
  Qed.
  Lemma partition_run : forall fuel g, is_i64 m -> is_i64 M -> (Z.to_nat (r - l) <= fuel)%nat -> fiveIndices l r = e -> exists G, Permutation (arr n g) (arr n G) /\
    dualPivot fuel l r (mkHacked (arr n f) (arr n g) m M) = Ok (mkHacked (arr n K3) (arr n G) (m + 2) (M - 2), l + 2, r - 2, m + 1, M - 1).
  Proof.
    intros fuel g I1 I2 FU EF. destruct (sinks_ok g) as (G & PG & SG). eexists. split; [apply (Permutation_trans PG), g_perm|].
    unfold dualPivot. rewrite EF. change (aget e 0) with (Ok e0). change (aget e 1) with (Ok e1). change (aget e 3) with (Ok e3). change (aget e 4) with (Ok e4). cbv zeta. cbn [bind].
    rewrite setMin_arr; [|lia|apply HF; lia|mach; lia]. cbn [bind].
    rewrite setMin_arr; [|lia|rewrite fset_other by lia; apply HF; lia|mach; lia]. cbn [bind].
    rewrite setMax_arr; [|lia|rewrite !fset_other by lia; apply HF; lia|mach; lia]. cbn [bind].
    rewrite setMax_arr; [|lia|rewrite !fset_other by lia; apply HF; lia|mach; lia]. cbn [bind].
    assert (FF : arr n (fset (fset (fset (fset f e4 m) e3 (m + 1)) e0 M) e1 (M - 1)) = arr n (F M (M - 1) NO_VALUE (m + 1) m)).
    { apply arr_ext. intros i I. unfold fset, F. eqbs; try reflexivity. apply HF. lia. }
    rewrite FF. replace (m + 1 + 1) with (m + 2) by lia. replace (M - 1 - 1) with (M - 2) by lia.
    destruct (sink 1 e _) as [s1| | |]; try discriminate. cbn [bind] in SG |- *. destruct (sink 2 e _) as [s2| | |]; try discriminate. cbn [bind] in SG |- *.
    destruct (sink 3 e _) as [s3| | |]; try discriminate. cbn [bind] in SG |- *. rewrite SG. cbn [bind hdata hp]. rewrite !aget_arr by lia. cbn [bind]. rewrite F1, F3.
    rewrite move_arr by lia. cbn [bind]. rewrite move_arr by lia. cbn [bind].
    match goal with |- context [mkHacked (arr n ?a) _ _ _] => assert (FA : arr n a = arr n (F m NO_VALUE NO_VALUE NO_VALUE M)) end.
    { apply arr_ext. intros i I. unfold fset, F. eqbs; try reflexivity; apply HF; lia. }
    rewrite FA.
    rewrite (scanUp_stop fuel _ (m + 1) l NO_VALUE); [|lia|cbn [hdata]; rewrite aget_arr by lia; rewrite at_no by lia; reflexivity|less]. cbn [bind].
    rewrite (scanDown_stop fuel _ (M - 1) r NO_VALUE); [|lia|cbn [hdata]; rewrite aget_arr by lia; rewrite at_no by lia; reflexivity|less]. cbn [bind].
    replace (l + 1 - 1) with l by lia.
    match goal with |- context [partLoop fuel _ _ _ _ _ (mkHacked _ (arr n ?a) _ _)] => pose proof (loop_ok fuel a ltac:(lia)) as LO end. cbv zeta in LO. 
    match goal with |- context [bind (partLoop fuel ?a ?b ?c ?d ?ee ?s) _] => change (partLoop fuel a b c d ee s) with (partLoop fuel (fun x => myLess (mkHacked [] [] (m + 2) (M - 2)) x (m + 1)) (fun x => myGreater (mkHacked [] [] (m + 2) (M - 2)) x (M - 1)) c d ee s) end.
    rewrite LO. cbn [bind]. replace (l + 2 - 1) with (l + 1) by lia. replace (r - 2 + 1) with (r - 1) by lia.
    rewrite move_arr by lia. cbn [bind]. rewrite setBoth_arr by lia. cbn [bind]. rewrite move_arr by lia. cbn [bind]. rewrite setBoth_arr by lia. cbn [bind]. rewrite to_K3. reflexivity.
  Qed.
End Part.
