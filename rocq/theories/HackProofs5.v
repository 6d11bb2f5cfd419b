From Verif Require Import Base BaseLemmas Tac RndModel RndLemmas RandSpec RandSeqModel ShuffleProofs HackModel HackProofs HackProofs2 HackProofs3.
From Coq Require Import ZArith List Lia Permutation.
Import ListNotations.
Open Scope Z_scope.

Section Gen.
  Variables (n : nat) (l r : Z).
  Hypothesis Hl : 0 <= l.
  Hypothesis Hr : r < Z.of_nat n.
  Variables (e0 e1 e2 e3 e4 : Z).
  Hypothesis E0 : l + 2 < e0.
  Hypothesis E1 : e0 < e1.
  Hypothesis E2 : e1 < e2.
  Hypothesis E3 : e2 < e3.
  Hypothesis E4 : e3 < e4.
  Hypothesis E5 : e4 < r - 2.
  Notation e := [e0; e1; e2; e3; e4].
  Notation H5 h := (F h e0 e1 e2 e3 e4).
  (* where each entry comes from in one step *)
  Definition T (h : Z -> Z) : Z -> Z := fun i => if i =? l then h e4 else if i =? l + 1 then h e3 else if i =? r - 1 then h e1 else if i =? r then h e0 else
    if i =? e0 then h (l + 1) else if i =? e1 then h l else if i =? e3 then h r else if i =? e4 then h (r - 1) else h i.
  Definition U (h : Z -> Z) : Z -> Z := H5 h (h e4) (h l) (h e2) (h r) (h e0).
  Lemma f0 : forall h a0 a1 a2 a3 a4, H5 h a0 a1 a2 a3 a4 e0 = a0. Proof. intros. unfold F. eqbs. reflexivity. Qed.
  Lemma f1 : forall h a0 a1 a2 a3 a4, H5 h a0 a1 a2 a3 a4 e1 = a1. Proof. intros. unfold F. eqbs. reflexivity. Qed.
  Lemma f2 : forall h a0 a1 a2 a3 a4, H5 h a0 a1 a2 a3 a4 e2 = a2. Proof. intros. unfold F. eqbs. reflexivity. Qed.
  Lemma f3 : forall h a0 a1 a2 a3 a4, H5 h a0 a1 a2 a3 a4 e3 = a3. Proof. intros. unfold F. eqbs. reflexivity. Qed.
  Lemma f4 : forall h a0 a1 a2 a3 a4, H5 h a0 a1 a2 a3 a4 e4 = a4. Proof. intros. unfold F. eqbs. reflexivity. Qed.
  Lemma s10 : forall h a0 a1 a2 a3 a4, arr n (fswap (H5 h a0 a1 a2 a3 a4) e1 e0) = arr n (H5 h a1 a0 a2 a3 a4).
  Proof. intros. apply arr_ext. intros i I. unfold fswap, fset. rewrite f0, f1. unfold F. eqbs; reflexivity. Qed.
  Lemma s21 : forall h a0 a1 a2 a3 a4, arr n (fswap (H5 h a0 a1 a2 a3 a4) e2 e1) = arr n (H5 h a0 a2 a1 a3 a4).
  Proof. intros. apply arr_ext. intros i I. unfold fswap, fset. rewrite f1, f2. unfold F. eqbs; reflexivity. Qed.
  Lemma s32 : forall h a0 a1 a2 a3 a4, arr n (fswap (H5 h a0 a1 a2 a3 a4) e3 e2) = arr n (H5 h a0 a1 a3 a2 a4).
  Proof. intros. apply arr_ext. intros i I. unfold fswap, fset. rewrite f2, f3. unfold F. eqbs; reflexivity. Qed.
  Lemma s43 : forall h a0 a1 a2 a3 a4, arr n (fswap (H5 h a0 a1 a2 a3 a4) e4 e3) = arr n (H5 h a0 a1 a2 a4 a3).
  Proof. intros. apply arr_ext. intros i I. unfold fswap, fset. rewrite f3, f4. unfold F. eqbs; reflexivity. Qed.
  Lemma five_start : forall h, arr n h = arr n (H5 h (h e0) (h e1) (h e2) (h e3) (h e4)).
  Proof. intros h. apply arr_ext. intros i I. unfold F. eqbs; congruence. Qed.

  (* the five values: two high ones, one in between, two low ones *)
  Variables (a b : Z).
  Notation S0 := (mkHacked [] [] a b).
  Lemma snk : forall j i i' ff g, aget e (Z.of_nat (S j)) = Ok i -> aget e (Z.of_nat j) = Ok i' -> 0 <= i < Z.of_nat n -> 0 <= i' < Z.of_nat n -> myLess S0 (ff i) (ff i') = true ->
    sink (S j) e (mkHacked (arr n ff) (arr n g) a b) = sink j e (mkHacked (arr n (fswap ff i i')) (arr n (fswap g i i')) a b).
  Proof.
    intros j i i' ff g I I' B B' L. cbn [sink]. rewrite I, I'. cbn [bind hdata]. rewrite !aget_arr by assumption. cbn [bind].
    change (myLess (mkHacked (arr n ff) (arr n g) a b)) with (myLess S0). rewrite L. rewrite swap_arr by assumption. reflexivity.
  Qed.
  Lemma snk0 : forall s, sink 0 e s = Ok s. Proof. reflexivity. Qed.
  Lemma sinks_gen : forall f g x0 x1 x2 x3 x4, myLess S0 x1 x0 = true -> myLess S0 x2 x0 = true -> myLess S0 x2 x1 = true -> myLess S0 x3 x0 = true -> myLess S0 x3 x1 = true -> myLess S0 x3 x2 = true ->
    myLess S0 x4 x0 = true -> myLess S0 x4 x1 = true -> myLess S0 x4 x2 = true -> myLess S0 x4 x3 = true ->
    (let! s := sink 1 e (mkHacked (arr n (H5 f x0 x1 x2 x3 x4)) (arr n g) a b) in
     let! s := sink 2 e s in let! s := sink 3 e s in sink 4 e s) = Ok (mkHacked (arr n (H5 f x4 x3 x2 x1 x0)) (arr n (H5 g (g e4) (g e3) (g e2) (g e1) (g e0))) a b).
  Proof.
    intros f g x0 x1 x2 x3 x4 L1 L2 L3 L4 L5 L6 L7 L8 L9 L10. rewrite (five_start g).
    rewrite (snk 0 e1 e0) by (reflexivity || lia || (rewrite ?f0, ?f1; assumption)). rewrite !s10, snk0. cbn [bind].
    rewrite (snk 1 e2 e1) by (reflexivity || lia || (rewrite ?f2, ?f1; assumption)). rewrite !s21.
    rewrite (snk 0 e1 e0) by (reflexivity || lia || (rewrite ?f0, ?f1; assumption)). rewrite !s10, snk0. cbn [bind].
    rewrite (snk 2 e3 e2) by (reflexivity || lia || (rewrite ?f2, ?f3; assumption)). rewrite !s32.
    rewrite (snk 1 e2 e1) by (reflexivity || lia || (rewrite ?f2, ?f1; assumption)). rewrite !s21.
    rewrite (snk 0 e1 e0) by (reflexivity || lia || (rewrite ?f0, ?f1; assumption)). rewrite !s10, snk0. cbn [bind].
    rewrite (snk 3 e4 e3) by (reflexivity || lia || (rewrite ?f4, ?f3; assumption)). rewrite !s43.
    rewrite (snk 2 e3 e2) by (reflexivity || lia || (rewrite ?f2, ?f3; assumption)). rewrite !s32.
    rewrite (snk 1 e2 e1) by (reflexivity || lia || (rewrite ?f2, ?f1; assumption)). rewrite !s21.
    rewrite (snk 0 e1 e0) by (reflexivity || lia || (rewrite ?f0, ?f1; assumption)). rewrite !s10, snk0. reflexivity.
  Qed.
  (* the step after the five values are set *)
  Definition rest (fuel : nat) (s : hacked) : outcome (hacked * Z * Z * Z * Z) :=
    let! s := sink 1 e s in
    let! s := sink 2 e s in
    let! s := sink 3 e s in
    let! s := sink 4 e s in
    let! pivot1 := aget (hdata s) e1 in
    let! pivot2 := aget (hdata s) e3 in
    let! ppivot1 := aget (hp s) e1 in
    let! ppivot2 := aget (hp s) e3 in
    let! s := moveBoth s e1 l in
    let! s := moveBoth s e3 r in
    let! less := scanUp fuel s pivot1 l in
    let! great := scanDown fuel s pivot2 r in
    let! (s, less, great) := partLoop fuel (fun x => myLess s x pivot1) (fun x => myGreater s x pivot2) (less - 1) less great s in
    let! s := moveBoth s l (less - 1) in
    let! s := setBoth s (less - 1) pivot1 ppivot1 in
    let! s := moveBoth s r (great + 1) in
    let! s := setBoth s (great + 1) pivot2 ppivot2 in
    Ok (s, less, great, pivot1, pivot2).
  Lemma to_U : forall h, arr n (fset (fset (H5 h (h e4) (h e3) (h e2) (h e1) (h e0)) e1 (H5 h (h e4) (h e3) (h e2) (h e1) (h e0) l)) e3 (fset (H5 h (h e4) (h e3) (h e2) (h e1) (h e0)) e1 (H5 h (h e4) (h e3) (h e2) (h e1) (h e0) l) r)) = arr n (U h).
  Proof. intros h. apply arr_ext. intros i I. unfold fset, U, F. eqbs; reflexivity. Qed.
  Lemma to_T : forall h g3, (forall i, g3 i = fswap (fswap (U h) e0 (l + 1)) e4 (r - 1) i) ->
    arr n (fset (fset (fset (fset g3 l (g3 (l + 1))) (l + 1) (h e3)) r (fset (fset g3 l (g3 (l + 1))) (l + 1) (h e3) (r - 1))) (r - 1) (h e1)) = arr n (T h).
  Proof.
    intros h g3 G. apply arr_ext. intros i I. unfold T. unfold fset at 1 2 3 4. destruct (Z.eqb_spec i (r - 1)); [eqbs; reflexivity|]. destruct (Z.eqb_spec i r).
    - unfold fset. eqbs. rewrite G. unfold fswap, fset, U, F. eqbs; reflexivity.
    - unfold fset. eqbs; try reflexivity; rewrite G; unfold fswap, fset, U, F; eqbs; subst; reflexivity.
  Qed.
  Lemma rest_gen : forall fuel f g, (Z.to_nat (r - l) <= fuel)%nat ->
    myLess S0 (f e1) (f e0) = true -> myLess S0 (f e2) (f e0) = true -> myLess S0 (f e2) (f e1) = true -> myLess S0 (f e3) (f e0) = true -> myLess S0 (f e3) (f e1) = true -> myLess S0 (f e3) (f e2) = true ->
    myLess S0 (f e4) (f e0) = true -> myLess S0 (f e4) (f e1) = true -> myLess S0 (f e4) (f e2) = true -> myLess S0 (f e4) (f e3) = true ->
    (forall i, l <= i <= r -> i <> e0 -> i <> e1 -> i <> e3 -> i <> e4 -> myLess S0 (f i) (f e3) = false /\ myGreater S0 (f i) (f e1) = false) ->
    myLess S0 (f e0) (f e3) = false -> myGreater S0 (f e0) (f e1) = true ->
    rest fuel (mkHacked (arr n f) (arr n g) a b) = Ok (mkHacked (arr n (T f)) (arr n (T g)) a b, l + 2, r - 2, f e3, f e1).
  Proof.
    intros fuel f g FU L1 L2 L3 L4 L5 L6 L7 L8 L9 L10 MID N1 N2. unfold rest. rewrite (five_start f) at 1.
    pose proof (sinks_gen f g (f e0) (f e1) (f e2) (f e3) (f e4) L1 L2 L3 L4 L5 L6 L7 L8 L9 L10) as SG.
    destruct (sink 1 e _) as [s1| | |]; try discriminate. cbn [bind] in SG |- *. destruct (sink 2 e _) as [s2| | |]; try discriminate. cbn [bind] in SG |- *.
    destruct (sink 3 e _) as [s3| | |]; try discriminate. cbn [bind] in SG |- *. rewrite SG. clear SG s1 s2 s3. cbn [bind hdata hp]. rewrite !aget_arr by lia. cbn [bind]. rewrite !f1, !f3.
    rewrite move_arr by lia. cbn [bind]. rewrite move_arr by lia. cbn [bind]. rewrite !to_U.
    assert (UM : forall i, l <= i <= r -> i <> e0 -> i <> e4 -> myLess S0 (U f i) (f e3) = false /\ myGreater S0 (U f i) (f e1) = false).
    { intros i I D0 D4. unfold U, F. eqbs; apply MID; lia. }
    assert (ML : forall d p, myLess (mkHacked d p a b) = myLess S0) by reflexivity. assert (MG : forall d p, myGreater (mkHacked d p a b) = myGreater S0) by reflexivity.
    rewrite (scanUp_stop fuel _ (f e3) l (U f (l + 1))); [|lia|cbn [hdata]; apply aget_arr; lia|rewrite ML; apply UM; lia]. cbn [bind].
    rewrite (scanDown_stop fuel _ (f e1) r (U f (r - 1))); [|lia|cbn [hdata]; apply aget_arr; lia|rewrite MG; apply UM; lia]. cbn [bind].
    rewrite ML, MG. replace (l + 1 - 1) with l by lia.
    assert (LO : partLoop fuel (fun x => myLess S0 x (f e3)) (fun x => myGreater S0 x (f e1)) l (l + 1) (r - 1) (mkHacked (arr n (U f)) (arr n (U g)) a b) =
      Ok (mkHacked (arr n (fswap (fswap (U f) e0 (l + 1)) e4 (r - 1))) (arr n (fswap (fswap (U g) e0 (l + 1)) e4 (r - 1))) a b, l + 2, r - 2)).
    { set (j1 := Z.to_nat (e0 - 1 - l)). set (j2 := Z.to_nat (e4 - 1 - e0)). set (j3 := Z.to_nat (r - 2 - e4)).
      replace fuel with (j1 + S (j2 + S (j3 + S (fuel - (j1 + j2 + j3 + 3)))))%nat by lia. set (u := (fuel - (j1 + j2 + j3 + 3))%nat).
      rewrite part_skip; [|lia|lia|lia|intros i I; apply UM; lia].
      cbn [partLoop]. cbv zeta. replace (l + Z.of_nat j1 + 1) with e0 by lia. replace (e0 <=? r - 1) with true by lia. cbn [hdata]. rewrite aget_arr by lia. cbn [bind].
      assert (U0 : U f e0 = f e4) by apply f0. assert (U4 : U f e4 = f e0) by apply f4. rewrite U0, L10. rewrite swap_arr by lia. cbn [bind]. replace (l + 1 + 1) with (l + 2) by lia.
      set (f1 := fswap (U f) e0 (l + 1)). assert (V1 : forall i, e0 < i -> f1 i = U f i) by (intros i I; apply fswap_o; lia).
      rewrite part_skip; [|lia|lia|lia|intros i I; rewrite V1 by lia; apply UM; lia].
      cbn [partLoop]. cbv zeta. replace (e0 + Z.of_nat j2 + 1) with e4 by lia. replace (e4 <=? r - 1) with true by lia. cbn [hdata]. rewrite aget_arr by lia. cbn [bind]. rewrite (V1 e4), U4, N1, N2 by lia.
      replace (j3 + S u)%nat with (S (j3 + u)) at 1 by lia. cbn [dropGreat]. rewrite aget_arr by lia. cbn [bind]. rewrite (V1 (r - 1)) by lia. destruct (UM (r - 1)) as [UA UB]; [lia|lia|lia|]. rewrite UB. cbn [bind].
      rewrite swap_arr by lia. cbn [bind hdata]. rewrite aget_arr by lia. cbn [bind]. rewrite fswap_l, (V1 (r - 1)), UA by lia. replace (r - 1 - 1) with (r - 2) by lia.
      rewrite part_skip; [|lia|lia|lia|intros i I; rewrite fswap_o by lia; rewrite V1 by lia; apply UM; lia].
      cbn [partLoop]. cbv zeta. replace (e4 + Z.of_nat j3 + 1 <=? r - 2) with false by lia. reflexivity. }
    rewrite LO. cbn [bind]. replace (l + 2 - 1) with (l + 1) by lia. replace (r - 2 + 1) with (r - 1) by lia.
    rewrite move_arr by lia. cbn [bind]. rewrite setBoth_arr by lia. cbn [bind]. rewrite move_arr by lia. cbn [bind]. rewrite setBoth_arr by lia. cbn [bind].
    rewrite !to_T by reflexivity. reflexivity.
  Qed.
End Gen.
