From Verif Require Import Base BaseLemmas Tac RndModel RndLemmas RandSpec RandSeqModel ShuffleProofs HackModel HackSpec HackProofs HackProofs2 HackProofs3 HackProofs5 HackProofs6.
From Coq Require Import ZArith List Lia Permutation.
Import ListNotations.
Open Scope Z_scope.

Lemma vals_nth : forall m L, (47 <= L)%nat -> nth 0 (vals m L) 0 = m /\ nth 1 (vals m L) 0 = m + 1 /\ nth (L - 2) (vals m L) 0 = m + Z.of_nat L - 1 /\ nth (L - 1) (vals m L) 0 = m + Z.of_nat L /\
  (forall i, (i < L - 4)%nat -> nth (i + 2) (vals m L) 0 = nth i (vals (m + 2) (L - 4)) 0).
Proof.
  intros m L H. rewrite (vals_step m L H). pose proof (vals_len (m + 2) (L - 4)) as LV. split; [reflexivity|]. split; [reflexivity|].
  replace (L - 2)%nat with (S (S (L - 4))) by lia. replace (L - 1)%nat with (S (S (S (L - 4)))) by lia. cbn [nth]. rewrite !app_nth2 by lia. rewrite LV, Nat.sub_diag. replace (S (L - 4) - (L - 4))%nat with 1%nat by lia.
  split; [reflexivity|]. split; [reflexivity|]. intros i I. replace (i + 2)%nat with (S (S i)) by lia. cbn [nth]. apply app_nth1. lia.
Qed.
Lemma peels_ext : forall fu k l r n f f' q a b, arr n f = arr n f' -> peels fu k l r (mkHacked (arr n f) (arr n q) a b) -> peels fu k l r (mkHacked (arr n f') (arr n q) a b).
Proof. intros fu k l r n f f' q a b E H. rewrite <- E. exact H. Qed.

Lemma T_facts : forall l r e0 e1 e2 e3 e4 h, l + 2 < e0 -> e0 < e1 -> e1 < e2 -> e2 < e3 -> e3 < e4 -> e4 < r - 2 -> let t := T l r e0 e1 e3 e4 h in
  t l = h e4 /\ t (l + 1) = h e3 /\ t (r - 1) = h e1 /\ t r = h e0 /\ (forall i, i < l \/ r < i -> t i = h i) /\
  (forall i, l <= i <= r -> i <> e0 -> i <> e1 -> i <> e3 -> i <> e4 -> exists j, l + 2 <= j <= r - 2 /\ h i = t j).
Proof.
  intros l r e0 e1 e2 e3 e4 h B0 B1 B2 B3 B4 B5 t. unfold t, T. repeat split; try (eqbs; reflexivity).
  - intros i [I|I]; eqbs; reflexivity.
  - intros i I D0 D1 D3 D4. destruct (Z.eq_dec i l) as [->|N1]; [exists e1; split; [lia|eqbs; reflexivity]|]. destruct (Z.eq_dec i (l + 1)) as [->|N2]; [exists e0; split; [lia|eqbs; reflexivity]|].
    destruct (Z.eq_dec i (r - 1)) as [->|N3]; [exists e4; split; [lia|eqbs; reflexivity]|]. destruct (Z.eq_dec i r) as [->|N4]; [exists e3; split; [lia|eqbs; reflexivity]|]. exists i. split; [lia|eqbs; reflexivity].
Qed.
Lemma T_comp : forall l r e0 e1 e3 e4 (v h : Z -> Z) i, T l r e0 e1 e3 e4 (fun j => v (h j)) i = v (T l r e0 e1 e3 e4 h i).
Proof. intros. unfold T. repeat (destruct (_ =? _); [reflexivity|]). reflexivity. Qed.

Lemma main_keeps : forall fuel L A B g m n, n = (length A + L + length B)%nat -> (L < fuel)%nat -> is_i64 m -> is_i64 (m + Z.of_nat L) -> (-1 < m \/ m + Z.of_nat L < -1) ->
  let l := Z.of_nat (length A) in let r := Z.of_nat (length A + L) - 1 in
  always (hackedSort fuel l r (mkHacked (A ++ repeat NO_VALUE L ++ B) (arr n g) m (m + Z.of_nat L)))
    (returns (fun s => exists g' a b, s = mkHacked (A ++ vals m L ++ B) (arr n g') a b /\ keeps n l r g g' /\
      forall val, (forall i, l <= i <= r -> val (g' i) = nth (Z.to_nat (i - l)) (vals m L) 0) -> forall fu q c d, (n <= fu)%nat -> peels fu (rounds L) l r (mkHacked (arr n (fun i => val (g i))) (arr n q) c d))).
Proof.
  induction fuel as [|fuel IH]; intros L A B g m n LP HF M1 M2 NO l r; [lia|]. cbn [hackedSort]. unfold THRESHOLD.
  destruct (r - l + 1 <? 47) eqn:T0.
  - assert (T' : (L < 47)%nat) by lia. rewrite vals_small by exact T'. eapply returns_mono; [|apply small_keeps; [exact M1|exact M2|rewrite !app_length, repeat_length; lia]].
    intros s (g' & -> & K). exists g'. do 2 eexists. split; [reflexivity|]. split; [exact K|]. intros. rewrite rounds_small by exact T'. exact I.
  - assert (T' : (47 <= L)%nat) by lia. set (M := m + Z.of_nat L) in *.
    assert (FL : 0 <= l) by lia. assert (FR : r < Z.of_nat n) by lia. assert (FM : m + 4 <= M) by lia.
    set (D := A ++ repeat NO_VALUE L ++ B). assert (LD : length D = n) by (unfold D; rewrite !app_length, repeat_length; lia).
    set (f := fun i => nth (Z.to_nat i) D 0). assert (ED : D = arr n f) by (apply as_arr; exact LD).
    assert (HFf : forall i, l <= i <= r -> f i = NO_VALUE).
    { intros i I. unfold f, D. rewrite app_nth2 by lia. rewrite app_nth1 by (rewrite repeat_length; lia). rewrite (nth_indep _ 0 NO_VALUE) by (rewrite repeat_length; lia). apply nth_repeat. }
    destruct (five_ok l r ltac:(lia)) as (e0 & e1 & e2 & e3 & e4 & E & B0 & B1 & B2 & B3 & B4 & B5).
    pose proof (abs_step n f l r m M ltac:(lia) ltac:(lia) ltac:(lia) HFf ltac:(lia) NO e0 e1 e2 e3 e4 B0 B1 B2 B3 B4 B5 fuel g M1 M2 ltac:(lia) E) as PR.
    rewrite ED, PR. cbn [lift rbind]. set (G := T l r e0 e1 e3 e4 g) in *.
    assert (EK : arr n (K3 f l r m M) = A ++ m :: m + 1 :: repeat NO_VALUE (L - 4) ++ M - 1 :: M :: B).
    { symmetry. apply arr_of; [rewrite !app_length; cbn [length]; rewrite !app_length, repeat_length; cbn [length]; lia|]. intros i I. unfold K3, f. rewrite Nat2Z.id. unfold D.
      destruct (Nat.lt_ge_cases i (length A)) as [C|C]; [rewrite !app_nth1 by lia; eqbs; reflexivity|]. rewrite !(app_nth2 A) by lia.
      destruct (Z.eqb_spec (Z.of_nat i) l); [replace (i - length A)%nat with 0%nat by lia; reflexivity|]. destruct (Z.eqb_spec (Z.of_nat i) (l + 1)); [replace (i - length A)%nat with 1%nat by lia; reflexivity|].
      replace (i - length A)%nat with (S (S (i - length A - 2))) at 1 by lia. cbn [nth]. destruct (Z.eqb_spec (Z.of_nat i) (r - 1)).
      { rewrite app_nth2 by (rewrite repeat_length; lia). rewrite repeat_length. replace (i - length A - 2 - (L - 4))%nat with 0%nat by lia. reflexivity. }
      destruct (Z.eqb_spec (Z.of_nat i) r).
      { rewrite app_nth2 by (rewrite repeat_length; lia). rewrite repeat_length. replace (i - length A - 2 - (L - 4))%nat with 1%nat by lia. reflexivity. }
      destruct (Nat.lt_ge_cases i (length A + L)) as [C'|C'].
      - rewrite !app_nth1 by (rewrite repeat_length; lia). rewrite !(nth_indep _ 0 NO_VALUE) by (rewrite repeat_length; lia). rewrite !nth_repeat. reflexivity.
      - rewrite !app_nth2 by (rewrite repeat_length; lia). rewrite !repeat_length. replace (i - length A - 2 - (L - 4))%nat with (S (S (i - length A - L))) by lia. reflexivity. }
    rewrite EK. destruct fuel as [|fuel]; [lia|]. apply always_bind. replace (l + 2 - 2) with l by lia. replace (r - 2 + 2) with r by lia.
    assert (ONE : forall x, hackedSort (S fuel) x x = small x x) by (intros x; cbn [hackedSort]; unfold THRESHOLD; replace (x - x + 1 <? 47) with true by lia; reflexivity).
    assert (NOm : m <> NO_VALUE) by (unfold NO_VALUE; lia). assert (NOM : M <> NO_VALUE) by (unfold NO_VALUE; lia).
    rewrite !ONE. eapply always_mono; [|apply (one_keeps A); [exact NOm|rewrite <- EK; symmetry; apply arr_len]].
    intros o O. destruct o as [s| | |]; try contradiction. cbn [returns] in O. subst s.
    apply always_bind.
    assert (SH : A ++ m :: m + 1 :: repeat NO_VALUE (L - 4) ++ M - 1 :: M :: B = (A ++ m :: m + 1 :: repeat NO_VALUE (L - 4) ++ [M - 1]) ++ M :: B) by (rewrite <- app_assoc; cbn [app]; rewrite <- app_assoc; reflexivity).
    assert (RA : r = Z.of_nat (length (A ++ m :: m + 1 :: repeat NO_VALUE (L - 4) ++ [M - 1]))) by (rewrite !app_length; cbn [length]; rewrite app_length, repeat_length; cbn [length]; lia).
    pose proof (one_keeps (A ++ m :: m + 1 :: repeat NO_VALUE (L - 4) ++ [M - 1]) B M (m + 2) (M - 2) n G NOM ltac:(rewrite <- SH, <- EK; symmetry; apply arr_len)) as O1.
    rewrite <- RA, <- SH in O1. eapply always_mono; [|exact O1]. clear O1.
    intros o O. destruct o as [s| | |]; try contradiction. cbn [returns] in O. subst s. rewrite <- EK.
    rewrite E. change (aget [e0; e1; e2; e3; e4] 0) with (Ok e0). change (aget [e0; e1; e2; e3; e4] 4) with (Ok e4). cbn [bind].
    replace ((l + 2 <? e0) && (e4 <? r - 2)) with true by lia.
    assert (SK : partLoop (S fuel) (fun x => x =? m + 1) (fun x => x =? M - 1) (l + 2 - 1) (l + 2) (r - 2) (mkHacked (arr n (K3 f l r m M)) (arr n G) (m + 2) (M - 2)) =
      Ok (mkHacked (arr n (K3 f l r m M)) (arr n G) (m + 2) (M - 2), l + 2, r - 2)).
    { replace (S fuel) with ((L - 4) + S (fuel - (L - 4)))%nat by lia. rewrite part_skip; [|lia|lia|lia|].
      - cbn [partLoop]. cbv zeta. replace (l + 2 - 1 + Z.of_nat (L - 4) + 1 <=? r - 2) with false by lia. reflexivity.
      - intros i I. assert (K : K3 f l r m M i = NO_VALUE) by (unfold K3; eqbs; apply HFf; lia). rewrite K. unfold NO_VALUE. lia. }
    rewrite SK. cbn [lift rbind]. rewrite EK.
    pose proof (IH (L - 4)%nat (A ++ [m; m + 1]) ([M - 1; M] ++ B) G (m + 2) n) as H. cbv zeta in H. rewrite !app_length in H. cbn [length] in H.
    replace (Z.of_nat (length A + 2)) with (l + 2) in H by lia. replace (Z.of_nat (length A + 2 + (L - 4)) - 1) with (r - 2) in H by lia. replace (m + 2 + Z.of_nat (L - 4)) with (M - 2) in H by lia.
    rewrite <- !app_assoc in H. cbn [app] in H. eapply returns_mono; [|apply H; try lia; mach; lia]. clear H IH SK ONE.
    intros s (g' & a & b & -> & [KO KI] & PE). exists g', a, b.
    destruct (T_facts l r e0 e1 e2 e3 e4 g B0 B1 B2 B3 B4 B5) as (TL & TL1 & TR1 & TR & TO & TM). fold G in TL, TL1, TR1, TR, TO, TM.
    assert (GL : g' l = g e4) by (rewrite KO by lia; exact TL). assert (GL1 : g' (l + 1) = g e3) by (rewrite KO by lia; exact TL1).
    assert (GR : g' r = g e0) by (rewrite KO by lia; exact TR). assert (GR1 : g' (r - 1) = g e1) by (rewrite KO by lia; exact TR1).
    split; [|split].
    + f_equal. rewrite (vals_step m L T'). cbn [app]. rewrite <- app_assoc. reflexivity.
    + split.
      * intros i I O. rewrite KO by lia. apply TO. lia.
      * intros i I. destruct (Z.eq_dec i e4) as [->|D4]; [exists l; split; [lia|congruence]|]. destruct (Z.eq_dec i e3) as [->|D3]; [exists (l + 1); split; [lia|congruence]|].
        destruct (Z.eq_dec i e1) as [->|D1]; [exists (r - 1); split; [lia|congruence]|]. destruct (Z.eq_dec i e0) as [->|D0]; [exists r; split; [lia|congruence]|].
        destruct (TM i I D0 D1 D3 D4) as (j & J & EJ). destruct (KI j J) as (j' & J' & EJ'). exists j'. split; [lia|congruence].
    + intros val HV fu q c d FU. destruct (rounds_step L T') as [RS _]. rewrite RS. cbn [peels]. destruct (vals_nth m L T') as (V0 & V1 & V2 & V3 & V4).
      assert (CL : val (g e4) = m). { rewrite <- GL, HV by lia. rewrite Z.sub_diag. exact V0. }
      assert (CL1 : val (g e3) = m + 1). { rewrite <- GL1, HV by lia. replace (l + 1 - l) with 1 by lia. exact V1. }
      assert (CR : val (g e0) = M). { rewrite <- GR, HV by lia. replace (Z.to_nat (r - l)) with (L - 1)%nat by lia. exact V3. }
      assert (CR1 : val (g e1) = M - 1). { rewrite <- GR1, HV by lia. replace (Z.to_nat (r - 1 - l)) with (L - 2)%nat by lia. exact V2. }
      assert (HV' : forall i, l + 2 <= i <= r - 2 -> val (g' i) = nth (Z.to_nat (i - (l + 2))) (vals (m + 2) (L - 4)) 0).
      { intros i I. rewrite HV by lia. replace (Z.to_nat (i - l)) with (Z.to_nat (i - (l + 2)) + 2)%nat by lia. apply V4. lia. }
      assert (CM : forall i, l <= i <= r -> i <> e0 -> i <> e1 -> i <> e3 -> i <> e4 -> m + 2 <= val (g i) <= M - 2).
      { intros i I D0 D1 D3 D4.
        destruct (TM i I D0 D1 D3 D4) as (j & J & EJ).
        destruct (KI j J) as (j' & J' & EJ'). rewrite EJ, EJ', HV' by exact J'. clear D0 D1 D3 D4 EJ EJ' TM TO KO KI NO.
        assert (IN : In (nth (Z.to_nat (j' - (l + 2))) (vals (m + 2) (L - 4)) 0) (vals (m + 2) (L - 4))) by (apply nth_In; rewrite vals_len; clear - J' T'; lia). apply vals_in in IN. clear - IN T'. lia. }
      assert (FF : (Z.to_nat (r - l) <= fu)%nat) by (clear - FU FR FL; lia).
      pose proof (conc_step n (fun i => val (g i)) l r m M FL FR NO FM e0 e1 e2 e3 e4 B0 B1 B2 B3 B4 B5 fu q c d FF E CR CR1 CL1 CL CM) as CS.
      do 3 eexists. split; [exact CS|]. eapply peels_ext; [|apply (PE val HV'); exact FU]. apply arr_ext. intros i I. symmetry. apply T_comp.
Qed.
Lemma hack_peels : forall fuel n mi, 0 <= n < Z.of_nat fuel -> is_i64 mi -> is_i64 (mi + n) -> ~ (mi <= -1 <= mi + n) ->
  always (HackedSort fuel n mi) (returns (fun l => forall fu p a b, n <= Z.of_nat fu -> alen p = n -> peels fu (Z.to_nat ((n - 43) / 4)) 0 (n - 1) (mkHacked l p a b))).
Proof.
  intros fuel n mi N M1 M2 NO. unfold HackedSort. replace (n <? 0) with false by lia. rewrite chk_Ok by exact M2. cbn [lift rbind]. set (k := Z.to_nat n).
  assert (K : n = Z.of_nat k) by (unfold k; lia). apply always_bind.
  assert (EZ : zseq 0 k = arr k (fun i => i)) by (unfold arr; symmetry; apply map_id).
  pose proof (main_keeps fuel k [] [] (fun i => i) mi k ltac:(cbn; lia) ltac:(lia) M1 ltac:(rewrite <- K; exact M2) ltac:(rewrite <- K; lia)) as H. cbn [length app] in H. change (0 + k)%nat with k in H. rewrite <- K in H. cbv zeta in H. change (Z.of_nat 0) with 0 in H.
  rewrite app_nil_r in H. rewrite EZ.
  pose proof (main_always fuel k [] [] (zseq 0 k) mi ltac:(lia) ltac:(cbn; rewrite zs_len; lia) M1 ltac:(rewrite <- K; exact M2) ltac:(rewrite <- K; lia)) as H2. cbn [length app] in H2. change (0 + k)%nat with k in H2. rewrite <- K in H2. change (Z.of_nat 0) with 0 in H2. rewrite app_nil_r in H2. rewrite EZ in H2 at 1.
  apply always_can. intros o O. pose proof (can_always _ _ _ _ O H) as HA. pose proof (can_always _ _ _ _ O H2) as HB. clear H H2.
  destruct o as [s| | |]; try contradiction. destruct HA as (g' & a & b & -> & _ & PE). destruct HB as (p' & a' & b' & EQ & P). injection EQ as EQ _ _. cbn [hp hdata]. rewrite app_nil_r.
  rewrite EQ. assert (PP : Permutation (zseq 0 k) p') by (rewrite EZ at 1; rewrite EZ in P; exact P || exact P).
  assert (LP : length p' = k) by (rewrite <- (Permutation_length PP); apply zs_len).
  destruct (scatter_ok p' (vals mi k) (repeat 0 k)) as (r & E & LR & R1 & _); [rewrite vals_len; exact LP|apply (Permutation_NoDup PP); apply zs_nodup|
    rewrite Forall_forall; intros i I; apply (Permutation_in i (Permutation_sym PP)) in I; apply zs_in in I; unfold alen; rewrite repeat_length; lia|].
  rewrite repeat_length in LR. rewrite E. cbn [lift always returns]. intros fu p c d FU AL.
  assert (LQ : length p = k) by (unfold alen in AL; lia).
  rewrite (as_arr r k LR), (as_arr p k LQ). replace (Z.to_nat ((n - 43) / 4)) with (rounds k) by (unfold rounds; rewrite <- K; reflexivity).
  apply (PE (fun i => nth (Z.to_nat i) r 0)); [|lia]. intros i I. rewrite Z.sub_0_r. rewrite <- R1 by lia. do 2 f_equal. rewrite <- EQ, arr_nth by lia. rewrite Z2Nat.id by lia. reflexivity.
Qed.
