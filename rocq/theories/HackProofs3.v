From Verif Require Import Base BaseLemmas Tac RndModel RndLemmas RandSpec RandSeqModel ShuffleProofs HackModel HackProofs HackProofs2.
From Coq Require Import ZArith List Lia Permutation.
Import ListNotations.
Open Scope Z_scope.

Definition rounds (L : nat) : nat := Z.to_nat ((Z.of_nat L - 43) / 4).
Definition vals (m : Z) (L : nat) : list Z := zseq m (L - 2 * rounds L) ++ zseq (m + Z.of_nat L - 2 * Z.of_nat (rounds L) + 1) (2 * rounds L).
Lemma rounds_small : forall L, (L < 47)%nat -> rounds L = 0%nat.
Proof. intros L H. unfold rounds. assert ((Z.of_nat L - 43) / 4 < 1) by (apply Z.div_lt_upper_bound; lia). lia. Qed.
Lemma rounds_step : forall L, (47 <= L)%nat -> rounds L = S (rounds (L - 4)) /\ (2 * rounds L + 4 <= L)%nat.
Proof. intros L H. unfold rounds. rewrite Nat2Z.inj_sub by lia. split; Z.to_euclidean_division_equations; lia. Qed.
Lemma vals_small : forall m L, (L < 47)%nat -> vals m L = zseq m L.
Proof. intros m L H. unfold vals. rewrite rounds_small by exact H. cbn [Nat.mul zseq]. rewrite Nat.sub_0_r, app_nil_r. reflexivity. Qed.
Lemma vals_step : forall m L, (47 <= L)%nat -> vals m L = m :: m + 1 :: vals (m + 2) (L - 4) ++ [m + Z.of_nat L - 1; m + Z.of_nat L].
Proof.
  intros m L H. destruct (rounds_step L H) as [R B]. unfold vals. rewrite R in B |- *. set (t := rounds (L - 4)) in *.
  replace (L - 2 * S t)%nat with (2 + (L - 4 - 2 * t))%nat by lia. rewrite (zseq_app 2). change (zseq m 2) with [m; m + 1]. cbn [app]. do 2 f_equal. rewrite <- app_assoc.
  change (Z.of_nat 2) with 2. f_equal. replace (2 * S t)%nat with (2 * t + 2)%nat by lia. rewrite (zseq_app (2 * t)). f_equal; [f_equal; lia|]. cbn [zseq].
  f_equal; [lia|]. f_equal. lia.
Qed.
Lemma as_arr : forall l n, length l = n -> l = arr n (fun i => nth (Z.to_nat i) l 0).
Proof. intros l n L. apply arr_of; [exact L|]. intros i I. rewrite Nat2Z.id. reflexivity. Qed.

Lemma main_always : forall fuel L A B p m, (L < fuel)%nat -> length p = (length A + L + length B)%nat -> is_i64 m -> is_i64 (m + Z.of_nat L) -> (-1 < m \/ m + Z.of_nat L < -1) ->
  always (hackedSort fuel (Z.of_nat (length A)) (Z.of_nat (length A + L) - 1) (mkHacked (A ++ repeat NO_VALUE L ++ B) p m (m + Z.of_nat L)))
    (returns (fun s => exists p' a b, s = mkHacked (A ++ vals m L ++ B) p' a b /\ Permutation p p')).
Proof.
  induction fuel as [|fuel IH]; intros L A B p m HF LP M1 M2 NO; [lia|]. cbn [hackedSort]. unfold THRESHOLD.
  destruct (Z.of_nat (length A + L) - 1 - Z.of_nat (length A) + 1 <? 47) eqn:T.
  - assert (T' : (L < 47)%nat) by lia. rewrite vals_small by exact T'. eapply returns_mono; [|apply small_always; [exact M1|exact M2|rewrite !app_length, repeat_length; lia]].
    intros s (p' & -> & P). eauto.
  - assert (T' : (47 <= L)%nat) by lia. set (l := Z.of_nat (length A)) in *. set (r := Z.of_nat (length A + L) - 1) in *. set (M := m + Z.of_nat L) in *. set (n := (length A + L + length B)%nat) in *.
    set (D := A ++ repeat NO_VALUE L ++ B). assert (LD : length D = n) by (unfold D; rewrite !app_length, repeat_length; lia).
    set (f := fun i => nth (Z.to_nat i) D 0). set (g := fun i => nth (Z.to_nat i) p 0). assert (ED : D = arr n f) by (apply as_arr; exact LD). assert (EP : p = arr n g) by (apply as_arr; exact LP).
    assert (HFf : forall i, l <= i <= r -> f i = NO_VALUE).
    { intros i I. unfold f, D. rewrite app_nth2 by lia. rewrite app_nth1 by (rewrite repeat_length; lia). rewrite (nth_indep _ 0 NO_VALUE) by (rewrite repeat_length; lia). apply nth_repeat. }
    destruct (five_ok l r ltac:(lia)) as (e0 & e1 & e2 & e3 & e4 & E & B0 & B1 & B2 & B3 & B4 & B5).
    destruct (partition_run n f l r m M ltac:(lia) ltac:(lia) ltac:(lia) HFf ltac:(lia) NO e0 e1 e2 e3 e4 B0 B1 B2 B3 B4 B5 fuel g M1 M2 ltac:(lia) E) as (G & PG & PR).
    rewrite ED. rewrite EP at 1. rewrite PR. cbn [lift rbind].
    assert (EK : arr n (K3 f l r m M) = A ++ m :: m + 1 :: repeat NO_VALUE (L - 4) ++ M - 1 :: M :: B).
    { symmetry. apply arr_of; [rewrite !app_length; cbn [length]; rewrite !app_length, repeat_length; cbn [length]; lia|]. intros i I. unfold K3, f. rewrite Nat2Z.id. unfold D.
      destruct (Nat.lt_ge_cases i (length A)) as [C|C]; [rewrite !app_nth1 by lia; eqbs; reflexivity|]. rewrite !(app_nth2 A) by lia.
      destruct (Z.eqb_spec (Z.of_nat i) l); [replace (i - length A)%nat with 0%nat by lia; reflexivity|]. destruct (Z.eqb_spec (Z.of_nat i) (l + 1)); [replace (i - length A)%nat with 1%nat by lia; reflexivity|].
      replace (i - length A)%nat with (S (S (i - length A - 2))) at 1 by lia. cbn [nth]. destruct (Z.eqb_spec (Z.of_nat i) (r - 1)).
      { rewrite app_nth2 by (rewrite repeat_length; lia). rewrite repeat_length. replace (i - length A - 2 - (L - 4))%nat with 0%nat by lia. reflexivity. }
      destruct (Z.eqb_spec (Z.of_nat i) r).
      { rewrite app_nth2 by (rewrite repeat_length; lia). rewrite repeat_length. replace (i - length A - 2 - (L - 4))%nat with 1%nat by lia. reflexivity. }
      destruct (Nat.lt_ge_cases i (length A + L)) as [C'|C'].
      - rewrite !app_nth1 by (rewrite repeat_length; lia). rewrite !(nth_indep _ 0 NO_VALUE) by (rewrite repeat_length; lia). rewrite !nth_repeat. reflexivity.
      - rewrite !app_nth2 by (rewrite repeat_length; lia). rewrite !repeat_length. replace (i - length A - 2 - (L - 4))%nat with (S (S (i - length A - L))) by lia. reflexivity. }
    rewrite EK. destruct fuel as [|fuel]; [lia|]. apply always_bind. replace (l + 2 - 2) with l by lia. replace (r - 2 + 2) with r by lia.
    assert (ONE : forall x, hackedSort (S fuel) x x = small x x) by (intros x; cbn [hackedSort]; unfold THRESHOLD; replace (x - x + 1 <? 47) with true by lia; reflexivity).
    assert (NOm : m <> NO_VALUE) by (unfold NO_VALUE; lia). assert (NOM : M <> NO_VALUE) by (unfold NO_VALUE; lia).
    assert (LG : length (arr n G) = n) by apply arr_len.
    rewrite !ONE. eapply always_mono; [|apply (one_always A); [exact NOm|rewrite LG, <- EK; symmetry; apply arr_len]].
    intros o O. destruct o as [s| | |]; try contradiction. destruct O as (p1 & -> & P1).
    apply always_bind. assert (L1 : length p1 = n) by (rewrite <- (Permutation_length P1); exact LG).
    assert (SH : A ++ m :: m + 1 :: repeat NO_VALUE (L - 4) ++ M - 1 :: M :: B = (A ++ m :: m + 1 :: repeat NO_VALUE (L - 4) ++ [M - 1]) ++ M :: B) by (rewrite <- app_assoc; cbn [app]; rewrite <- app_assoc; reflexivity).
    assert (RA : r = Z.of_nat (length (A ++ m :: m + 1 :: repeat NO_VALUE (L - 4) ++ [M - 1]))) by (rewrite !app_length; cbn [length]; rewrite app_length, repeat_length; cbn [length]; lia).
    pose proof (one_always (A ++ m :: m + 1 :: repeat NO_VALUE (L - 4) ++ [M - 1]) B p1 M (m + 2) (M - 2) NOM ltac:(rewrite L1, <- SH, <- EK; symmetry; apply arr_len)) as O1.
    rewrite <- RA, <- SH in O1. eapply always_mono; [|exact O1].
    intros o O. destruct o as [s| | |]; try contradiction. destruct O as (p2 & -> & P2). assert (L2 : length p2 = n) by (rewrite <- (Permutation_length P2); exact L1). rewrite <- EK.
    rewrite E. change (aget [e0; e1; e2; e3; e4] 0) with (Ok e0). change (aget [e0; e1; e2; e3; e4] 4) with (Ok e4). cbn [bind].
    replace ((l + 2 <? e0) && (e4 <? r - 2)) with true by lia. rewrite (as_arr p2 n L2).
    assert (SK : partLoop (S fuel) (fun x => x =? m + 1) (fun x => x =? M - 1) (l + 2 - 1) (l + 2) (r - 2) (mkHacked (arr n (K3 f l r m M)) (arr n (fun i => nth (Z.to_nat i) p2 0)) (m + 2) (M - 2)) =
      Ok (mkHacked (arr n (K3 f l r m M)) (arr n (fun i => nth (Z.to_nat i) p2 0)) (m + 2) (M - 2), l + 2, r - 2)).
    { replace (S fuel) with ((L - 4) + S (fuel - (L - 4)))%nat by lia. rewrite part_skip; [|lia|lia|lia|].
      - cbn [partLoop]. cbv zeta. replace (l + 2 - 1 + Z.of_nat (L - 4) + 1 <=? r - 2) with false by lia. reflexivity.
      - intros i I. assert (K : K3 f l r m M i = NO_VALUE) by (unfold K3; eqbs; apply HFf; lia). rewrite K. unfold NO_VALUE. lia. }
    rewrite SK. cbn [lift rbind]. rewrite <- (as_arr p2 n L2), EK.
    pose proof (IH (L - 4)%nat (A ++ [m; m + 1]) ([M - 1; M] ++ B) p2 (m + 2)) as H. rewrite !app_length in H. cbn [length] in H.
    replace (Z.of_nat (length A + 2)) with (l + 2) in H by lia. replace (Z.of_nat (length A + 2 + (L - 4)) - 1) with (r - 2) in H by lia. replace (m + 2 + Z.of_nat (L - 4)) with (M - 2) in H by lia.
    rewrite <- !app_assoc in H. cbn [app] in H. eapply returns_mono; [|apply H; try lia; mach; lia].
    intros s (p' & a & b & -> & P'). exists p', a, b. split.
    + f_equal. rewrite (vals_step m L T'). cbn [app]. rewrite <- app_assoc. reflexivity.
    + rewrite EP. apply (Permutation_trans PG), (Permutation_trans P1), (Permutation_trans P2), P'.
Qed.

Lemma scatter_any : forall n p d, Permutation (zseq 0 n) p -> length d = n -> exists r, scatter p d (repeat 0 n) = Ok r /\ Permutation d r.
Proof.
  intros n p d PP LD. assert (LP : length p = n) by (rewrite <- (Permutation_length PP); apply zs_len).
  assert (FP : Forall (fun i => 0 <= i < alen (repeat 0 n)) p). { rewrite Forall_forall. intros i I. apply (Permutation_in i (Permutation_sym PP)) in I. apply zs_in in I. unfold alen. rewrite repeat_length. lia. }
  assert (NP : NoDup p) by (apply (Permutation_NoDup PP); apply zs_nodup).
  destruct (scatter_ok p d (repeat 0 n)) as (r & E & LR & R1 & _); [lia|exact NP|exact FP|]. rewrite repeat_length in *. exists r. split; [exact E|].
  assert (D : d = map (fun i => nth (Z.to_nat i) r 0) p).
  { apply (nth_ext _ _ 0 0); [rewrite map_length; lia|]. intros i I. rewrite (nth_indep (map (fun i => nth (Z.to_nat i) r 0) p) 0 (nth (Z.to_nat 0) r 0)) by (rewrite map_length; lia). rewrite (map_nth (fun i => nth (Z.to_nat i) r 0)). symmetry. apply R1. lia. }
  assert (RR : r = map (fun i => nth (Z.to_nat i) r 0) (zseq 0 n)) by (apply (as_arr r n LR)).
  rewrite D. eapply Permutation_trans; [apply Permutation_map, Permutation_sym, PP|]. rewrite <- RR. apply Permutation_refl.
Qed.
Lemma vals_len : forall m L, length (vals m L) = L.
Proof.
  intros m L. destruct (Nat.lt_ge_cases L 47) as [H|H]; [rewrite vals_small by exact H; apply zs_len|]. destruct (rounds_step L H) as [_ B]. unfold vals. rewrite app_length, !zs_len. lia.
Qed.
Lemma hack_always : forall fuel n mi, 0 <= n < Z.of_nat fuel -> is_i64 mi -> is_i64 (mi + n) -> (-1 < mi \/ mi + n < -1) ->
  always (HackedSort fuel n mi) (returns (Permutation (vals mi (Z.to_nat n)))).
Proof.
  intros fuel n mi N M1 M2 NO. unfold HackedSort. replace (n <? 0) with false by lia. rewrite chk_Ok by exact M2. cbn [lift rbind]. set (k := Z.to_nat n).
  assert (K : n = Z.of_nat k) by (unfold k; lia). apply always_bind.
  pose proof (main_always fuel k [] [] (zseq 0 k) mi ltac:(lia) ltac:(cbn; rewrite zs_len; lia) M1 ltac:(rewrite <- K; exact M2) ltac:(rewrite <- K; exact NO)) as H. cbn [length app] in H. change (0 + k)%nat with k in H. rewrite <- K in H. change (Z.of_nat 0) with 0 in H.
  rewrite !app_nil_r in H. eapply always_mono; [|exact H]. intros o O. destruct o as [s| | |]; try contradiction. destruct O as (p' & a & b & -> & P). cbn [hp hdata].
  rewrite ?app_nil_r. destruct (scatter_any k p' (vals mi k) P (vals_len mi k)) as (r & E & PR). rewrite E. exact PR.
Qed.
