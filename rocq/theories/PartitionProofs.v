From Verif Require Import Tac RndModel RandSeqModel RndLemmas SortLemmas DistinctProofs.
From Coq Require Import QArith Qfield Permutation Sorted.
From Verif Require Import RandSeqModel.
Open Scope Z_scope.

Fixpoint diffs (l : list Z) (last min : Z) : list Z :=
  match l with [] => [] | x :: l' => (x - last + (min - 1)) :: diffs l' x min end.
Fixpoint cuts (t : list Z) (last min : Z) : list Z :=
  match t with [] => [] | v :: t' => (last + (v - (min - 1))) :: cuts t' (last + (v - (min - 1))) min end.

Lemma diffs_cuts : forall t last min, diffs (cuts t last min) last min = t.
Proof. induction t; simpl; intros; auto. rewrite IHt. f_equal. lia. Qed.
Lemma diffs_inj : forall l l' last min, diffs l last min = diffs l' last min -> l = l'.
Proof.
  induction l; destruct l'; simpl; intros last min H; try discriminate; auto.
  injection H. intros H1 H2. assert (a = z) by lia. subst. f_equal. eauto.
Qed.
Lemma diffs_length : forall l last min, length (diffs l last min) = length l.
Proof. induction l; simpl; auto. Qed.
Lemma cuts_length : forall l last min, length (cuts l last min) = length l.
Proof. induction l; simpl; auto. Qed.
Lemma diffs_sum : forall l z last min,
  zsum (diffs (l ++ [z]) last min) = z - last + (min - 1) * Z.of_nat (length (l ++ [z])).
Proof.
  induction l; simpl; intros.
  - lia.
  - unfold zsum in *. simpl. rewrite IHl. rewrite !app_length. simpl length. lia.
Qed.
Lemma diffs_ge : forall l last min, StronglySorted Z.lt (last :: l) ->
  Forall (fun v => min <= v) (diffs l last min).
Proof.
  induction l; simpl; intros last min H; constructor.
  - inversion_clear H as [| ? ? _ F]. inversion_clear F. lia.
  - apply IHl. inversion_clear H; auto.
Qed.

Lemma sorted_max : forall l x m, StronglySorted Z.lt (x :: l) -> Forall (fun y => y <= m) (x :: l) ->
  x + Z.of_nat (length l) <= m.
Proof.
  induction l as [| y l IH]; intros x m H F.
  - inversion_clear F. simpl. lia.
  - inversion_clear H as [| ? ? S G]. inversion_clear F as [| ? ? Fx F'].
    specialize (IH y m S F'). inversion_clear G. simpl length. lia.
Qed.

Lemma diffLoop_Ok : forall l last min m B,
  StronglySorted Z.lt (last :: l) -> Forall (fun y => y <= m) (last :: l) -> 0 <= last ->
  is_i64 m -> is_i64 (min - 1) -> m - last - Z.of_nat (length l) + 1 <= B -> 0 <= B ->
  is_i64 (B + (min - 1)) ->
  diffLoop l last min = Ok (diffs l last min).
Proof.
  induction l as [| x l IH]; intros last min m B H F Hl Hm Hmin Hb HB HB'; [reflexivity |].
  inversion_clear H as [| ? ? S G]. inversion_clear F as [| ? ? Fx F'].
  pose proof (sorted_max l x m S F') as M. inversion_clear G as [| ? ? Hx _].
  inversion_clear F' as [| ? ? F1 F2]. simpl length in Hb.
  cbn [diffLoop diffs].
  rewrite (chk_Ok (x - last)) by (mach; lia). cbn [bind].
  rewrite (chk_Ok (last + (x - last))) by (mach; lia). cbn [bind].
  rewrite (chk_Ok (min - 1)) by auto. cbn [bind].
  rewrite (chk_Ok (x - last + (min - 1))) by (mach; lia). cbn [bind].
  replace (last + (x - last)) with x by lia.
  rewrite (IH x min m B); auto; try lia.
Qed.

Section Partition.
  Variables n k min : Z.
  Hypothesis Hn : is_i64 n.
  Hypothesis Hk : is_i64 k.
  Hypothesis Hm : is_i64 min.
  Hypothesis Hn0 : 0 < n.
  Hypothesis Hk0 : 0 < k.
  Hypothesis Hnk : min * k <= n.
  Let m := n - (min - 1) * k.
  Hypothesis Hm' : is_i64 m.

  Lemma m_ge : k <= m. Proof. unfold m. nia. Qed.
  Lemma min_ok : is_i64 (min - 1) /\ is_i64 ((min - 1) * k).
  Proof.
    unfold m in Hm'. mach. destruct (Z.le_gt_cases min 0).
    - assert (H1 : (min - 1) * k <= min - 1) by nia.
      clear - Hn Hm' H1 H Hn0. split; lia.
    - assert (H1 : 0 <= (min - 1) * k) by nia.
      assert (H2 : (min - 1) * k <= n) by nia.
      clear - Hn Hm H1 H2 H. split; lia.
  Qed.

  Lemma partition_unfold : partition n k min =
    let? res := increasing (k - 1) 1 m in lift (diffLoop (res ++ [m]) 0 min).
  Proof.
    unfold partition, judgeAssert. replace (0 <? n) with true by lia. replace (0 <? k) with true by lia.
    cbn [lift rbind]. destruct min_ok as [H1 H2].
    assert (E : (if min <=? 0 then Ok true else let! q := cdiv n min in Ok (k <=? q)) = Ok true).
    { destruct (min <=? 0) eqn:E; auto. unfold cdiv. replace (min =? 0) with false by lia.
      rewrite Z.quot_div_nonneg by lia.
      assert (k <= n / min) by (apply Z.div_le_lower_bound; lia).
      assert (is_i64 (n / min)).
      { mach. split; [lia |]. apply Z.le_trans with n; [| lia].
        apply Z.div_le_upper_bound; nia. }
      rewrite chk_Ok by auto.
      cbn [bind]. f_equal. lia. }
    rewrite E. cbn [lift rbind]. rewrite (chk_Ok (min - 1)) by auto. cbn [lift rbind].
    rewrite (chk_Ok ((min - 1) * k)) by auto. cbn [lift rbind]. fold m.
    rewrite (chk_Ok m) by auto. reflexivity.
  Qed.

  Lemma cutlist_sorted : forall l, StronglySorted Z.lt l -> Forall (fun x => 1 <= x < m) l ->
    StronglySorted Z.lt (0 :: l ++ [m]).
  Proof.
    intros l S F. pose proof m_ge. constructor.
    - induction S as [| x l S IH G]; simpl; [repeat constructor |].
      inversion_clear F as [| ? ? F1 F2]. constructor; [apply IH; auto |].
      apply Forall_app. split; auto. constructor; [lia | constructor].
    - apply Forall_app. split; [| constructor; [lia | constructor]].
      eapply Forall_impl; [| exact F]. simpl. intros; lia.
  Qed.

  Lemma diffLoop_cutlist : forall l, Z.of_nat (length l) = k - 1 -> StronglySorted Z.lt l ->
    Forall (fun x => 1 <= x < m) l -> diffLoop (l ++ [m]) 0 min = Ok (diffs (l ++ [m]) 0 min).
  Proof.
    intros l HL S F. pose proof m_ge. destruct min_ok as [H1 H2].
    apply (diffLoop_Ok _ 0 min m (m - k + 1)); auto; try lia.
    - apply cutlist_sorted; auto.
    - constructor; [lia |]. apply Forall_app. split; [| constructor; [lia | constructor]].
      eapply Forall_impl; [| exact F]. simpl. intros; lia.
    - rewrite app_length. simpl length. lia.
    - mach. replace (m - k + 1 + (min - 1)) with (n - min * (k - 1)) by (unfold m; ring).
      destruct (Z.le_gt_cases min 0).
      + assert (n - min * (k - 1) <= m) by (unfold m; nia).
        assert (n <= n - min * (k - 1)) by nia. lia.
      + assert (0 <= min * (k - 1)) by nia. assert (min <= n - min * (k - 1)) by nia. lia.
  Qed.

  Lemma partition_always : always (partition n k min)
    (returns (fun t => Z.of_nat (length t) = k /\ zsum t = n /\ Forall (fun v => min <= v) t)).
  Proof.
    rewrite partition_unfold. pose proof m_ge.
    eapply returns_bind; [apply increasing_always; auto; mach; lia |]. intros l (HL & S & F).
    cbv beta in *. rewrite diffLoop_cutlist by auto. apply returns_ret. split; [| split].
    - rewrite diffs_length, app_length. simpl. lia.
    - rewrite diffs_sum, app_length. simpl length. unfold m. 
      replace (Z.of_nat (length l + 1)) with k by lia. lia.
    - apply diffs_ge. apply cutlist_sorted; auto.
  Qed.

  Lemma cuts_sorted : forall t last, Forall (fun v => min <= v) t ->
    StronglySorted Z.lt (last :: cuts t last min).
  Proof.
    induction t as [| v t IH]; intros last F; simpl; [repeat constructor |].
    inversion_clear F as [| ? ? F1 F2]. specialize (IH (last + (v - (min - 1))) F2).
    constructor; auto. inversion_clear IH as [| ? ? S G]. constructor; [lia |].
    eapply Forall_impl; [| exact G]. simpl. intros; lia.
  Qed.

  Lemma cuts_last : forall t last s z, cuts t last min = s ++ [z] ->
    z = last + zsum t - (min - 1) * Z.of_nat (length t).
  Proof.
    induction t as [| v t IH]; intros last s z H.
    - destruct s; discriminate.
    - cbn [cuts] in H. destruct s as [| y s].
      + simpl in H. injection H. intros H1 H2. destruct t; [| discriminate]. simpl. lia.
      + simpl in H. injection H. intros H1 H2. apply IH in H1. simpl length. unfold zsum in *. simpl. lia.
  Qed.

  Lemma partition_uniform : forall t, Z.of_nat (length t) = k -> zsum t = n ->
    Forall (fun v => min <= v) t ->
    (Pr (partition n k min) (resultIs (list_eq_dec Z.eq_dec) t) ==
     inject_Z (zfact (Z.to_nat (k - 1))) * inject_Z (zfact (Z.to_nat (m - k)))
       / inject_Z (zfact (Z.to_nat (m - 1))))%Q.
  Proof.
    intros t HL HS HF. pose proof m_ge.
    assert (exists s z, cuts t 0 min = s ++ [z]) as (s & z & Es).
    { pose proof (cuts_length t 0 min) as CL. destruct (cuts t 0 min) eqn:E; [simpl in CL; lia |].
      destruct (@exists_last _ (z :: l)) as (s & z' & ->); [discriminate | eauto]. }
    assert (z = m). { apply cuts_last in Es. rewrite Es, HS, HL. unfold m. lia. }
    subst z. pose proof (cuts_sorted t 0 HF) as CS. rewrite Es in CS.
    assert (Hs : Z.of_nat (length s) = k - 1).
    { pose proof (cuts_length t 0 min) as CL. rewrite Es, app_length in CL. simpl in CL. lia. }
    inversion_clear CS as [| ? ? CS1 CF].
    assert (Ss : StronglySorted Z.lt s /\ Forall (fun x => x < m) s).
    { clear - CS1. induction s as [| x s IH]; simpl in CS1; [split; constructor |].
      inversion_clear CS1 as [| ? ? S G]. destruct (IH S). apply Forall_app in G. destruct G as [G1 G2].
      inversion_clear G2. split; constructor; auto. }
    destruct Ss as [Ss Fm].
    assert (Fs : Forall (fun x => 1 <= x < m) s).
    { apply Forall_app in CF. destruct CF as [CF _]. rewrite Forall_forall in *. intros x Hx.
      specialize (Fm x Hx). specialize (CF x Hx). simpl in *. lia. }
    rewrite partition_unfold. unfold Pr. rewrite expect_bind.
    replace (m - k) with (m - 1 - (k - 1)) by lia.
    rewrite <- (increasing_uniform (k - 1) 1 m) with (t := s); auto; try (mach; lia).
    unfold Pr. apply expect_ext_always.
    eapply always_mono; [| apply (increasing_always (k - 1) 1 m); auto; mach; lia].
    intros [l | | |]; cbn [returns]; try contradiction. intros (L1 & L2 & L3).
    rewrite diffLoop_cutlist by auto. cbn [lift expect]. unfold resultIs.
    destruct (list_eq_dec Z.eq_dec (diffs (l ++ [m]) 0 min) t) as [E | N],
             (list_eq_dec Z.eq_dec l s) as [E' | N']; try reflexivity; exfalso.
    - apply N'. rewrite <- (diffs_cuts t 0 min) in E. apply diffs_inj in E. rewrite Es in E.
      apply app_inj_tail in E. tauto.
    - apply N. subst l. rewrite <- Es. apply diffs_cuts.
  Qed.
End Partition.

Lemma partition_throws : forall n k min, is_i64 n -> is_i64 k -> is_i64 min ->
  n <= 0 \/ k <= 0 \/ 0 < min /\ n < min * k -> partition n k min = RRet Throw.
Proof.
  intros n k min Hn Hk Hm H. unfold partition, judgeAssert.
  destruct (0 <? n) eqn:E1; [| reflexivity]. destruct (0 <? k) eqn:E2; [| reflexivity].
  cbn [lift rbind]. assert (H' : 0 < min /\ n < min * k) by lia. destruct H' as [Hp Hlt].
  replace (min <=? 0) with false by lia. unfold cdiv. replace (min =? 0) with false by lia.
  rewrite Z.quot_div_nonneg by lia.
  assert (n / min < k) by (apply Z.div_lt_upper_bound; lia).
  rewrite chk_Ok. 2:{ mach. pose proof (Z.div_pos n min). lia. }
  cbn [bind lift rbind]. replace (k <=? n / min) with false by lia. reflexivity.
Qed.
