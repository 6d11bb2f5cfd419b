From Verif Require Import Tac RndModel RandIntModel RandSeqModel RndLemmas SortLemmas SeqModel SeqSpec.
From Coq Require Import Permutation Sorted.
From Verif Require Import RandSeqModel.

(* ---- isPerm ---- *)
Definition inv_seen (pre : list Z) (offset : Z) (seen : list bool) : Prop :=
  forall d, 0 <= d < alen seen -> (nth (Z.to_nat d) seen false = true <-> In (offset + d) pre).

Lemma isPermLoop_ok : forall l pre offset count seen,
  alen seen = count -> inv_seen pre offset seen -> NoDup pre ->
  Forall (fun x => offset <= x < offset + count) pre ->
  Forall (fun x => is_i64 x /\ x - offset <= I64_MAX) l ->
  (isPermLoop l offset count seen = Ok (true, None) /\ NoDup (pre ++ l) /\
     Forall (fun x => offset <= x < offset + count) (pre ++ l)) \/
  (exists x l1 l2, isPermLoop l offset count seen = Ok (false, Some x) /\ l = l1 ++ x :: l2 /\
     NoDup (pre ++ l1) /\ Forall (fun x => offset <= x < offset + count) (pre ++ l1) /\
     (~ offset <= x < offset + count \/ In x (pre ++ l1))).
Proof.
  induction l as [| x l IH]; intros pre offset count seen HL HI HN HF H64.
  - left. rewrite app_nil_r. auto.
  - inversion_clear H64 as [| ? ? [Hx Hd] H64']. cbn [isPermLoop].
    assert (Bad : forall v, v = x -> (~ offset <= v < offset + count \/ In v pre) ->
      exists y l1 l2, (Ok (false, Some v) : outcome (boolean Z)) = Ok (false, Some y) /\ x :: l = l1 ++ y :: l2 /\
       NoDup (pre ++ l1) /\ Forall (fun x => offset <= x < offset + count) (pre ++ l1) /\
       (~ offset <= y < offset + count \/ In y (pre ++ l1))).
    { intros v -> Hb. exists x, [], l. rewrite app_nil_r. auto. }
    destruct (x <? offset) eqn:E1; [right; apply Bad; auto; left; lia |].
    rewrite chk_Ok by (mach; lia). cbn [bind].
    destruct (count <=? x - offset) eqn:E2; [right; apply Bad; auto; left; lia |].
    rewrite (aget_Ok _ seen _ false) by lia. cbn [bind].
    assert (Hseen := HI (x - offset) ltac:(lia)). replace (offset + (x - offset)) with x in Hseen by lia.
    destruct (nth (Z.to_nat (x - offset)) seen false) eqn:E3.
    + right. apply Bad; auto. right. apply Hseen. reflexivity.
    + rewrite aset_Ok by lia. cbn [bind].
      assert (Hnx : ~ In x pre) by (intros I; apply Hseen in I; discriminate).
      assert (NP : NoDup (pre ++ [x])).
      { apply Permutation_NoDup with (x :: pre); [apply Permutation_cons_append | constructor; auto]. }
      destruct (IH (pre ++ [x]) offset count (upd seen (Z.to_nat (x - offset)) true)) as [G | G]; auto.
      * unfold alen in *. rewrite upd_length. exact HL.
      * intros d Hdr. unfold alen in Hdr. rewrite upd_length in Hdr. fold (alen seen) in Hdr.
        rewrite in_app_iff. destruct (Z.eq_dec d (x - offset)) as [-> | Nd].
        -- rewrite nth_upd_same by (unfold alen in *; lia). split; auto. intros _. right. left. lia.
        -- rewrite nth_upd_other by lia. rewrite (HI d Hdr). simpl. intuition lia.
      * apply Forall_app. split; auto. constructor; [lia | constructor].
      * left. rewrite <- app_assoc in G. exact G.
      * right. destruct G as (y & l1 & l2 & G1 & G2 & G3 & G4 & G5).
        exists y, (x :: l1), l2. rewrite <- app_assoc in G3, G4, G5. subst l. auto.
Qed.

Lemma isPerm_ok : forall l offset,
  Forall (fun x => is_i64 x /\ x - offset <= I64_MAX) l ->
  (isPerm l offset = Ok (true, None) /\ Permutation (zseq offset (length l)) l) \/
  (exists x l1 l2, isPerm l offset = Ok (false, Some x) /\ ~ Permutation (zseq offset (length l)) l /\
     l = l1 ++ x :: l2 /\ NoDup l1 /\ Forall (fun x => offset <= x < offset + alen l) l1 /\
     (~ offset <= x < offset + alen l \/ In x l1)).
Proof.
  intros l offset H. unfold isPerm.
  destruct (isPermLoop_ok l [] offset (alen l) (repeat false (length l))) as [G | G].
  - unfold alen. rewrite repeat_length. reflexivity.
  - intros d Hd. split; [| intros []]. intros E.
    assert (nth (Z.to_nat d) (repeat false (length l)) false = false); [| congruence].
    destruct (Nat.lt_ge_cases (Z.to_nat d) (length (repeat false (length l)))).
    + apply (repeat_spec (length l)). apply nth_In. exact H0.
    + apply nth_overflow. exact H0.
  - constructor.
  - constructor.
  - exact H.
  - left. destruct G as (G1 & G2 & G3). split; [exact G1 |]. simpl in G2, G3.
    symmetry. apply NoDup_Permutation_bis; auto.
    + rewrite zseq_length. lia.
    + intros x Hx. apply in_zseq. rewrite Forall_forall in G3. specialize (G3 x Hx). unfold alen in G3. lia.
  - right. destruct G as (x & l1 & l2 & G1 & G2 & G3 & G4 & G5). exists x, l1, l2. simpl in *.
    split; [exact G1 |]. split; [| auto]. intros P.
    pose proof (Permutation_NoDup P (zseq_NoDup _ _)) as N.
    destruct G5 as [G5 | G5].
    + apply G5. assert (In x (zseq offset (length l))) as I.
      { eapply Permutation_in; [symmetry; exact P |]. rewrite G2. apply in_app_iff. right. left. reflexivity. }
      apply in_zseq in I. unfold alen. lia.
    + rewrite G2 in N. eapply NoDup_app_disj in N; [| exact G5]. apply N. left. reflexivity.
Qed.

(* ---- isPerm2 ---- *)
Lemma firstMismatch_spec : forall a b, length a = length b ->
  (firstMismatch a b = (true, None) /\ a = b) \/
  (exists x y p a' b', firstMismatch a b = (false, Some x) /\ a = p ++ x :: a' /\ b = p ++ y :: b' /\ x <> y).
Proof.
  induction a as [| x a IH]; destruct b as [| y b]; intros H; try discriminate; auto.
  cbn [firstMismatch]. destruct (x =? y) eqn:E; cbn [negb].
  - assert (x = y) by lia. subst y. destruct (IH b) as [[H1 H2] | (u & v & p & a' & b' & H1 & H2 & H3 & H4)].
    + simpl in H. lia.
    + left. subst. auto.
    + right. exists u, v, (x :: p), a', b'. subst. auto.
  - right. exists x, y, [], a, b. repeat split; auto. lia.
Qed.

Lemma countZ_perm : forall l l' x, Permutation l l' -> countZ l x = countZ l' x.
Proof. intros l l' x H. apply (Permutation_count_occ Z.eq_dec). exact H. Qed.
Lemma filter_perm : forall (f : Z -> bool) l l', Permutation l l' -> Permutation (filter f l) (filter f l').
Proof.
  intros f l l' H. induction H; cbn [filter]; auto.
  - destruct (f x); auto.
  - destruct (f x), (f y); auto. constructor.
  - etransitivity; eauto.
Qed.
Lemma below_perm : forall l l' x, Permutation l l' -> below l x = below l' x.
Proof. intros. apply Permutation_length. apply filter_perm. exact H. Qed.
Lemma countZ_app : forall l l' x, countZ (l ++ l') x = (countZ l x + countZ l' x)%nat.
Proof. intros. apply count_occ_app. Qed.
Lemma below_app : forall l l' x, below (l ++ l') x = (below l x + below l' x)%nat.
Proof. intros. unfold below. rewrite filter_app, app_length. reflexivity. Qed.
Lemma sorted_app_le : forall p x l, StronglySorted Z.le (p ++ x :: l) ->
  (forall y, In y p -> y <= x) /\ (forall y, In y l -> x <= y).
Proof.
  induction p as [| z p IH]; simpl; intros x l H.
  - inversion_clear H as [| ? ? S F]. rewrite Forall_forall in F. split; [intros ? [] | exact F].
  - inversion_clear H as [| ? ? S F]. rewrite Forall_forall in F. destruct (IH _ _ S) as [I1 I2].
    split; [| exact I2]. intros y [<- | Hy]; [apply F; apply in_app_iff; right; left; reflexivity | auto].
Qed.

Lemma isPerm2_ok : forall a b,
  (isPerm2 a b = (true, None) /\ Permutation a b) \/
  (isPerm2 a b = (false, None) /\ length a <> length b) \/
  (exists x, isPerm2 a b = (false, Some x) /\ length a = length b /\ ~ Permutation a b /\ In x a /\
     ((countZ b x < countZ a x)%nat \/ (below a x < below b x)%nat)).
Proof.
  intros a b. unfold isPerm2, alen.
  destruct (Z.of_nat (length a) =? Z.of_nat (length b)) eqn:E; cbn [negb].
  2:{ right. left. split; auto. lia. }
  assert (HL : length a = length b) by lia.
  pose proof (sort_perm a) as Pa. pose proof (sort_perm b) as Pb.
  destruct (firstMismatch_spec (sort a) (sort b)) as [[H1 H2] | (x & y & p & a' & b' & H1 & H2 & H3 & H4)].
  - rewrite <- (Permutation_length Pa), <- (Permutation_length Pb). exact HL.
  - left. split; auto. apply sort_eq_iff. exact H2.
  - right. right. exists x. split; [exact H1 |]. split; [exact HL |]. split; [| split].
    + intros P. apply sort_eq_iff in P. rewrite H2, H3 in P. apply app_inv_head in P. congruence.
    + eapply Permutation_in; [symmetry; exact Pa |]. rewrite H2. apply in_app_iff. right. left. reflexivity.
    + rewrite (countZ_perm a _ x Pa), (countZ_perm b _ x Pb), (below_perm a _ x Pa), (below_perm b _ x Pb).
      pose proof (sort_sorted a) as Sa. pose proof (sort_sorted b) as Sb. rewrite H2 in *. rewrite H3 in *.
      destruct (sorted_app_le _ _ _ Sa) as [A1 A2]. destruct (sorted_app_le _ _ _ Sb) as [B1 B2].
      rewrite !countZ_app, !below_app. destruct (Z.lt_trichotomy x y) as [L | [L | L]]; [| contradiction |].
      * left. assert (countZ (y :: b') x = O).
        { apply count_occ_not_In. intros [I | I]; [lia |]. apply B2 in I. lia. }
        rewrite H. unfold countZ. rewrite (count_occ_cons_eq _ a' (eq_refl x)). lia.
      * right. assert (below (x :: a') x = O).
        { unfold below. cbn [filter]. replace (x <? x) with false by lia.
          assert (forall l, (forall y, In y l -> x <= y) -> filter (fun y => y <? x) l = []) as G.
          { induction l as [| z l IHl]; intros Hl; [reflexivity |]. cbn [filter].
            assert (x <= z) by (apply Hl; left; reflexivity). replace (z <? x) with false by lia.
            apply IHl. intros; apply Hl; right; assumption. }
          rewrite G; auto. }
        rewrite H. assert (below (y :: b') x = S (below b' x)); [| lia].
        unfold below. cbn [filter]. replace (y <? x) with true by lia. reflexivity.
Qed.

(* ---- adjacent ---- *)
Lemma anyAdjacentFrom_spec : forall A (p : A -> A -> bool) l i0,
  (anyAdjacentFrom p l i0 = (false, None) /\ (forall i x y, neighbours l i x y -> p x y = false)) \/
  (exists i x y, anyAdjacentFrom p l i0 = (true, Some (i0 + i - 1)) /\ neighbours l i x y /\ p x y = true /\
     forall j u v, j < i -> neighbours l j u v -> p u v = false).
Proof.
  intros A p. induction l as [| a l IH]; intros i0.
  - left. split; [reflexivity |]. intros i x y (H1 & H2 & H3).
    destruct (Z.to_nat (i - 1)); discriminate.
  - destruct l as [| b l].
    + left. split; [reflexivity |]. intros i x y (H1 & H2 & H3).
      replace (Z.to_nat i) with (S (Z.to_nat (i - 1))) in H3 by lia. destruct (Z.to_nat (i - 1)); discriminate.
    + assert (Sh : forall i x y, neighbours (a :: b :: l) i x y ->
               i = 1 /\ x = a /\ y = b \/ neighbours (b :: l) (i - 1) x y).
      { intros i x y (H1 & H2 & H3). destruct (Z.eq_dec i 1) as [-> | N].
        - left. simpl in H2, H3. inversion H2. inversion H3. auto.
        - right. split; [lia |]. replace (Z.to_nat (i - 1)) with (S (Z.to_nat (i - 1 - 1))) in H2 by lia.
          replace (Z.to_nat i) with (S (Z.to_nat (i - 1))) in H3 by lia. split; assumption. }
      change (anyAdjacentFrom p (a :: b :: l) i0) with
        (if p a b then (true, Some i0) else anyAdjacentFrom p (b :: l) (i0 + 1)).
      destruct (p a b) eqn:E.
      * right. exists 1, a, b. split; [do 2 f_equal; lia |]. split; [split; [lia | split; reflexivity] |].
        split; [exact E |]. intros j u v Hj (H1 & _). lia.
      * destruct (IH (i0 + 1)) as [[G1 G2] | (i & x & y & G1 & G2 & G3 & G4)].
        -- left. split; [exact G1 |]. intros i x y Hn. apply Sh in Hn.
           destruct Hn as [(_ & -> & ->) | Hn]; [exact E | eauto].
        -- right. exists (i + 1), x, y. split; [rewrite G1; do 2 f_equal; lia |].
           destruct G2 as (K1 & K2 & K3). split; [| split; [exact G3 |]].
           ++ split; [lia |]. replace (Z.to_nat (i + 1 - 1)) with (S (Z.to_nat (i - 1))) by lia.
              replace (Z.to_nat (i + 1)) with (S (Z.to_nat i)) by lia. split; assumption.
           ++ intros j u v Hj Hn. apply Sh in Hn. destruct Hn as [(_ & -> & ->) | Hn]; [exact E |].
              eapply (G4 (j - 1)); [lia | exact Hn].
Qed.

Lemma anyAdjacent_ok : forall A (p : A -> A -> bool) l,
  (anyAdjacent p l = (false, None) /\ (forall i x y, neighbours l i x y -> p x y = false)) \/
  (exists i x y, anyAdjacent p l = (true, Some i) /\ neighbours l i x y /\ p x y = true /\
     forall j u v, j < i -> neighbours l j u v -> p u v = false).
Proof.
  intros. destruct (anyAdjacentFrom_spec A p l 1) as [G | (i & x & y & G1 & G)]; [left; exact G |].
  right. exists i, x, y. split; [| exact G]. unfold anyAdjacent. rewrite G1. do 2 f_equal. lia.
Qed.

Lemma noneAdjacent_ok : forall A (p : A -> A -> bool) l,
  (noneAdjacent p l = (true, None) /\ (forall i x y, neighbours l i x y -> p x y = false)) \/
  (exists i x y, noneAdjacent p l = (false, Some i) /\ neighbours l i x y /\ p x y = true /\
     forall j u v, j < i -> neighbours l j u v -> p u v = false).
Proof.
  intros A p l. unfold noneAdjacent.
  destruct (anyAdjacent_ok A p l) as [[G1 G2] | (i & x & y & G1 & G)]; rewrite G1; cbn [negb].
  - left. auto.
  - right. exists i, x, y. auto.
Qed.

Lemma allAdjacent_ok : forall A (p : A -> A -> bool) l,
  (allAdjacent p l = (true, None) /\ (forall i x y, neighbours l i x y -> p x y = true)) \/
  (exists i x y, allAdjacent p l = (false, Some i) /\ neighbours l i x y /\ p x y = false /\
     forall j u v, j < i -> neighbours l j u v -> p u v = true).
Proof.
  intros A p l. unfold allAdjacent.
  destruct (noneAdjacent_ok A (fun x y => negb (p x y)) l) as [[G1 G2] | (i & x & y & G1 & G2 & G3 & G4)].
  - left. split; [exact G1 |]. intros i x y H. apply negb_false_iff. eauto.
  - right. exists i, x, y. split; [exact G1 |]. split; [exact G2 |]. split; [apply negb_true_iff; exact G3 |].
    intros j u v Hj H. apply negb_false_iff. eauto.
Qed.

(* transitive relations: all neighbours related iff the whole sequence is ordered *)
Lemma neighbours_sorted : forall (R : Z -> Z -> Prop), (forall x y z, R x y -> R y z -> R x z) ->
  forall l, (forall i x y, neighbours l i x y -> R x y) <-> StronglySorted R l.
Proof.
  intros R HT l. split.
  - intros H. apply Sorted_StronglySorted; [exact HT |]. induction l as [| a l IH]; constructor.
    + apply IH. intros i x y (H1 & H2 & H3). apply (H (i + 1)). split; [lia |].
      replace (Z.to_nat (i + 1 - 1)) with (S (Z.to_nat (i - 1))) by lia.
      replace (Z.to_nat (i + 1)) with (S (Z.to_nat i)) by lia. split; assumption.
    + destruct l; constructor. apply (H 1). split; [lia | split; reflexivity].
  - intros H. induction H as [| a l H IH F]; intros i x y (H1 & H2 & H3).
    + destruct (Z.to_nat (i - 1)); discriminate.
    + replace (Z.to_nat i) with (S (Z.to_nat (i - 1))) in H3 by lia. cbn [nth_error] in H3.
      destruct (Z.to_nat (i - 1)) as [| k] eqn:E.
      * simpl in H2. inversion H2. subst. rewrite Forall_forall in F. apply F.
        apply nth_error_In in H3. exact H3.
      * cbn [nth_error] in H2. apply (IH (i - 1)). split; [lia |]. split.
        -- replace (Z.to_nat (i - 1 - 1)) with k by lia. exact H2.
        -- rewrite E. exact H3.
Qed.

Lemma allAdjacent_sorted : forall (p : Z -> Z -> bool) (R : Z -> Z -> Prop),
  (forall x y, p x y = true <-> R x y) -> (forall x y z, R x y -> R y z -> R x z) ->
  forall l, fst (allAdjacent p l) = true <-> StronglySorted R l.
Proof.
  intros p R HR HT l. rewrite <- neighbours_sorted by exact HT.
  destruct (allAdjacent_ok Z p l) as [[G1 G2] | (i & x & y & G1 & G2 & G3 & _)]; rewrite G1; cbn [fst].
  - split; auto. intros _ i x y H. apply HR. eauto.
  - split; [discriminate |]. intros H. apply H in G2. apply HR in G2. congruence.
Qed.

Lemma are_ordered : forall l,
  (fst (areIncreasing l) = true <-> StronglySorted Z.lt l) /\
  (fst (areNonDecreasing l) = true <-> StronglySorted Z.le l) /\
  (fst (areDecreasing l) = true <-> StronglySorted Z.gt l) /\
  (fst (areNonIncreasing l) = true <-> StronglySorted Z.ge l).
Proof.
  intros l. repeat split; apply allAdjacent_sorted; intros; lia.
Qed.

(* ---- areDistinct ---- *)
Lemma areDistinct_ok : forall l,
  (areDistinct l = Ok (true, None) /\ NoDup l) \/
  (exists x, areDistinct l = Ok (false, Some x) /\ (2 <= countZ l x)%nat).
Proof.
  intros l. unfold areDistinct. pose proof (sort_perm l) as P. pose proof (sort_sorted l) as HS.
  destruct (anyAdjacent_ok Z Z.eqb (sort l)) as [[G1 G2] | (i & x & y & G1 & G2 & G3 & _)]; rewrite G1.
  - left. split; [reflexivity |]. apply (Permutation_NoDup (Permutation_sym P)).
    assert (SL : StronglySorted Z.lt (sort l)).
    { apply neighbours_sorted; [intros; lia |]. intros i x y H. specialize (G2 i x y H).
      pose proof (proj2 (neighbours_sorted Z.le Z.le_trans (sort l)) HS i x y H). lia. }
    apply lt_sorted in SL. tauto.
  - right. destruct G2 as (K1 & K2 & K3). assert (x = y) by lia. subst y.
    exists x. split.
    + unfold aget. replace (i <? 0) with false by lia. rewrite K3. reflexivity.
    + rewrite (countZ_perm _ _ x P). replace (Z.to_nat i) with (S (Z.to_nat (i - 1))) in K3 by lia.
      clear - K2 K3. revert K2 K3. generalize (Z.to_nat (i - 1)) as k. induction (sort l) as [| a s IH]; intros k K2 K3.
      * destruct k; discriminate.
      * destruct k as [| k].
        -- simpl in K2. inversion K2. subst. unfold countZ. rewrite count_occ_cons_eq by reflexivity.
           change (nth_error s 0 = Some x) in K3. apply nth_error_In in K3. apply (count_occ_In Z.eq_dec) in K3. lia.
        -- cbn [nth_error] in K2, K3. specialize (IH k K2 K3). unfold countZ in *. cbn [count_occ].
           destruct (Z.eq_dec a x); lia.
Qed.

(* ---- range ---- *)
Lemma rangeLoop_ok : forall n cur step, is_i64 cur -> is_i64 (cur + Z.of_nat n * step) ->
  rangeLoop n cur step = Ok (map (fun i => cur + Z.of_nat i * step) (seq 1 n)).
Proof.
  induction n; intros cur step H1 H2; [reflexivity |].
  cbn [rangeLoop]. assert (is_i64 (cur + step)).
  { mach. destruct (Z.le_gt_cases 0 step); nia. }
  rewrite chk_Ok by auto. cbn [bind]. rewrite IHn; auto.
  - cbn [bind seq map]. f_equal. f_equal; [lia |]. rewrite <- (seq_shift n 1), map_map.
    apply map_ext. intros i. lia.
  - replace (cur + step + Z.of_nat n * step) with (cur + Z.of_nat (S n) * step) by lia. exact H2.
Qed.

Lemma range_ok : forall from to step, is_i64 from -> is_i64 to -> is_i64 step -> step <> 0 -> step <> I64_MIN ->
  exists n, range from to step = Ok (map (fun i => from + Z.of_nat i * step) (seq 0 n)) /\
    forall i : nat, (i < n)%nat <->
      (0 < step /\ from + Z.of_nat i * step < to \/ step < 0 /\ to < from + Z.of_nat i * step).
Proof.
  intros from to step Hf Ht Hs H0 Hm. unfold range, judgeAssert.
  replace (negb (step =? 0)) with true by lia. cbn [bind].
  destruct ((0 <? step) && (to <=? from)) eqn:E1.
  { exists O. split; [reflexivity |]. intros i. split; [lia |]. intros [[A B] | [A B]]; nia. }
  destruct ((step <? 0) && (from <=? to)) eqn:E2.
  { exists O. split; [reflexivity |]. intros i. split; [lia |]. intros [[A B] | [A B]]; nia. }
  set (d := Z.abs (to - from)).
  assert (Hd : 0 < d < two64) by (unfold d; mach; lia).
  assert (En : (if step <? 0 then u64 (0 - u64 (u64 to - u64 from)) else u64 (u64 to - u64 from)) = d).
  { assert (C : u64 (u64 to - u64 from) = (to - from) mod two64).
    { unfold u64. rewrite <- Zminus_mod. reflexivity. }
    rewrite C. destruct (step <? 0) eqn:E.
    - unfold u64. rewrite Zminus_mod_idemp_r. replace (0 - (to - from)) with d by (unfold d; lia).
      apply Z.mod_small. lia.
    - replace (to - from) with d by (unfold d; lia). apply Z.mod_small. lia. }
  rewrite En. rewrite chk_Ok by (mach; lia). cbn [bind].
  rewrite (u64_id (d - 1)) by (mach; lia).
  set (a := Z.abs step). assert (Ha : 0 < a) by (unfold a; lia).
  set (q := (d - 1) / a).
  assert (Hq : 0 <= q /\ q * a <= d - 1 < (q + 1) * a).
  { unfold q. pose proof (Z.div_mod (d - 1) a ltac:(lia)). pose proof (Z.mod_pos_bound (d - 1) a Ha).
    split; [apply Z.div_pos; lia |]. clear - H H1. nia. }
  clearbody q.
  rewrite (u64_id (1 + q)) by (mach; nia).
  replace (1 + q - 1) with q by lia. replace (1 + q =? 0) with false by lia.
  assert (Hlast : is_i64 (from + Z.of_nat (Z.to_nat q) * step)).
  { rewrite Z2Nat.id by lia. destruct (Z.le_gt_cases 0 step).
    - assert (q * step <= to - from - 1) by (unfold a, d in *; nia). assert (0 <= q * step) by nia. mach. lia.
    - assert (to - from + 1 <= q * step) by (unfold a, d in *; nia). assert (q * step <= 0) by nia. mach. lia. }
  rewrite rangeLoop_ok by auto. cbn [bind].
  exists (S (Z.to_nat q)). split.
  - f_equal. cbn [seq map]. f_equal. lia.
  - intros i. assert (Hi : (i < S (Z.to_nat q))%nat <-> Z.of_nat i <= q) by lia. rewrite Hi. clear Hi.
    assert (G : Z.of_nat i <= q <-> Z.of_nat i * a < d).
    { split; intros H; [nia |]. apply Z.lt_succ_r. unfold Z.succ. clear - H Hq Ha. nia. }
    rewrite G. unfold a, d. clear - H0 E1 E2. destruct (Z.le_gt_cases 0 step).
    + rewrite (Z.abs_eq step) by lia. rewrite Z.abs_eq by lia. lia.
    + rewrite (Z.abs_neq step) by lia. rewrite Z.abs_neq by lia. lia.
Qed.

(* ---- strings ---- *)
Lemma stringEqualFrom_ok : forall a b cs i0,
  let f := if cs : bool then (fun c => c) else toLower in
  (stringEqualFrom a b cs i0 = (true, None) /\ map f a = map f b) \/
  (exists k, stringEqualFrom a b cs i0 = (false, Some (i0 + Z.of_nat k)) /\
     firstn k (map f a) = firstn k (map f b) /\
     nth_error (map f a) k <> nth_error (map f b) k).
Proof.
  induction a as [| x a IH]; intros b cs i0 f.
  - destruct b as [| y b]; [left; auto |]. right. exists O. split; [cbn [stringEqualFrom]; do 2 f_equal; lia |].
    split; [reflexivity | discriminate].
  - destruct b as [| y b].
    + right. exists O. split; [cbn [stringEqualFrom]; do 2 f_equal; lia |]. split; [reflexivity | discriminate].
    + cbn [stringEqualFrom].
      replace (if cs then x else toDefaultCase x) with (f x) by (unfold f; destruct cs; reflexivity).
      replace (if cs then y else toDefaultCase y) with (f y) by (unfold f; destruct cs; reflexivity).
      destruct (f x =? f y) eqn:E; cbn [negb].
      * assert (Ef : f x = f y) by lia.
        destruct (IH b cs (i0 + 1)) as [[G1 G2] | (k & G1 & G2 & G3)]; fold f in G2.
        -- left. split; [exact G1 |]. cbn [map]. rewrite Ef. f_equal. exact G2.
        -- right. exists (S k). split; [rewrite G1; do 2 f_equal; lia |]. cbn [map firstn nth_error].
           rewrite Ef. split; [f_equal; exact G2 | exact G3].
      * right. exists O. split; [do 2 f_equal; lia |]. split; [reflexivity |]. cbn [map nth_error].
        intros C. inversion C. lia.
Qed.

Lemma allChars_ok : forall p s,
  (allChars p s = (true, None) /\ Forall (fun c => p c = true) s) \/
  (exists a c b, allChars p s = (false, Some c) /\ s = a ++ c :: b /\ Forall (fun c => p c = true) a /\ p c = false).
Proof.
  intros p. induction s as [| c s IH]; [left; auto |]. cbn [allChars]. destruct (p c) eqn:E; cbn [negb].
  - destruct IH as [[G1 G2] | (a & d & b & G1 & G2 & G3 & G4)].
    + left. split; auto.
    + right. exists (c :: a), d, b. subst s. auto.
  - right. exists [], c, s. auto.
Qed.

(* ---- Thue-Morse ---- *)
Lemma tm_double : forall n, 0 <= n -> tm (2 * n) = tm n /\ tm (2 * n + 1) = 1 - tm n.
Proof. intros [| p | p] H; try lia; split; reflexivity. Qed.
Lemma tm_01 : forall n, tm n = 0 \/ tm n = 1.
Proof. intros [| p | p]; auto. unfold tm. induction p; cbn [tmPos]; lia. Qed.

Lemma popcount_tm : forall k x, 0 <= x < 2 ^ Z.of_nat k -> popcount k x mod 2 = tm x.
Proof.
  induction k; intros x H.
  - simpl in H. assert (x = 0) by lia. subst. reflexivity.
  - cbn [popcount]. rewrite Nat2Z.inj_succ, Z.pow_succ_r in H by lia.
    assert (H2 : 0 <= x / 2 < 2 ^ Z.of_nat k) by (split; [apply Z.div_pos; lia | apply Z.div_lt_upper_bound; lia]).
    specialize (IHk (x / 2) H2). pose proof (tm_01 (x / 2)) as T.
    destruct (tm_double (x / 2)) as [D1 D2]; [lia |].
    rewrite <- Zplus_mod_idemp_r, IHk. destruct (Z.odd x) eqn:E.
    + assert (X : x = 2 * (x / 2) + 1) by (rewrite (Z.div2_odd x) at 1; rewrite E, Z.div2_div; simpl; lia).
      rewrite X at 2. rewrite D2. destruct T as [-> | ->]; reflexivity.
    + assert (X : x = 2 * (x / 2)) by (rewrite (Z.div2_odd x) at 1; rewrite E, Z.div2_div; simpl; lia).
      rewrite X at 2. rewrite D1. destruct T as [-> | ->]; reflexivity.
Qed.

Lemma thueMorse_ok : forall lower upper, is_i64 lower -> is_i64 upper -> 0 <= lower < upper ->
  thueMorse lower upper = Ok (map tm (zseq lower (Z.to_nat (upper - lower)))).
Proof.
  intros lower upper Hl Hu H. unfold thueMorse, judgeAssert.
  replace (lower <? upper) with true by lia. replace (0 <=? lower) with true by lia. cbn [bind].
  rewrite chk_Ok by (mach; lia). cbn [bind]. f_equal.
  assert (G : forall n k, lower + Z.of_nat k + Z.of_nat n <= I64_MAX + 1 ->
    map (fun i => popcount 64 (u64 (Z.of_nat i + u64 lower)) mod 2) (seq k n) = map tm (zseq (lower + Z.of_nat k) n)).
  { induction n; intros k Hk; [reflexivity |]. cbn [seq zseq map]. f_equal.
    - rewrite (u64_id lower) by (mach; lia). rewrite (u64_id (Z.of_nat k + lower)) by (mach; lia).
      rewrite popcount_tm by (change (2 ^ Z.of_nat 64) with two64; mach; lia). f_equal. lia.
    - rewrite IHn by lia. do 2 f_equal. lia. }
  rewrite (G _ O) by (mach; lia). do 2 f_equal. lia.
Qed.

Lemma toLower_same : forall x y, toLower x = toLower y <-> sameLetter x y.
Proof.
  intros x y. split.
  - unfold toLower, isUpper. intros H.
    destruct ((65 <=? x) && (x <=? 90)) eqn:E1, ((65 <=? y) && (y <=? 90)) eqn:E2.
    + replace y with x by lia. constructor.
    + replace y with (x + 32) by lia. apply upLow. red. lia.
    + replace x with (y + 32) by lia. apply lowUp. red. lia.
    + subst. constructor.
  - intros H. inversion H as [| ? U | ? U]; subst; try reflexivity; unfold toLower, isUpper, upperCase in *.
    + replace ((65 <=? x) && (x <=? 90)) with true by lia. replace ((65 <=? x + 32) && (x + 32 <=? 90)) with false by lia. lia.
    + replace ((65 <=? y) && (y <=? 90)) with true by lia. replace ((65 <=? y + 32) && (y + 32 <=? 90)) with false by lia. lia.
Qed.

Lemma map_f2 : forall (f : Z -> Z) (R : Z -> Z -> Prop), (forall x y, f x = f y <-> R x y) ->
  forall a b, map f a = map f b <-> Forall2 R a b.
Proof.
  intros f R HR. induction a as [| x a IH]; destruct b as [| y b]; cbn [map]; split; intros H;
    try discriminate; try (inversion H; fail); auto.
  - inversion H. constructor; [apply HR; auto | apply IH; auto].
  - inversion_clear H. f_equal; [apply HR; auto | apply IH; auto].
Qed.

Lemma F2_length : forall A B (R : A -> B -> Prop) a b, Forall2 R a b -> length a = length b.
Proof. intros A B R a b H. induction H; simpl; auto. Qed.

Lemma stringEqual_ok : forall a b cs,
  (stringEqual a b cs = (true, None) /\ Forall2 (eqChar cs) a b) \/
  (exists k, stringEqual a b cs = (false, Some (Z.of_nat k)) /\
     (k <= length a)%nat /\ (k <= length b)%nat /\
     Forall2 (eqChar cs) (firstn k a) (firstn k b) /\ ~ Forall2 (eqChar cs) a b /\
     (forall x y, nth_error a k = Some x -> nth_error b k = Some y -> ~ eqChar cs x y)).
Proof.
  intros a b cs. unfold stringEqual.
  assert (HR : forall x y, (if cs then (fun c => c) else toLower) x = (if cs then (fun c => c) else toLower) y <-> eqChar cs x y).
  { intros x y. destruct cs; simpl; [tauto | apply toLower_same]. }
  destruct (stringEqualFrom_ok a b cs 0) as [[G1 G2] | (k & G1 & G2 & G3)]; cbn zeta in *;
    set (f := if cs then (fun c : Z => c) else toLower) in *.
  - left. split; [exact G1 |]. apply (map_f2 f (eqChar cs) HR); auto.
  - right. exists k. split; [exact G1 |].
    rewrite !firstn_map in G2. apply (map_f2 f (eqChar cs) HR) in G2.
    rewrite !nth_error_map in G3. pose proof (F2_length _ _ _ _ _ G2) as L. rewrite !firstn_length in L.
    assert (k <= length a /\ k <= length b)%nat as [La Lb].
    { destruct (Nat.le_gt_cases k (length a)), (Nat.le_gt_cases k (length b)); try lia.
      exfalso. apply G3. destruct (nth_error_None a k) as [_ Na]. destruct (nth_error_None b k) as [_ Nb].
      rewrite Na, Nb by lia. reflexivity. }
    repeat split; auto.
    + intros F. apply (map_f2 f (eqChar cs) HR) in F. apply G3. rewrite <- !nth_error_map, F. reflexivity.
    + intros x y Ex Ey E. apply G3. rewrite Ex, Ey. simpl. f_equal. apply HR. exact E.
Qed.

Lemma isPerm_overflow : exists l offset, Forall is_i64 l /\ is_i64 offset /\ isPerm l offset = UB.
Proof. exists [I64_MAX], (-1). repeat split; try constructor; mach; try lia; repeat constructor; mach; lia. Qed.
Lemma isPerm2_reason : exists a b x, isPerm2 a b = (false, Some x) /\ countZ a x = countZ b x.
Proof. exists [3; 4], [2; 3], 3. vm_compute. split; reflexivity. Qed.
Lemma allAdjacent_container : exists (p : Z -> Z -> bool) l,
  allAdjacentContainer p l = (true, None) /\ exists i x y, neighbours l i x y /\ p x y = false.
Proof.
  exists Z.ltb, [2; 1]. split; [reflexivity |]. exists 1, 2, 1.
  split; [split; [lia | split; reflexivity] | reflexivity].
Qed.
Lemma range_min_step : exists from to step, is_i64 from /\ is_i64 to /\ is_i64 step /\ to < from /\ step < 0 /\
  range from to step = UB.
Proof. exists 1, 0, I64_MIN. repeat split; try (mach; lia). Qed.
Lemma range_zero : forall from to, range from to 0 = Throw.
Proof. reflexivity. Qed.
Lemma thueMorse_throws : forall lower upper, (upper <= lower \/ lower < 0) -> thueMorse lower upper = Throw.
Proof.
  intros lower upper H. unfold thueMorse, judgeAssert.
  destruct (lower <? upper) eqn:E; [| reflexivity]. replace (0 <=? lower) with false by lia. reflexivity.
Qed.
