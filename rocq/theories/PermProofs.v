From Verif Require Import Tac RndModel RandSeqModel RndLemmas SortLemmas DistinctProofs ShuffleProofs.
From Coq Require Import QArith Qfield Permutation.
Open Scope Z_scope.

Lemma perm_unfold : forall count offset, 0 <= count -> is_i64 (offset + count) ->
  perm count offset = shuffle (zseq offset (Z.to_nat count)).
Proof.
  intros count offset H H1. unfold perm, judgeAssert. replace (0 <=? count) with true by lia.
  cbn [lift rbind]. rewrite chk_Ok by auto. cbn [lift rbind]. unfold rangeUp. do 2 f_equal. lia.
Qed.

Lemma perm_always : forall count offset, 0 <= count -> is_i64 (offset + count) ->
  always (perm count offset) (returns (Permutation (zseq offset (Z.to_nat count)))).
Proof. intros. rewrite perm_unfold by auto. apply shuffle_always. Qed.

Lemma perm_uniform : forall count offset p, 0 <= count -> is_i64 (offset + count) ->
  Permutation (zseq offset (Z.to_nat count)) p ->
  (Pr (perm count offset) (resultIs (list_eq_dec Z.eq_dec) p) == 1 / inject_Z (zfact (Z.to_nat count)))%Q.
Proof.
  intros count offset p H H1 HP. rewrite perm_unfold by auto.
  rewrite shuffle_uniform; auto using zseq_NoDup. rewrite zseq_length. reflexivity.
Qed.

(* ---- cycles ---- *)
Section Cycles.
  Variables (p : list Z) (offset : Z).
  Let n := alen p.
  Hypothesis Hnd : NoDup p.
  Hypothesis Hrng : forall x, In x p -> 0 <= x < n.
  Hypothesis Ho : is_i64 offset.
  Hypothesis Hon : is_i64 (offset + n).

  Lemma getz_in : forall i, 0 <= i < n -> In (getz p i) p.
  Proof. intros i H. apply nth_In. unfold n, alen in H. lia. Qed.
  Lemma getz_inj : forall i j, 0 <= i < n -> 0 <= j < n -> getz p i = getz p j -> i = j.
  Proof.
    intros i j Hi Hj E. unfold n, alen in *.
    assert (Z.to_nat i = Z.to_nat j) by (eapply (NoDup_nth p 0); eauto; lia). lia.
  Qed.

  Lemma step_ok : forall res i j, alen res = n -> 0 <= i < n -> 0 <= j < n ->
    exists res', (let! a := aget p i in let! b := aget p j in let! v := chk (b + offset) in aset res a v) = Ok res' /\
      alen res' = n /\ getz res' (getz p i) = getz p j + offset /\
      (forall y, 0 <= y -> y <> getz p i -> getz res' y = getz res y).
  Proof.
    intros res i j HL Hi Hj. rewrite !(aget_Ok _ p _ 0) by (unfold n in *; lia). cbn [bind].
    fold (getz p i) (getz p j).
    pose proof (Hrng _ (getz_in i Hi)). pose proof (Hrng _ (getz_in j Hj)).
    rewrite chk_Ok by (mach; lia). cbn [bind]. rewrite aset_Ok by lia.
    eexists. split; [reflexivity |]. unfold alen, getz in *. rewrite upd_length. split; [exact HL |]. split.
    - apply nth_upd_same. lia.
    - intros y Hy N. apply nth_upd_other. lia.
  Qed.

  Lemma cycleInner_ok : forall k res j, alen res = n -> 0 <= j -> j + Z.of_nat k < n ->
    exists res', cycleInner k p res j offset = Ok res' /\ alen res' = n /\
      (forall i, j <= i < j + Z.of_nat k -> getz res' (getz p i) = getz p (i + 1) + offset) /\
      (forall y, 0 <= y -> (forall i, j <= i < j + Z.of_nat k -> getz p i <> y) -> getz res' y = getz res y).
  Proof.
    induction k; intros res j HL Hj Hk.
    - exists res. split; [reflexivity |]. split; [exact HL |]. split; [intros; lia | auto].
    - destruct (step_ok res j (j + 1)) as (r1 & E1 & L1 & S1 & O1); auto; try lia.
      destruct (IHk r1 (j + 1)) as (r2 & E2 & L2 & S2 & O2); auto; try lia.
      exists r2. split; [| split; [exact L2 |]].
      + cbn [cycleInner].
        destruct (aget p j) as [a | | |]; cbn [bind] in *; try discriminate.
        destruct (aget p (j + 1)) as [b | | |]; cbn [bind] in *; try discriminate.
        destruct (chk (b + offset)) as [v | | |]; cbn [bind] in *; try discriminate.
        rewrite E1. cbn [bind]. exact E2.
      + split.
        * intros i Hi. destruct (Z.eq_dec i j) as [-> | N].
          -- rewrite O2; auto. { apply Hrng, getz_in. lia. }
             intros i' Hi' E. apply getz_inj in E; lia.
          -- apply S2. lia.
        * intros y Hy N. rewrite O2 by (auto; intros; apply N; lia). apply O1; auto.
          intros ->. apply (N j); [lia | reflexivity].
  Qed.

  Fixpoint blocksOK (cycles : list Z) (tmp : Z) (res : list Z) : Prop :=
    match cycles with
    | [] => tmp = n
    | c :: cs =>
      (forall i, tmp <= i < tmp + c - 1 -> getz res (getz p i) = getz p (i + 1) + offset) /\
      getz res (getz p (tmp + c - 1)) = getz p tmp + offset /\
      blocksOK cs (tmp + c) res
    end.

  Lemma cycleLoop_ok : forall cycles res tmp, alen res = n -> 0 <= tmp ->
    Forall (fun c => 0 < c) cycles -> tmp + fold_right Z.add 0 cycles = n ->
    exists res', cycleLoop cycles p res tmp offset = Ok res' /\ alen res' = n /\
      blocksOK cycles tmp res' /\
      (forall i, 0 <= i < tmp -> getz res' (getz p i) = getz res (getz p i)).
  Proof.
    induction cycles as [| c cs IH]; intros res tmp HL Ht HF HS; cbn [fold_right] in HS.
    - exists res. cbn [cycleLoop blocksOK]. repeat split; auto; lia.
    - inversion_clear HF as [| ? ? Hc HF'].
      assert (Hsum : 0 <= fold_right Z.add 0 cs).
      { clear - HF'. induction HF'; cbn [fold_right]; lia. }
      destruct (cycleInner_ok (Z.to_nat (c - 1)) res tmp) as (r1 & E1 & L1 & S1 & O1); auto; try lia.
      destruct (step_ok r1 (tmp + c - 1) tmp) as (r2 & E2 & L2 & S2 & O2); auto; try lia.
      destruct (IH r2 (tmp + c)) as (r3 & E3 & L3 & S3 & O3); auto; try lia.
      exists r3. split; [| split; [exact L3 |]]; [| split].
      + cbn [cycleLoop]. unfold judgeAssert. replace (0 <? c) with true by lia. cbn [bind].
        rewrite E1. cbn [bind].
        destruct (aget p (tmp + c - 1)) as [a | | |]; cbn [bind] in *; try discriminate.
        destruct (aget p tmp) as [b | | |]; cbn [bind] in *; try discriminate.
        destruct (chk (b + offset)) as [v | | |]; cbn [bind] in *; try discriminate.
        rewrite E2. cbn [bind]. exact E3.
      + cbn [blocksOK]. split; [| split].
        * intros i Hi. rewrite O3 by lia. rewrite O2.
          -- apply S1. lia.
          -- apply Hrng, getz_in. lia.
          -- intros E. apply getz_inj in E; lia.
        * rewrite O3 by lia. exact S2.
        * exact S3.
      + intros i Hi. rewrite O3 by lia. rewrite O2.
        * apply O1; [apply Hrng, getz_in; lia |]. intros i' Hi' E. apply getz_inj in E; lia.
        * apply Hrng, getz_in. lia.
        * intros E. apply getz_inj in E; lia.
  Qed.

  Lemma blocks_lists : forall cycles tmp res, 0 <= tmp -> Forall (fun c => 0 < c) cycles ->
    blocksOK cycles tmp res ->
    exists cs, map (fun c => Z.of_nat (length c)) cs = cycles /\
      concat cs = skipn (Z.to_nat tmp) p /\ Forall (isCycle res offset) cs.
  Proof.
    induction cycles as [| c cycles IH]; intros tmp res Ht HF HB; cbn [blocksOK] in HB.
    - exists []. simpl. rewrite skipn_all2; [repeat split; constructor | unfold n, alen in HB; lia].
    - inversion_clear HF as [| ? ? Hc HF']. destruct HB as (B1 & B2 & B3).
      destruct (IH (tmp + c) res) as (cs & M & C & F); auto; [lia |].
      assert (Hle : tmp + c <= n).
      { clear - B3 HF'. revert tmp B3. assert (G : forall cs t, Forall (fun c => 0 < c) cs -> blocksOK cs t res -> t <= n).
        { induction cs as [| x cs IH]; cbn [blocksOK]; intros t F H; [lia |].
          inversion_clear F. destruct H as (_ & _ & H). apply IH in H; auto. lia. }
        intros. eapply G; eauto. }
      set (b := firstn (Z.to_nat c) (skipn (Z.to_nat tmp) p)).
      assert (Lb : length b = Z.to_nat c).
      { unfold b. rewrite firstn_length, skipn_length. unfold n, alen in Hle. lia. }
      assert (Nb : forall j, (j < Z.to_nat c)%nat -> nth j b 0 = getz p (tmp + Z.of_nat j)).
      { intros j Hj. unfold b, getz. replace (Z.to_nat (tmp + Z.of_nat j)) with (Z.to_nat tmp + j)%nat by lia.
        clear - Hj. revert Hj. generalize (Z.to_nat c), (Z.to_nat tmp). intros k t. revert p.
        induction t; intros q Hj.
        - simpl skipn. rewrite Nat.add_0_l. revert q j Hj. induction k; intros q j Hj; [lia |].
          destruct q; [rewrite firstn_nil; destruct j; reflexivity |]. destruct j; [reflexivity |].
          simpl. apply IHk. lia.
        - destruct q; [simpl; rewrite firstn_nil; destruct j; reflexivity |]. apply IHt. exact Hj. }
      exists (b :: cs). split; [| split].
      + cbn [map]. rewrite M, Lb. f_equal. lia.
      + cbn [concat]. rewrite C. unfold b.
        replace (Z.to_nat (tmp + c)) with (Z.to_nat c + Z.to_nat tmp)%nat by lia.
        rewrite <- (firstn_skipn (Z.to_nat c) (skipn (Z.to_nat tmp) p)) at 2. f_equal.
        clear. generalize (Z.to_nat tmp), (Z.to_nat c). intros t k. revert p. induction t; intros q.
        * rewrite Nat.add_0_r. reflexivity.
        * destruct q; [rewrite !skipn_nil; reflexivity |]. rewrite Nat.add_succ_r. simpl. apply IHt.
      + constructor; [| exact F]. intros j Hj. rewrite Lb in *.
        rewrite Nb by lia. destruct (S j =? Z.to_nat c)%nat eqn:E.
        * apply Nat.eqb_eq in E. rewrite Nb by lia.
          replace (tmp + Z.of_nat j) with (tmp + c - 1) by lia.
          replace (tmp + Z.of_nat 0) with tmp by lia. exact B2.
        * apply Nat.eqb_neq in E. rewrite Nb by lia.
          replace (tmp + Z.of_nat (S j)) with (tmp + Z.of_nat j + 1) by lia. apply B1. lia.
  Qed.
End Cycles.

Lemma accumulate_ok : forall l s, Forall (fun c => 0 < c) l -> is_i64 s -> 
  is_i64 (s + fold_right Z.add 0 l) -> accumulate l s = Ok (s + fold_right Z.add 0 l).
Proof.
  induction l as [| c l IH]; intros s F H H1; cbn [accumulate fold_right] in *; [f_equal; lia |].
  inversion_clear F as [| ? ? Hc F'].
  assert (0 <= fold_right Z.add 0 l) by (clear - F'; induction F'; cbn [fold_right]; lia).
  rewrite chk_Ok by (mach; lia). cbn [bind]. rewrite IH; auto.
  - f_equal. lia.
  - mach; lia.
  - replace (s + c + fold_right Z.add 0 l) with (s + (c + fold_right Z.add 0 l)) by lia. exact H1.
Qed.

Lemma rot_perm : forall (c : list Z), 
  Permutation (map (fun j => nth (if (S j =? length c)%nat then 0%nat else S j) c 0) (seq 0 (length c))) c.
Proof.
  intros [| x c]; [constructor |]. cbn [length]. rewrite seq_S, map_app.
  assert (E : map (fun j => nth (if (S j =? S (length c))%nat then 0%nat else S j) (x :: c) 0) (seq 0 (length c)) = c).
  { apply (nth_ext _ _ 0 0); [rewrite map_length, seq_length; reflexivity |].
    rewrite map_length, seq_length. intros j Hj.
    rewrite (nth_indep _ _ ((fun j => nth (if (S j =? S (length c))%nat then 0%nat else S j) (x :: c) 0) 0%nat))
      by (rewrite map_length, seq_length; exact Hj).
    rewrite (map_nth (fun j => nth (if (S j =? S (length c))%nat then 0%nat else S j) (x :: c) 0)).
    rewrite seq_nth by exact Hj. replace (S (0 + j) =? S (length c))%nat with false.
    - reflexivity.
    - symmetry. apply Nat.eqb_neq. lia. }
  rewrite E. cbn [map Nat.add]. rewrite Nat.eqb_refl. cbn [nth].
  symmetry. apply Permutation_cons_append.
Qed.

Lemma map_nth_seq : forall (c : list Z), map (fun j => nth j c 0) (seq 0 (length c)) = c.
Proof.
  induction c as [| x c IH]; [reflexivity |]. cbn [length seq map nth]. f_equal.
  rewrite <- seq_shift, map_map. exact IH.
Qed.

Lemma getz_list : forall l, l = map (getz l) (zseq 0 (length l)).
Proof.
  intros l. rewrite <- (map_nth_seq l) at 1.
  assert (G : forall n k, map (fun j => nth j l 0) (seq k n) = map (getz l) (zseq (Z.of_nat k) n)).
  { induction n; intros k; [reflexivity |]. cbn [seq zseq map]. unfold getz at 1. rewrite Nat2Z.id.
    f_equal. rewrite IHn. do 2 f_equal. lia. }
  apply (G _ 0%nat).
Qed.

(* a sequence with such a decomposition is a permutation of offset .. offset+n-1 *)
Lemma hasCycles_perm : forall sigma offset lens, hasCycles sigma offset lens ->
  Permutation (zseq offset (length sigma)) sigma.
Proof.
  intros sigma offset lens (cs & _ & HP & HF).
  assert (E : map (getz sigma) (zseq 0 (length sigma)) = sigma) by (symmetry; apply getz_list).
  rewrite <- E at 2.
  transitivity (map (getz sigma) (concat cs)); [| apply Permutation_map; exact HP].
  transitivity (map (fun x => x + offset) (concat cs)).
  { transitivity (map (fun x => x + offset) (zseq 0 (length sigma))).
    - clear. assert (forall n lo, map (fun x => x + offset) (zseq lo n) = zseq (lo + offset) n) as G.
      { induction n; intros lo; [reflexivity |]. cbn [zseq map]. f_equal. rewrite IHn. f_equal. lia. }
      rewrite G. reflexivity.
    - apply Permutation_map. symmetry. exact HP. }
  clear E HP. induction HF as [| c cs Hc HF IH]; [constructor |]. cbn [concat]. rewrite !map_app.
  apply Permutation_app; [| exact IH].
  symmetry.
  rewrite <- (map_nth_seq c) at 1. rewrite map_map.
  transitivity (map (fun x => x + offset)
    (map (fun j => nth (if (S j =? length c)%nat then 0%nat else S j) c 0) (seq 0 (length c)))).
  - rewrite map_map. erewrite map_ext_in; [reflexivity |]. intros j Hj. apply in_seq in Hj.
    apply Hc. lia.
  - apply Permutation_map. apply rot_perm.
Qed.

Lemma permCycles_always : forall cycles offset, Forall (fun c => 0 < c) cycles ->
  is_i64 offset -> is_i64 (fold_right Z.add 0 cycles) -> is_i64 (offset + fold_right Z.add 0 cycles) ->
  always (permCycles cycles offset)
    (returns (fun sigma => Z.of_nat (length sigma) = fold_right Z.add 0 cycles /\
       Permutation (zseq offset (length sigma)) sigma /\ hasCycles sigma offset cycles)).
Proof.
  intros cycles offset HF Ho Hs Hos. unfold permCycles.
  assert (0 <= fold_right Z.add 0 cycles) by (clear - HF; induction HF; cbn [fold_right]; lia).
  rewrite accumulate_ok by (auto; mach; lia). cbn [lift rbind].
  set (n := 0 + fold_right Z.add 0 cycles) in *.
  eapply returns_bind; [apply perm_always; [lia | replace (0 + n) with (fold_right Z.add 0 cycles) by lia; auto] |].
  intros p HP. cbv beta in HP.
  pose proof (Permutation_length HP) as PL. rewrite zseq_length in PL.
  assert (HA : alen p = n) by (unfold alen; lia).
  destruct (cycleLoop_ok p offset) with (cycles := cycles) (res := repeat 0 (length p)) (tmp := 0)
    as (r & E & L & B & _); auto; try lia.
  - eapply Permutation_NoDup; [exact HP | apply zseq_NoDup].
  - intros x Hx. apply (Permutation_in _ (Permutation_sym HP)) in Hx. apply in_zseq in Hx. lia.
  - rewrite HA. unfold n. exact Hos.
  - unfold alen. rewrite repeat_length. reflexivity.
  - rewrite E. apply returns_ret.
    destruct (blocks_lists p offset) with (cycles := cycles) (tmp := 0) (res := r)
      as (cs & M & C & F); auto; try lia.
    { intros x Hx. apply (Permutation_in _ (Permutation_sym HP)) in Hx. apply in_zseq in Hx. lia. }
    assert (HC : hasCycles r offset cycles).
    { exists cs. split; [exact M |]. split; [| exact F]. rewrite C. simpl skipn.
      replace (length r) with (Z.to_nat n) by (unfold alen in *; lia). symmetry. exact HP. }
    split; [unfold alen in *; lia |]. split; [| exact HC]. eapply hasCycles_perm; exact HC.
Qed.

(* ---- fixed points ---- *)
Definition negb0 (x : Z) : bool := negb (x <? 0).

Lemma fixLoop_ok : forall fix_ tmp res count offset, 0 <= count -> is_i64 (offset + count) ->
  alen tmp = count -> alen res = count -> NoDup fix_ ->
  Forall (fun x => offset <= x < offset + count) fix_ ->
  (forall i, 0 <= i < count -> In (i + offset) fix_ -> getz tmp i = i /\ getz res i = -1) ->
  exists tmp' res', fixLoop fix_ tmp res count offset = Ok (tmp', res') /\
    alen tmp' = count /\ alen res' = count /\
    forall i, 0 <= i < count ->
      (In (i + offset) fix_ -> getz tmp' i = -1 /\ getz res' i = i) /\
      (~ In (i + offset) fix_ -> getz tmp' i = getz tmp i /\ getz res' i = getz res i).
Proof.
  induction fix_ as [| x xs IH]; intros tmp res count offset Hc Ho HT HR HN HF HI.
  - exists tmp, res. repeat split; auto; contradiction.
  - inversion_clear HN as [| ? ? Hx HN']. inversion_clear HF as [| ? ? Hxr HF'].
    set (a := x - offset). assert (Ha : 0 <= a < count) by lia.
    set (tmp1 := upd tmp (Z.to_nat a) (getz res a)). set (res1 := upd res (Z.to_nat a) (getz tmp a)).
    destruct (HI a Ha) as [Ht Hr]; [left; lia |].
    assert (Ga : forall (l : list Z) v i, 0 <= i < count -> alen l = count ->
               getz (upd l (Z.to_nat a) v) i = if i =? a then v else getz l i).
    { intros l v i Hi HL. unfold getz, alen in *. destruct (i =? a) eqn:E.
      - replace (Z.to_nat i) with (Z.to_nat a) by lia. apply nth_upd_same. lia.
      - apply nth_upd_other. lia. }
    destruct (IH tmp1 res1 count offset) as (t' & r' & E & L1 & L2 & S); auto.
    { unfold tmp1, alen in *. rewrite upd_length. exact HT. }
    { unfold res1, alen in *. rewrite upd_length. exact HR. }
    { intros i Hi Hin. unfold tmp1, res1. rewrite !Ga by auto.
      destruct (i =? a) eqn:Ei; [exfalso; apply Hx; replace x with (i + offset) by lia; exact Hin |].
      apply HI; auto. right. exact Hin. }
    exists t', r'. split; [| split; [exact L1 | split; [exact L2 |]]].
    + cbn [fixLoop]. rewrite chk_Ok by auto. cbn [bind]. unfold judgeAssert.
      replace (offset <=? x) with true by lia. cbn [bind].
      replace (x <? offset + count) with true by lia. cbn [bind]. fold a.
      rewrite (aget_Ok _ tmp a 0) by lia. cbn [bind]. rewrite (aget_Ok _ res a 0) by lia. cbn [bind].
      fold (getz tmp a) (getz res a).
      rewrite (aset_Ok _ tmp) by lia. cbn [bind]. rewrite (aset_Ok _ res) by lia. cbn [bind]. exact E.
    + intros i Hi. destruct (S i Hi) as [S1 S2]. unfold tmp1, res1 in S2. rewrite !Ga in S2 by auto.
      destruct (i =? a) eqn:Ei.
      * assert (i + offset = x) by lia. rewrite H in *. assert (i = a) by lia. subst i.
        split; [| intros N; exfalso; apply N; left; reflexivity].
        intros _. destruct (S2 Hx) as [S3 S4]. rewrite S3, S4, Hr, Ht. split; reflexivity.
      * split.
        -- intros [Eq | Hin]; [lia | apply S1; exact Hin].
        -- intros N. apply S2. intros Hin. apply N. right. exact Hin.
Qed.

(* filling the free positions *)
Lemma nextFree_ok : forall tmp, filter negb0 tmp <> [] ->
  exists v rest, nextFree tmp = Ok (v, rest) /\ filter negb0 tmp = v :: filter negb0 rest /\ 0 <= v /\ incl rest tmp.
Proof.
  induction tmp as [| t tmp IH]; intros H; [contradiction |]. cbn [nextFree filter] in *. unfold negb0 at 1 in H.
  destruct (t <? 0) eqn:E; cbn [negb] in *.
  - destruct (IH H) as (v & rest & H1 & H2 & H3 & H4). exists v, rest. split; [exact H1 |].
    unfold negb0 at 1. rewrite E. cbn [negb]. split; [exact H2 |]. split; [exact H3 |].
    intros y Hy. right. apply H4. exact Hy.
  - exists t, tmp. split; [reflexivity |]. unfold negb0 at 1. rewrite E. cbn [negb]. split; [reflexivity |].
    split; [lia |]. intros y Hy. right. exact Hy.
Qed.

Lemma fillLoop_ok : forall res tmp offset B, is_i64 offset -> is_i64 (offset + B) ->
  length (filter negb0 tmp) = length (filter (fun x => x <? 0) res) ->
  (forall x, In x tmp -> x < B) -> (forall x, In x res -> x < B) -> 0 <= B ->
  exists r, fillLoop res tmp offset = Ok r /\ length r = length res /\
    Permutation r (map (fun x => x + offset) (filter negb0 res ++ filter negb0 tmp)) /\
    (forall i, (i < length res)%nat -> 0 <= nth i res 0 -> nth i r 0 = nth i res 0 + offset).
Proof.
  induction res as [| x res IH]; intros tmp offset B Ho HB HL Ht Hr HB0.
  - exists []. cbn [filter length] in HL. destruct (filter negb0 tmp); [| discriminate]. simpl.
    repeat split; auto. intros; lia.
  - cbn [filter] in *. cbn [fillLoop]. unfold negb0 at 1. destruct (x <? 0) eqn:E; cbn [negb].
    + cbn [length] in HL.
      destruct (nextFree_ok tmp) as (v & rest & N1 & N2 & N3 & N4); [intros C; rewrite C in HL; discriminate |].
      rewrite N1. cbn [bind]. rewrite N2 in HL. cbn [length] in HL.
      assert (v < B).
      { apply Ht. assert (In v (filter negb0 tmp)) as I by (rewrite N2; left; reflexivity).
        apply filter_In in I. tauto. }
      rewrite chk_Ok by (mach; lia). cbn [bind].
      destruct (IH rest offset B) as (r & R1 & R2 & R3 & R4); auto.
      { intros y Hy. apply Hr. right. exact Hy. }
      rewrite R1. cbn [bind]. exists (v + offset :: r). split; [reflexivity |].
      split; [simpl; lia |]. split.
      * rewrite N2. rewrite map_app in *. cbn [map]. rewrite R3. apply Permutation_middle.
      * intros [| i] Hi H0; cbn [nth length] in *; [lia |]. apply R4; [lia | exact H0].
    + cbn [bind]. assert (x < B) by (apply Hr; left; reflexivity).
      rewrite chk_Ok by (mach; lia). cbn [bind].
      destruct (IH tmp offset B) as (r & R1 & R2 & R3 & R4); auto.
      { intros y Hy. apply Hr. right. exact Hy. }
      rewrite R1. cbn [bind]. exists (x + offset :: r). split; [reflexivity |].
      split; [simpl; lia |]. split.
      * cbn [app map]. constructor. exact R3.
      * intros [| i] Hi H0; cbn [nth length] in *; [reflexivity |]. apply R4; [lia | exact H0].
Qed.

Lemma filter_perm_len : forall (f : Z -> bool) l l', Permutation l l' -> Permutation (filter f l) (filter f l').
Proof.
  intros f l l' H. induction H; cbn [filter]; auto.
  - destruct (f x); auto.
  - destruct (f x), (f y); auto. constructor.
  - etransitivity; eauto.
Qed.

Lemma permFix_always : forall count fix_ offset, 0 <= count -> is_i64 offset -> is_i64 count ->
  is_i64 (offset + count) -> NoDup fix_ -> Forall (fun x => offset <= x < offset + count) fix_ ->
  always (permFix count fix_ offset)
    (returns (fun sigma => Permutation (zseq offset (Z.to_nat count)) sigma /\
       forall x, In x fix_ -> getz sigma (x - offset) = x)).
Proof.
  intros count fix_ offset Hc Ho Hc64 Hoc HN HF. unfold permFix, judgeAssert.
  replace (0 <=? count) with true by lia. cbn [lift rbind].
  unfold rangeUp. replace (Z.to_nat (count - 0)) with (Z.to_nat count) by lia.
  assert (Gz : forall i, 0 <= i < count -> getz (zseq 0 (Z.to_nat count)) i = i).
  { intros i Hi. unfold getz. rewrite zseq_nth by lia. lia. }
  assert (Gr : forall i, 0 <= i < count -> getz (repeat (-1) (Z.to_nat count)) i = -1).
  { intros i Hi. unfold getz. apply (repeat_spec (Z.to_nat count)). apply nth_In. rewrite repeat_length. lia. }
  destruct (fixLoop_ok fix_ (zseq 0 (Z.to_nat count)) (repeat (-1) (Z.to_nat count)) count offset)
    as (tmp & res & E & L1 & L2 & S); auto.
  { unfold alen. rewrite zseq_length. lia. }
  { unfold alen. rewrite repeat_length. lia. }
  rewrite E. cbn [lift rbind].
  eapply returns_bind; [apply shuffle_always |]. intros tmp' HP. cbv beta in HP.
  assert (Hin : forall i, 0 <= i < count -> In (i + offset) fix_ \/ ~ In (i + offset) fix_)
    by (intros; destruct (in_dec Z.eq_dec (i + offset) fix_); auto).
  (* each position is free in exactly one of the two arrays *)
  assert (Rv : forall i, 0 <= i < count -> getz res i = -1 /\ getz tmp i = i \/ getz res i = i /\ getz tmp i = -1).
  { intros i Hi. destruct (S i Hi) as [S1 S2]. destruct (Hin i Hi) as [I | I].
    - right. destruct (S1 I). auto.
    - left. destruct (S2 I) as [A B]. rewrite A, B, Gz, Gr by auto. auto. }
  assert (HL2 : length res = Z.to_nat count) by (unfold alen in L2; lia).
  assert (HL1 : length tmp = Z.to_nat count) by (unfold alen in L1; lia).
  assert (Split : forall m, Z.of_nat m <= count ->
     length (filter negb0 (map (getz tmp) (zseq 0 m))) = length (filter (fun x => x <? 0) (map (getz res) (zseq 0 m))) /\
     Permutation (zseq 0 m) (filter negb0 (map (getz res) (zseq 0 m)) ++ filter negb0 (map (getz tmp) (zseq 0 m)))).
  { induction m; intros Hm; [split; [reflexivity | constructor] |].
    destruct IHm as [I1 I2]; [lia |]. rewrite zseq_snoc, !map_app, !filter_app, !app_length, I1. cbn [map filter].
    change (0 + Z.of_nat m) with (Z.of_nat m).
    assert (N1 : negb0 (Z.of_nat m) = true) by (unfold negb0; lia).
    assert (N2 : (Z.of_nat m <? 0) = false) by lia.
    change (0 + Z.of_nat m) with (Z.of_nat m).
    destruct (Rv (Z.of_nat m)) as [[A B] | [A B]]; [lia | |]; rewrite A, B, N1;
      change (negb0 (-1)) with false; change (-1 <? 0) with true; try rewrite N2; cbv iota.
    - split; [simpl length; lia |]. rewrite app_nil_r, app_assoc. apply Permutation_app_tail. exact I2.
    - split; [simpl length; lia |]. rewrite app_nil_r, <- app_assoc.
      rewrite I2 at 1. rewrite <- app_assoc. apply Permutation_app_head. apply Permutation_app_comm. }
  destruct (Split (Z.to_nat count)) as [Sl Sp]; [lia |].
  rewrite <- HL1 in Sl at 1. rewrite <- HL2 in Sl. rewrite <- HL2 in Sp at 2. rewrite <- HL1 in Sp at 2.
  rewrite <- !getz_list in Sl, Sp.
  pose proof (filter_perm_len negb0 _ _ HP) as FP.
  assert (Bd : forall l, length l = Z.to_nat count -> (forall i, 0 <= i < count -> getz l i < count) ->
            forall x, In x l -> x < count).
  { intros l HL Hl x Hx. rewrite (getz_list l) in Hx. apply in_map_iff in Hx. destruct Hx as (i & <- & Hi).
    apply in_zseq in Hi. apply Hl. lia. }
  destruct (fillLoop_ok res tmp' offset count) as (r & R1 & R2 & R3 & R4); auto.
  - rewrite <- Sl. symmetry. apply Permutation_length. exact FP.
  - intros x Hx. apply (Bd tmp HL1). { intros i Hi. destruct (Rv i Hi); lia. }
    eapply Permutation_in; [symmetry; exact HP | exact Hx].
  - apply (Bd res HL2). intros i Hi. destruct (Rv i Hi); lia.
  - rewrite R1. apply returns_ret. split.
    + rewrite R3. rewrite <- FP. rewrite <- Sp.
      assert (forall n lo, map (fun x => x + offset) (zseq lo n) = zseq (lo + offset) n) as G.
      { induction n; intros lo; [reflexivity |]. cbn [zseq map]. f_equal. rewrite IHn. f_equal. lia. }
      rewrite G. reflexivity.
    + intros x Hx. rewrite Forall_forall in HF. specialize (HF x Hx).
      destruct (S (x - offset)) as [S1 _]; [lia |].
      destruct S1 as [_ S1]; [replace (x - offset + offset) with x by lia; exact Hx |].
      unfold getz in *. rewrite R4 by lia. lia.
Qed.

Lemma fixLoop_throw : forall fix_ tmp res count offset, is_i64 (offset + count) ->
  alen tmp = count -> alen res = count ->
  Exists (fun x => ~ offset <= x < offset + count) fix_ ->
  fixLoop fix_ tmp res count offset = Throw.
Proof.
  induction fix_ as [| x xs IH]; intros tmp res count offset Ho HT HR HE; [inversion HE |].
  cbn [fixLoop]. rewrite chk_Ok by auto. cbn [bind]. unfold judgeAssert.
  destruct (offset <=? x) eqn:E0; cbn [bind]; [| reflexivity].
  destruct (x <? offset + count) eqn:E; [| reflexivity]. cbn [bind].
  rewrite (aget_Ok _ tmp _ 0) by lia. cbn [bind]. rewrite (aget_Ok _ res _ 0) by lia. cbn [bind].
  rewrite (aset_Ok _ tmp) by lia. cbn [bind]. rewrite (aset_Ok _ res) by lia. cbn [bind].
  apply IH; auto.
  - unfold alen in *. rewrite upd_length. exact HT.
  - unfold alen in *. rewrite upd_length. exact HR.
  - inversion_clear HE; [lia | exact H].
Qed.

Lemma permFix_throws : forall count fix_ offset, is_i64 (offset + count) ->
  count < 0 \/ Exists (fun x => ~ offset <= x < offset + count) fix_ ->
  permFix count fix_ offset = RRet Throw.
Proof.
  intros count fix_ offset Ho H. unfold permFix, judgeAssert.
  destruct (0 <=? count) eqn:E; cbn [lift rbind]; [| reflexivity].
  rewrite fixLoop_throw; auto.
  - unfold alen, rangeUp. rewrite zseq_length. lia.
  - unfold alen. rewrite repeat_length. lia.
  - destruct H; [lia | exact H].
Qed.

(* a first fixed point below offset throws before anything is added *)
Lemma permFix_low : forall count fix_ offset x, x < offset -> permFix count (x :: fix_) offset = RRet Throw.
Proof.
  intros count fix_ offset x H. unfold permFix, judgeAssert.
  destruct (0 <=? count) eqn:E; cbn [lift rbind]; [| reflexivity].
  cbn [fixLoop]. replace (offset <=? x) with false by lia. reflexivity.
Qed.
