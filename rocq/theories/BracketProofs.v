From Verif Require Import Tac RndModel RandSeqModel RndLemmas DistinctProofs.
From Coq Require Import QArith Qfield.
Open Scope Z_scope.

(* a word with d open brackets before it that never goes below zero and ends at zero *)
Fixpoint balanced (d : Z) (w : list bool) : Prop :=
  match w with
  | [] => d = 0
  | true :: w' => balanced (d + 1) w'
  | false :: w' => 0 < d /\ balanced (d - 1) w'
  end.

(* a remaining opening brackets, d currently open: 2a+d steps remain *)
Lemma bracketLoop_S : forall n a d k i, 0 <= a -> 0 <= d -> Z.of_nat (S k) = 2 * a + d ->
  i = 2 * n - (2 * a + d) -> a + d <= n -> 0 <= n <= 2147483647 ->
  bracketLoop (S k) n i d =
   (let? x := rint 0 ((2 * a + d) * (d + 1)) in
    if x <? a * (d + 2)
    then let? r := bracketLoop k n (i + 1) (d + 1) in ret (true :: r)
    else let? r := bracketLoop k n (i + 1) (d - 1) in ret (false :: r)).
Proof.
  intros n a d k i Ha Hd Hk Hi Hn Hr. cbn [bracketLoop].
  replace (Z.quot (i + d) 2) with (n - a).
  2:{ rewrite Z.quot_div_nonneg by lia. replace (i + d) with ((n - a) * 2) by lia.
      rewrite Z.div_mul; lia. }
  replace (2 * n - i) with (2 * a + d) by lia. replace (n - (n - a)) with a by lia.
  assert (is_i64 ((2 * a + d) * (d + 1))) by (mach; nia).
  assert (is_i64 (a * (d + 2))) by (mach; nia).
  rewrite !chk_Ok by auto. cbn [lift rbind]. reflexivity.
Qed.

Lemma bracketLoop_always : forall k n a d i, 0 <= a -> 0 <= d -> Z.of_nat k = 2 * a + d ->
  i = 2 * n - (2 * a + d) -> a + d <= n -> 0 <= n <= 2147483647 ->
  always (bracketLoop k n i d) (returns (fun w => length w = k /\ balanced d w)).
Proof.
  induction k; intros n a d i Ha Hd Hk Hi Hn Hr.
  - apply returns_ret. simpl. split; lia.
  - rewrite (bracketLoop_S n a d) by auto.
    eapply returns_bind; [apply returns_rint; nia |]. intros x Hx. cbv beta in Hx.
    destruct (x <? a * (d + 2)) eqn:E.
    + assert (1 <= a) by nia.
      eapply returns_bind; [apply (IHk n (a - 1) (d + 1)); lia |]. intros w [HL HB].
      apply returns_ret. simpl. split; [lia | auto].
    + assert (1 <= d) by nia.
      eapply returns_bind; [apply (IHk n a (d - 1)); lia |]. intros w [HL HB].
      apply returns_ret. simpl. split; [lia | split; [lia | auto]].
Qed.

Lemma count_below : forall lim n, (lim <= n)%nat ->
  length (filter (fun x => x <? Z.of_nat lim) (zseq 0 n)) = lim.
Proof.
  intros lim n H. replace n with (lim + (n - lim))%nat by lia. rewrite zseq_app, filter_app, app_length.
  assert (A : forall k lo, lo + Z.of_nat k <= Z.of_nat lim ->
            length (filter (fun x => x <? Z.of_nat lim) (zseq lo k)) = k).
  { induction k; intros lo Hk; simpl; auto. replace (lo <? Z.of_nat lim) with true by lia.
    simpl. rewrite IHk; lia. }
  assert (B : forall k lo, Z.of_nat lim <= lo ->
            length (filter (fun x => x <? Z.of_nat lim) (zseq lo k)) = O).
  { induction k; intros lo Hk; simpl; auto. replace (lo <? Z.of_nat lim) with false by lia.
    apply IHk; lia. }
  rewrite A, B by lia. lia.
Qed.

(* a draw of [0, b) splits at lim *)
Lemma qsum_split : forall lim b (u v : Q), 0 <= lim <= b ->
  (qsum (fun x => if x <? lim then u else v) (zseq 0 (Z.to_nat b)) ==
   inject_Z lim * u + inject_Z (b - lim) * v)%Q.
Proof.
  intros lim b u v H.
  rewrite (qsum_ext _ _ (fun x => v + (if x <? lim then u - v else 0))%Q).
  2:{ intros x _. destruct (x <? lim); ring. }
  rewrite qsum_plus, qsum_const, qsum_indicator, zseq_length.
  assert (C := count_below (Z.to_nat lim) (Z.to_nat b) ltac:(lia)). rewrite Z2Nat.id in C by lia.
  rewrite C. rewrite !Z2Nat.id by lia.
  unfold Zminus. rewrite inject_Z_plus, inject_Z_opp. ring.
Qed.

Definition bwords : forall x y : list bool, {x = y} + {x <> y} := list_eq_dec Bool.bool_dec.

Lemma cons_event : forall (b c : bool) k n i d w,
  (expect (let? r := bracketLoop k n i d in ret (b :: r))
     (fun o => if resultIs bwords (c :: w) o then 1%Q else 0%Q) ==
   if Bool.bool_dec b c then Pr (bracketLoop k n i d) (resultIs bwords w) else 0)%Q.
Proof.
  intros. rewrite expect_ret_bind. destruct (Bool.bool_dec b c) as [-> | N].
  - unfold Pr. apply expect_ext. intros [l | | |]; try reflexivity. unfold resultIs.
    destruct (bwords (c :: l) (c :: w)), (bwords l w); try reflexivity; congruence.
  - rewrite (expect_ext _ _ _ (fun _ => 0%Q)).
    + clear. induction (bracketLoop k n i d) as [o | lo hi f IH]; simpl; [reflexivity |].
      rewrite qsum_zero by (intros; apply IH). unfold Qdiv. ring.
    + intros [l | | |]; try reflexivity. unfold resultIs.
      destruct (bwords (b :: l) (c :: w)); [congruence | reflexivity].
Qed.

Definition zf (a : Z) := zfact (Z.to_nat a).
Lemma zf_S : forall a, 0 < a -> zf a = a * zf (a - 1).
Proof.
  intros a H. unfold zf. replace (Z.to_nat a) with (S (Z.to_nat (a - 1))) by lia. cbn [zfact].
  f_equal. lia.
Qed.
Lemma zf_pos : forall a, 0 < zf a.
Proof. intros. apply zfact_pos. Qed.

(* reciprocal of the number of completions *)
Definition compl (a d : Z) : Q :=
  (inject_Z (zf a) * inject_Z (zf (a + d + 1)) / (inject_Z (zf (2 * a + d)) * inject_Z (d + 1)))%Q.

Lemma balanced_d : forall w d, balanced d w -> (d <= Z.of_nat (length w)).
Proof.
  induction w as [| b w IH]; simpl; intros d H; [lia |]. destruct b.
  - apply IH in H. lia.
  - destruct H as [_ H]. apply IH in H. lia.
Qed.

Lemma bracketLoop_uniform : forall k n a d i w, 0 <= a -> 0 <= d -> Z.of_nat k = 2 * a + d ->
  i = 2 * n - (2 * a + d) -> a + d <= n -> 0 <= n <= 2147483647 ->
  length w = k -> balanced d w ->
  (Pr (bracketLoop k n i d) (resultIs bwords w) == compl a d)%Q.
Proof.
  induction k; intros n a d i w Ha Hd Hk Hi Hn Hr HL HB.
  - destruct w; [| discriminate]. assert (a = 0) by lia. assert (d = 0) by lia. subst a d.
    reflexivity.
  - destruct w as [| b w]; [discriminate |].
    unfold Pr. rewrite (bracketLoop_S n a d) by auto. rewrite expect_bind, expect_rint by nia.
    set (u := expect (let? r := bracketLoop k n (i + 1) (d + 1) in ret (true :: r))
                (fun o => if resultIs bwords (b :: w) o then 1%Q else 0%Q)).
    set (v := expect (let? r := bracketLoop k n (i + 1) (d - 1) in ret (false :: r))
                (fun o => if resultIs bwords (b :: w) o then 1%Q else 0%Q)).
    rewrite (qsum_ext _ _ (fun x => if x <? a * (d + 2) then u else v)).
    2:{ intros x _. destruct (x <? a * (d + 2)); reflexivity. }
    replace ((2 * a + d) * (d + 1) - 0) with ((2 * a + d) * (d + 1)) by lia.
    rewrite qsum_split by nia.
    replace ((2 * a + d) * (d + 1) - a * (d + 2)) with (d * (a + d + 1)) by ring.
    unfold u, v. rewrite !cons_event.
    pose proof (balanced_d _ _ HB) as Hbd. simpl in HB, HL, Hbd.
    destruct b; simpl in HB.
    + assert (1 <= a) by (apply balanced_d in HB; lia).
      destruct (Bool.bool_dec true true) as [_ |]; [| congruence].
      destruct (Bool.bool_dec false true) as [|]; [congruence |].
      rewrite (IHk n (a - 1) (d + 1)) by (auto; lia). unfold compl.
      rewrite (zf_S a) by lia. rewrite (zf_S (2 * a + d)) by lia.
      replace (a - 1 + (d + 1) + 1) with (a + d + 1) by lia.
      replace (2 * (a - 1) + (d + 1)) with (2 * a + d - 1) by lia.
      replace (d + 1 + 1) with (d + 2) by lia.
      pose proof (zf_pos (2 * a + d - 1)).
      rewrite !inject_Z_mult.
      field. repeat split; apply inject_Z_nonzero; lia.
    + destruct HB as [Hd1 HB].
      destruct (Bool.bool_dec true false) as [|]; [congruence |].
      destruct (Bool.bool_dec false false) as [_ |]; [| congruence].
      rewrite (IHk n a (d - 1)) by (auto; lia). unfold compl.
      rewrite (zf_S (a + d + 1)) by lia. rewrite (zf_S (2 * a + d)) by lia.
      replace (a + (d - 1) + 1) with (a + d + 1 - 1) by lia.
      replace (2 * a + (d - 1)) with (2 * a + d - 1) by lia.
      replace (d - 1 + 1) with d by lia.
      pose proof (zf_pos (2 * a + d - 1)).
      rewrite !inject_Z_mult.
      field. repeat split; apply inject_Z_nonzero; lia.
Qed.

Lemma bracketSequence_always : forall n, 0 <= n <= 2147483647 ->
  always (bracketSequence n) (returns (fun w => Z.of_nat (length w) = 2 * n /\ balanced 0 w)).
Proof.
  intros n H. unfold bracketSequence, judgeAssert.
  replace ((0 <=? n) && (n <=? 2147483647)) with true by lia. cbn [lift rbind].
  eapply returns_mono; [| apply (bracketLoop_always _ n n 0); lia].
  intros w [HL HB]. split; [lia | auto].
Qed.

Lemma bracketSequence_throws : forall n, ~ 0 <= n <= 2147483647 ->
  bracketSequence n = RRet Throw.
Proof.
  intros n H. unfold bracketSequence, judgeAssert.
  replace ((0 <=? n) && (n <=? 2147483647)) with false by lia. reflexivity.
Qed.

(* 1 / Catalan(n) = n! (n+1)! / (2n)! *)
Lemma bracketSequence_uniform : forall n w, 0 <= n <= 2147483647 ->
  Z.of_nat (length w) = 2 * n -> balanced 0 w ->
  (Pr (bracketSequence n) (resultIs bwords w) ==
   inject_Z (zfact (Z.to_nat n)) * inject_Z (zfact (Z.to_nat (n + 1))) / inject_Z (zfact (Z.to_nat (2 * n))))%Q.
Proof.
  intros n w H HL HB. unfold bracketSequence, judgeAssert.
  replace ((0 <=? n) && (n <=? 2147483647)) with true by lia. cbn [lift rbind].
  rewrite (bracketLoop_uniform _ n n 0) by (auto; lia).
  unfold compl, zf. replace (n + 0 + 1) with (n + 1) by lia. replace (2 * n + 0) with (2 * n) by lia.
  change (0 + 1) with 1.
  pose proof (zfact_pos (Z.to_nat (2 * n))). field. apply inject_Z_nonzero. lia.
Qed.

(* balanced words in terms of prefixes *)
Lemma balanced_spec : forall w d, 0 <= d ->
  (balanced d w <-> (d + opens w = closes w /\ forall k, closes (firstn k w) <= d + opens (firstn k w))).
Proof.
  induction w as [| b w IH]; intros d Hd.
  - cbn [balanced]. unfold opens, closes. split.
    + intros ->. split; [reflexivity |]. intros k. rewrite firstn_nil. simpl. lia.
    + intros [H _]. simpl in H. lia.
  - assert (O : forall w, opens (true :: w) = 1 + opens w /\ closes (true :: w) = closes w /\ opens (false :: w) = opens w /\ closes (false :: w) = 1 + closes w).
    { intros w'. unfold opens, closes. cbn [count_occ].
      destruct (Bool.bool_dec true true), (Bool.bool_dec false false), (Bool.bool_dec true false),
        (Bool.bool_dec false true); try congruence. lia. }
    destruct (O w) as (O1 & O2 & O3 & O4). destruct b; cbn [balanced].
    + rewrite IH by lia. split; intros [H1 H2]; (split; [lia |]); intros k.
      * destruct k as [| k]; [unfold opens, closes; simpl; lia |]. cbn [firstn].
        destruct (O (firstn k w)) as (P1 & P2 & _). specialize (H2 k). lia.
      * specialize (H2 (S k)). cbn [firstn] in H2. destruct (O (firstn k w)) as (P1 & P2 & _). lia.
    + split.
      * intros [Hp H]. apply IH in H; [| lia]. destruct H as [H1 H2]. split; [lia |]. intros k.
        destruct k as [| k]; [unfold opens, closes; simpl; lia |]. cbn [firstn].
        destruct (O (firstn k w)) as (_ & _ & P3 & P4). specialize (H2 k). lia.
      * intros [H1 H2]. assert (Hp : 0 < d).
        { specialize (H2 1%nat). cbn [firstn] in H2. unfold opens, closes in H2. simpl in H2. lia. }
        split; [exact Hp |]. apply IH; [lia |]. split; [lia |]. intros k. specialize (H2 (S k)).
        cbn [firstn] in H2. destruct (O (firstn k w)) as (_ & _ & P3 & P4). lia.
Qed.

Lemma balancedWord_iff : forall w, balanced 0 w <-> balancedWord w.
Proof. intros w. apply balanced_spec. lia. Qed.

Lemma bracketSequence_always_word : forall n, 0 <= n <= 2147483647 ->
  always (bracketSequence n) (returns (fun w => Z.of_nat (length w) = 2 * n /\ balancedWord w)).
Proof.
  intros n H. eapply returns_mono; [| apply bracketSequence_always; exact H].
  intros w [H1 H2]. split; [exact H1 |]. apply balancedWord_iff. exact H2.
Qed.

Lemma bracketSequence_uniform_word : forall n w, 0 <= n <= 2147483647 ->
  Z.of_nat (length w) = 2 * n -> balancedWord w ->
  (Pr (bracketSequence n) (resultIs (list_eq_dec Bool.bool_dec) w) ==
   inject_Z (zfact (Z.to_nat n)) * inject_Z (zfact (Z.to_nat (n + 1))) / inject_Z (zfact (Z.to_nat (2 * n))))%Q.
Proof.
  intros n w H HL HB. apply bracketSequence_uniform; auto. apply balancedWord_iff. exact HB.
Qed.
