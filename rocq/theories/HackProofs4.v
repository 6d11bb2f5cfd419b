From Verif Require Import Base BaseLemmas Tac RndModel RndLemmas RandSpec RandSeqModel ShuffleProofs HackModel HackProofs HackProofs2 HackProofs3.
From Coq Require Import ZArith List Lia Permutation.
Import ListNotations.
Open Scope Z_scope.

Lemma nodup_app_lt : forall (a b : list Z), NoDup a -> NoDup b -> (forall x y, In x a -> In y b -> x < y) -> NoDup (a ++ b).
Proof.
  intros a b NA NB H. induction NA as [|x a X NA IH]; [exact NB|]. cbn. constructor; [|apply IH; intros; apply H; [right|]; assumption].
  rewrite in_app_iff. intros [C|C]; [tauto|]. pose proof (H x x (or_introl eq_refl) C). lia.
Qed.
Lemma hack_values : forall fuel n mi, 0 <= n < Z.of_nat fuel -> is_i64 mi -> is_i64 (mi + n) -> ~ (mi <= -1 <= mi + n) ->
  always (HackedSort fuel n mi) (returns (fun l => NoDup l /\ forall x, In x l <-> mi <= x <= mi + n /\ x <> mi + n - 2 * Z.max 0 ((n - 43) / 4))).
Proof.
  intros fuel n mi N M1 M2 NO. eapply returns_mono; [|apply hack_always; try assumption; lia]. intros l P. cbn in P. set (k := Z.to_nat n) in *.
  assert (R : Z.of_nat (rounds k) = Z.max 0 ((n - 43) / 4)) by (unfold rounds; replace (Z.of_nat k) with n by (unfold k; lia); lia).
  assert (B : 2 * Z.of_nat (rounds k) <= n). { destruct (Nat.lt_ge_cases k 47) as [H|H]; [rewrite rounds_small by exact H; lia|]. destruct (rounds_step k H) as [_ B]. lia. }
  rewrite <- R. split.
  - apply (Permutation_NoDup P). unfold vals. apply nodup_app_lt; try apply zs_nodup. intros x y X Y. apply zs_in in X. apply zs_in in Y. lia.
  - intros x. split.
    + intros X. apply (Permutation_in x (Permutation_sym P)) in X. unfold vals in X. apply in_app_iff in X. rewrite !zs_in in X. lia.
    + intros X. apply (Permutation_in x P). unfold vals. apply in_app_iff. rewrite !zs_in. lia.
Qed.
Lemma below_perm : forall fuel n mi, 0 <= n < 47 -> is_i64 mi -> is_i64 (mi + n) -> always (HackedSort (S fuel) n mi) (returns (Permutation (zseq mi (Z.to_nat n)))).
Proof.
  intros fuel n mi N M1 M2. rewrite below_run by assumption. set (k := Z.to_nat n). apply always_bind, always_bind. eapply always_mono; [|apply shuffle_always].
  intros o O. destruct o as [p| | |]; try contradiction. cbn in O. cbn [rbind ret hp hdata always]. rewrite !app_nil_r. assert (R : onRange (zseq 0 k) 0 (Z.of_nat k - 1) (fun _ => p) = p) by (apply range_all, zs_len). rewrite R.
  destruct (scatter_perm k mi p O) as (r & E & P). rewrite E. exact P.
Qed.
Lemma above_not : forall fuel n mi, 47 <= n < Z.of_nat fuel -> is_i64 mi -> is_i64 (mi + n) -> ~ (mi <= -1 <= mi + n) ->
  always (HackedSort fuel n mi) (returns (fun l => ~ Permutation (zseq mi (Z.to_nat n)) l)).
Proof.
  intros fuel n mi N M1 M2 NO. eapply returns_mono; [|apply hack_values; try assumption; lia]. intros l [_ H] P. cbn in P.
  assert (D : 1 <= (n - 43) / 4) by (apply Z.div_le_lower_bound; lia).
  assert (I : In (mi + n) l) by (apply H; lia). apply (Permutation_in _ (Permutation_sym P)) in I. apply zs_in in I. lia.
Qed.
Lemma hack_throws : forall fuel n mi, n < 0 -> always (HackedSort fuel n mi) (fun o => o = Throw).
Proof. intros fuel n mi N. unfold HackedSort. replace (n <? 0) with true by lia. reflexivity. Qed.
(* the outcome if each draw gives its lower bound *)
Fixpoint lowest {A} (m : rnd A) : outcome A := match m with RRet o => o | RDraw lo hi k => if lo <? hi then lowest (k lo) else Fuel end.
Lemma lowest_can : forall A (m : rnd A) a, lowest m = Ok a -> can m (Ok a).
Proof. intros A m. induction m as [o|lo hi k IH]; intros a H; [exact H|]. cbn [lowest] in H. destruct (lo <? hi) eqn:E; [|discriminate]. cbn. exists lo. split; [lia|]. apply IH, H. Qed.
Lemma repeats : exists fuel n mi l, 47 <= n < Z.of_nat fuel /\ can (HackedSort fuel n mi) (Ok l) /\ alen l = n /\ count_occ Z.eq_dec l (-1) = 44%nat.
Proof.
  destruct (lowest (HackedSort 48 47 (-1))) as [l| | |] eqn:E; try (vm_compute in E; discriminate).
  exists 48%nat, 47, (-1), l. split; [lia|]. split; [apply lowest_can, E|]. vm_compute in E. inversion E. subst l. split; vm_compute; reflexivity.
Qed.
