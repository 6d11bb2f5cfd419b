(* The law of the sorted sequences with repetition. *)
From Coq Require Import ZArith List QArith Permutation Sorted Lia.
From Verif Require Import Tac Base SortLemmas RndModel RndLemmas RandSeqModel RandSpec ShuffleProofs DistinctProofs RandMiscProofs UniformProofs.
Import ListNotations.
Open Scope Z_scope.

Lemma arrangements_law : forall count lower upper s ts, 0 <= count -> lower < upper ->
  Z.of_nat (length s) = count -> StronglySorted Z.le s -> Forall (fun x => lower <= x < upper) s ->
  NoDup ts -> (forall t, In t ts <-> Permutation s t) ->
  (Pr (nonDecreasing count lower upper) (resultIs (list_eq_dec Z.eq_dec) s) == inject_Z (Z.of_nat (length ts)) / inject_Z ((upper - lower) ^ count))%Q.
Proof.
  intros count lower upper s ts HC HU HL HS HR ND TS. unfold nonDecreasing, Pr. rewrite expect_ret_bind.
  transitivity (expect (multiple count lower upper) (fun o => qsum (fun t => if resultIs (list_eq_dec Z.eq_dec) t o then 1%Q else 0%Q) ts)).
  - apply expect_ext. intros [a| | |]; cbn [resultIs]; try (symmetry; apply qsum_zero; reflexivity).
    destruct (list_eq_dec Z.eq_dec (sort a) s) as [E|N].
    + symmetry. apply (qsum_single _ _ ts a 1%Q); auto.
      * apply TS. rewrite <- E. symmetry. apply sort_perm.
      * destruct (list_eq_dec Z.eq_dec a a); [reflexivity|congruence].
      * intros t T K. destruct (list_eq_dec Z.eq_dec a t); [congruence|reflexivity].
    + symmetry. apply qsum_zero. intros t T. destruct (list_eq_dec Z.eq_dec a t) as [<-|]; [|reflexivity]. exfalso. apply N. apply TS in T. rewrite <- (sort_id s HS). symmetry. apply sort_eq_iff. auto.
  - rewrite expect_qsum. rewrite (qsum_ext _ _ (fun _ => 1 / inject_Z ((upper - lower) ^ count))%Q).
    + rewrite qsum_const. unfold Qdiv. ring.
    + intros t T. apply TS in T. apply multiple_uniform; auto.
      * rewrite <- (Permutation_length T). auto.
      * apply Forall_forall. intros x X. rewrite Forall_forall in HR. apply HR. eapply Permutation_in; [symmetry; exact T|auto].
Qed.
Lemma arrangements_law_rev : forall count lower upper s ts, 0 <= count -> lower < upper ->
  Z.of_nat (length s) = count -> StronglySorted Z.ge s -> Forall (fun x => lower <= x < upper) s ->
  NoDup ts -> (forall t, In t ts <-> Permutation s t) ->
  (Pr (nonIncreasing count lower upper) (resultIs (list_eq_dec Z.eq_dec) s) == inject_Z (Z.of_nat (length ts)) / inject_Z ((upper - lower) ^ count))%Q.
Proof.
  intros count lower upper s ts HC HU HL HS HR ND TS.
  assert (HS' : StronglySorted Z.le (rev s)). { apply StronglySorted_rev in HS. clear - HS. induction HS; constructor; auto. eapply Forall_impl; [|exact H]. simpl. intros; lia. }
  rewrite <- (arrangements_law count lower upper (rev s) ts); auto.
  - unfold nonIncreasing, nonDecreasing, Pr. rewrite !expect_ret_bind. apply expect_ext. intros [a| | |]; try reflexivity. unfold resultIs.
    destruct (list_eq_dec Z.eq_dec (rev (sort a)) s) as [E|N], (list_eq_dec Z.eq_dec (sort a) (rev s)) as [E'|N']; try reflexivity; exfalso.
    + apply N'. rewrite <- E, rev_involutive. reflexivity.
    + apply N. rewrite E', rev_involutive. reflexivity.
  - rewrite rev_length. auto.
  - apply Forall_rev. auto.
  - intro t. rewrite TS. split; intro P; [rewrite <- Permutation_rev|rewrite (Permutation_rev s)]; auto.
Qed.

Lemma not_equally_likely : exists count lower upper s t,
  Z.of_nat (length s) = count /\ StronglySorted Z.le s /\ Forall (fun x => lower <= x < upper) s /\
  Z.of_nat (length t) = count /\ StronglySorted Z.le t /\ Forall (fun x => lower <= x < upper) t /\
  ~ (Pr (nonDecreasing count lower upper) (resultIs (list_eq_dec Z.eq_dec) s) ==
     Pr (nonDecreasing count lower upper) (resultIs (list_eq_dec Z.eq_dec) t))%Q.
Proof.
  exists 2, 0, 2, [0; 1], [0; 0]. split; [reflexivity|]. split; [repeat constructor; lia|]. split; [repeat constructor; lia|].
  split; [reflexivity|]. split; [repeat constructor; lia|]. split; [repeat constructor; lia|]. vm_compute. discriminate.
Qed.
