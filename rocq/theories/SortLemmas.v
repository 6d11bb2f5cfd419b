(* facts about the insertion sort used as model of std::sort *)
From Verif Require Import Tac RandSeqModel.
From Coq Require Import Permutation Sorted.
From Verif Require Import RandSeqModel.

Lemma insert_perm : forall x l, Permutation (x :: l) (insert x l).
Proof.
  intros x l. induction l as [| y l IH]; simpl; auto.
  destruct (x <=? y); auto. transitivity (y :: x :: l); [constructor | constructor; exact IH].
Qed.

Lemma sort_perm : forall l, Permutation l (sort l).
Proof.
  induction l as [| x l IH]; simpl; auto.
  transitivity (x :: sort l); [constructor; exact IH | apply insert_perm].
Qed.

Lemma insert_sorted : forall x l, StronglySorted Z.le l -> StronglySorted Z.le (insert x l).
Proof.
  intros x l H. induction H as [| y l H IH F]; simpl.
  - constructor; constructor.
  - destruct (x <=? y) eqn:E.
    + constructor; [constructor; auto |]. constructor; [lia |].
      eapply Forall_impl; [| exact F]. simpl. intros; lia.
    + constructor; auto. apply Forall_forall. intros z Hz.
      apply (Permutation_in _ (Permutation_sym (insert_perm x l))) in Hz.
      destruct Hz as [<- | Hz]; [lia |]. rewrite Forall_forall in F. auto.
Qed.

Lemma sort_sorted : forall l, StronglySorted Z.le (sort l).
Proof. induction l; simpl; [constructor | apply insert_sorted; auto]. Qed.

Lemma sorted_unique : forall l l', StronglySorted Z.le l -> StronglySorted Z.le l' ->
  Permutation l l' -> l = l'.
Proof.
  induction l as [| x l IH]; intros l' H H' P.
  - apply Permutation_nil in P. auto.
  - destruct l' as [| y l']; [apply Permutation_sym, Permutation_nil in P; discriminate |].
    inversion_clear H as [| ? ? S1 F1]. inversion_clear H' as [| ? ? S2 F2].
    rewrite Forall_forall in F1, F2.
    assert (x = y).
    { assert (In x (y :: l')) as [E | I] by (eapply Permutation_in; [exact P | left; auto]); auto.
      assert (In y (x :: l)) as [E | J]
        by (eapply Permutation_in; [apply Permutation_sym; exact P | left; auto]); auto.
      apply F2 in I. apply F1 in J. lia. }
    subst y. f_equal. apply IH; auto. eapply Permutation_cons_inv; eauto.
Qed.

Lemma sort_eq_iff : forall l l', sort l = sort l' <-> Permutation l l'.
Proof.
  intros l l'. split; intros H.
  - transitivity (sort l); [apply sort_perm |]. rewrite H. symmetry. apply sort_perm.
  - apply sorted_unique; try apply sort_sorted.
    transitivity l; [symmetry; apply sort_perm |]. transitivity l'; [exact H | apply sort_perm].
Qed.

Lemma sort_id : forall l, StronglySorted Z.le l -> sort l = l.
Proof.
  intros l H. apply sorted_unique; auto using sort_sorted. symmetry. apply sort_perm.
Qed.

Lemma sorted_lt : forall l, StronglySorted Z.le l -> NoDup l -> StronglySorted Z.lt l.
Proof.
  intros l H. induction H as [| x l H IH F]; intros N; constructor.
  - apply IH. inversion N; auto.
  - inversion_clear N. rewrite Forall_forall in *. intros y Hy.
    specialize (F y Hy). assert (x <> y) by (intros ->; contradiction). lia.
Qed.

Lemma lt_sorted : forall l, StronglySorted Z.lt l -> StronglySorted Z.le l /\ NoDup l.
Proof.
  intros l H. induction H as [| x l H [IH1 IH2] F]; [split; constructor |].
  rewrite Forall_forall in F. split.
  - constructor; auto. apply Forall_forall. intros y Hy. specialize (F y Hy). lia.
  - constructor; auto. intros Hx. specialize (F x Hx). lia.
Qed.

Lemma NoDup_app_l : forall A (l l' : list A), NoDup (l ++ l') -> NoDup l.
Proof.
  induction l as [| x l IH]; simpl; intros l' H; [constructor |].
  inversion_clear H. constructor; [| eapply IH; eauto]. intros Hx. apply H0. apply in_app_iff. auto.
Qed.

Lemma NoDup_app_r : forall A (l l' : list A), NoDup (l ++ l') -> NoDup l'.
Proof. induction l; simpl; intros l' H; auto. inversion_clear H. auto. Qed.

Lemma NoDup_app_disj : forall A (l l' : list A) x, NoDup (l ++ l') -> In x l -> ~ In x l'.
Proof.
  induction l as [| y l IH]; simpl; intros l' x H Hx; [contradiction |].
  inversion_clear H. destruct Hx as [<- | Hx]; [| eauto]. intros I. apply H0. apply in_app_iff. auto.
Qed.
