From Verif Require Import Tac RndModel RandSeqModel RndLemmas.
From Coq Require Import QArith Qfield Permutation.
Open Scope Z_scope.

(* ---- swap ---- *)
Definition transp (i j k : nat) : nat :=
  if Nat.eqb k i then j else if Nat.eqb k j then i else k.

Lemma transp_inj : forall i j, FinFun.Injective (transp i j).
Proof.
  intros i j x y. unfold transp.
  destruct (Nat.eqb_spec x i), (Nat.eqb_spec x j), (Nat.eqb_spec y i), (Nat.eqb_spec y j); lia.
Qed.

Lemma aget_nat : forall A (l : list A) i a, nth_error l i = Some a -> aget l (Z.of_nat i) = Ok a.
Proof.
  intros A l i a H. unfold aget. replace (Z.of_nat i <? 0) with false by lia.
  rewrite Nat2Z.id, H. reflexivity.
Qed.

Lemma aset_nat : forall A (l : list A) i a, (i < length l)%nat -> aset l (Z.of_nat i) a = Ok (upd l i a).
Proof.
  intros A l i a H. rewrite aset_Ok by (unfold alen; lia). rewrite Nat2Z.id. reflexivity.
Qed.

Lemma nth_error_lt : forall A (l : list A) i, (i < length l)%nat -> exists a, nth_error l i = Some a.
Proof.
  intros A l i H. destruct (nth_error l i) eqn:E; eauto. apply nth_error_None in E. lia.
Qed.

Lemma aswap_Ok : forall A (l : list A) i j, (i < length l)%nat -> (j < length l)%nat ->
  exists l', aswap l (Z.of_nat i) (Z.of_nat j) = Ok l' /\ length l' = length l /\
    forall k, nth_error l' k = nth_error l (transp i j k).
Proof.
  intros A l i j Hi Hj. unfold aswap.
  destruct (nth_error_lt _ l i Hi) as [x Ex]. destruct (nth_error_lt _ l j Hj) as [y Ey].
  rewrite (aget_nat _ _ _ _ Ex), (aget_nat _ _ _ _ Ey). cbn [bind].
  rewrite aset_nat by exact Hi. cbn [bind]. rewrite aset_nat by (rewrite upd_length; exact Hj).
  eexists. split; [reflexivity |]. split; [rewrite !upd_length; reflexivity |].
  intros k. unfold transp. destruct (Nat.eqb_spec k i) as [-> | Hki].
  - destruct (Nat.eq_dec i j) as [-> | Hij].
    + rewrite nth_error_upd_same by (rewrite upd_length; exact Hj). symmetry. exact Ex.
    + rewrite nth_error_upd_other by lia. rewrite nth_error_upd_same by exact Hi. auto.
  - destruct (Nat.eqb_spec k j) as [-> | Hkj].
    + rewrite nth_error_upd_same by (rewrite upd_length; exact Hj). auto.
    + rewrite !nth_error_upd_other by lia. reflexivity.
Qed.

Lemma aswap_perm : forall A (l l' : list A) i j, length l' = length l ->
  (forall k, nth_error l' k = nth_error l (transp i j k)) -> Permutation l l'.
Proof.
  intros A l l' i j HL H. apply Permutation_nth_error. split; [auto |].
  exists (transp i j). split; [apply transp_inj | exact H].
Qed.

Lemma shuffleFrom_S : forall A i (l : list A),
  shuffleFrom (S i) l =
    (let? j := rint 0 (Z.of_nat (S i) + 1) in
     let? l := lift (aswap l (Z.of_nat (S i)) j) in
     shuffleFrom i l).
Proof. reflexivity. Qed.

(* every run returns a permutation and keeps everything behind position i *)
Lemma shuffleFrom_always : forall A i (l : list A), (i < length l)%nat ->
  always (shuffleFrom i l) (returns (fun l' => Permutation l l' /\
     forall k, (i < k)%nat -> nth_error l' k = nth_error l k)).
Proof.
  intros A i. induction i; intros l Hi.
  - apply returns_ret. split; auto.
  - rewrite shuffleFrom_S.
    eapply returns_bind; [apply returns_rint; lia |]. intros j Hj. cbv beta in Hj.
    replace j with (Z.of_nat (Z.to_nat j)) by lia.
    destruct (aswap_Ok _ l (S i) (Z.to_nat j)) as (l' & E & HL & Hn); [lia | lia |].
    rewrite E. cbn [lift rbind].
    eapply returns_mono; [| apply IHi; lia].
    intros l2 [HP HK]. split.
    + transitivity l'; [| exact HP]. eapply aswap_perm; eauto.
    + intros k Hk. rewrite HK by lia. rewrite Hn. unfold transp.
      replace (Nat.eqb k (S i)) with false by (symmetry; apply Nat.eqb_neq; lia).
      replace (Nat.eqb k (Z.to_nat j)) with false by (symmetry; apply Nat.eqb_neq; lia).
      reflexivity.
Qed.

Lemma shuffle_always : forall A (l : list A), always (shuffle l) (returns (Permutation l)).
Proof.
  intros A l. unfold shuffle. destruct l as [| a l].
  - simpl. constructor.
  - eapply returns_mono; [| apply shuffleFrom_always; simpl; lia]. intros l' [H _]. exact H.
Qed.

(* ---- uniformity ---- *)
Section Uniform.
  Context {A : Type} (dec : forall x y : A, {x = y} + {x <> y}).

  Notation isResult := (resultIs (list_eq_dec dec)).

  Lemma shuffleFrom_zero : forall i (l p : list A) k, (i < length l)%nat -> (i < k)%nat ->
    nth_error l k <> nth_error p k -> (Pr (shuffleFrom i l) (isResult p) == 0)%Q.
  Proof.
    intros i l p k Hi Hk Hne. unfold Pr.
    rewrite (expect_ext_always _ _ _ (fun _ => 0%Q)).
    - clear. induction (shuffleFrom i l); simpl; [reflexivity |].
      rewrite qsum_zero by (intros; apply H). unfold Qdiv. ring.
    - eapply always_mono; [| apply shuffleFrom_always; exact Hi].
      intros [l' | | |]; simpl; try reflexivity. intros [_ H].
      destruct (list_eq_dec dec l' p) as [-> |]; [| reflexivity].
      exfalso. apply Hne. symmetry. apply H. exact Hk.
  Qed.

  Lemma shuffleFrom_uniform : forall i (l p : list A), NoDup l -> Permutation l p ->
    (i < length l)%nat -> (forall k, (i < k)%nat -> nth_error l k = nth_error p k) ->
    (Pr (shuffleFrom i l) (isResult p) == 1 / inject_Z (zfact (S i)))%Q.
  Proof.
    intros i. induction i; intros l p Hnd HP Hi Hag.
    - assert (l = p).
      { destruct l as [| x l]; [simpl in Hi; lia |]. destruct p as [| y p].
        { apply Permutation_length in HP. discriminate. }
        assert (l = p).
        { assert (HL : length (x :: l) = length (y :: p)) by (apply Permutation_length; exact HP).
          simpl in HL. clear - Hag HL. revert p HL Hag. 
          assert (G : forall p, length l = length p -> (forall k, nth_error l k = nth_error p k) -> l = p).
          { induction l as [| a l IH]; intros [| b p] HL H; try discriminate; auto.
            pose proof (H 0%nat) as H0. simpl in H0. inversion H0; subst. f_equal.
            apply IH; [simpl in HL; lia |]. intros k. apply (H (S k)). }
          intros p HL Hag. apply G; [lia |]. intros k. apply (Hag (S k)). lia. }
        subst p. f_equal.
        change (x :: l) with ([x] ++ l) in HP. change (y :: l) with ([y] ++ l) in HP.
        apply Permutation_app_inv_r in HP. apply Permutation_length_1 in HP. exact HP. }
      subst p. unfold Pr. simpl. destruct (list_eq_dec dec l l); [reflexivity | contradiction].
    - unfold Pr. rewrite shuffleFrom_S, expect_bind, expect_rint by lia.
      set (n := Z.of_nat (S i) + 1). replace (n - 0) with n by lia.
      (* the unique good draw *)
      assert (HLp : length p = length l) by (symmetry; apply Permutation_length; exact HP).
      destruct (nth_error_lt _ p (S i) ltac:(lia)) as [y Ey].
      assert (Hy : In y l) by (eapply Permutation_in; [symmetry; exact HP | eapply nth_error_In; exact Ey]).
      apply In_nth_error in Hy. destruct Hy as [j0 Ej0].
      assert (Hj0l : (j0 < length l)%nat) by (apply nth_error_Some; congruence).
      assert (Hj0 : (j0 <= S i)%nat).
      { destruct (Nat.le_gt_cases j0 (S i)) as [|Hgt]; auto. exfalso.
        rewrite Hag in Ej0 by lia.
        assert (NoDup p) by (eapply Permutation_NoDup; eauto).
        assert (j0 = S i); [| lia].
        eapply NoDup_nth_error; [exact H | apply nth_error_Some; congruence | congruence]. }
      rewrite (qsum_single _ _ _ (Z.of_nat j0) (1 / inject_Z (zfact (S i)))%Q).
      + cbn [zfact]. fold n. 
        replace (Z.of_nat (S (S i)) * (Z.of_nat (S i) * zfact i)) with (n * (Z.of_nat (S i) * zfact i)) by lia.
        rewrite (inject_Z_mult n).
        pose proof (zfact_pos i).
        assert (0 < Z.of_nat (S i) * zfact i) by (apply Z.mul_pos_pos; lia).
        field. split; apply inject_Z_nonzero; lia.
      + apply zseq_NoDup.
      + apply in_zseq. lia.
      + rewrite expect_bind.
        destruct (aswap_Ok _ l (S i) j0 Hi Hj0l) as (l' & E & HL & Hn).
        rewrite E. cbn [lift expect].
        fold (Pr (shuffleFrom i l') (isResult p)).
        assert (HP' : Permutation l l') by (eapply aswap_perm; eauto).
        apply IHi.
        * eapply Permutation_NoDup; eauto.
        * transitivity l; [symmetry |]; auto.
        * lia.
        * intros k Hk. rewrite Hn. unfold transp.
          destruct (Nat.eqb_spec k (S i)) as [-> |]; [congruence |].
          replace (Nat.eqb k j0) with false by (symmetry; apply Nat.eqb_neq; lia).
          apply Hag. lia.
      + intros x Hx Hne. apply in_zseq in Hx. unfold n in Hx.
        rewrite expect_bind.
        replace x with (Z.of_nat (Z.to_nat x)) by lia.
        destruct (aswap_Ok _ l (S i) (Z.to_nat x) Hi ltac:(lia)) as (l' & E & HL & Hn).
        rewrite E. cbn [lift expect].
        fold (Pr (shuffleFrom i l') (isResult p)).
        apply (shuffleFrom_zero i l' p (S i)); [lia | lia |].
        rewrite Hn. unfold transp. rewrite Nat.eqb_refl. rewrite Ey. intros Ex.
        apply Hne. assert (Z.to_nat x = j0); [| lia].
        eapply NoDup_nth_error; [exact Hnd | apply nth_error_Some; congruence | congruence].
  Qed.

  Lemma shuffle_uniform : forall l p : list A, NoDup l -> Permutation l p ->
    (Pr (shuffle l) (isResult p) == 1 / inject_Z (zfact (length l)))%Q.
  Proof.
    intros l p Hnd HP. unfold shuffle. destruct l as [| a l].
    - apply Permutation_nil in HP. subst p. unfold Pr. simpl.
      destruct (list_eq_dec dec [] []); [reflexivity | contradiction].
    - rewrite shuffleFrom_uniform; auto.
      + simpl length. rewrite Nat.sub_succ, Nat.sub_0_r. reflexivity.
      + simpl. lia.
      + intros k Hk. simpl in Hk. 
        assert (HL : length (a :: l) = length p) by (apply Permutation_length; exact HP).
        simpl in HL.
        rewrite (proj2 (nth_error_None (a :: l) k)) by (simpl; lia).
        rewrite (proj2 (nth_error_None p k)) by lia. reflexivity.
  Qed.
End Uniform.
