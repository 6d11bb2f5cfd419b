(* The queue of randomGraph follows Havel and Hakimi. *)
From Verif Require Import Base Tac RndModel RndLemmas DegModel DegSpec DegProofs.
From Verif Require Import GenModel GenSpec GenProofs GenProofs2 GenProofs3 GenRandProofs.
From Coq Require Import Permutation Sorted.

Notation ids := (map (@snd Z Z)).
Definition sortedQ (q : list (Z * Z)) : Prop := StronglySorted (fun a b => fst b <= fst a) q.
Definition realizesQ (q : list (Z * Z)) (G : Z -> Z -> bool) : Prop :=
  graphOn (ids q) G /\ (forall d i, In (d, i) q -> cnt (G i) (ids q) = d).

Lemma push_perm : forall q e, Permutation (pqPush e q) (e :: q).
Proof.
  induction q as [|x q IH]; intro e; cbn [pqPush]; auto. destruct (pairLess e x); auto.
  eapply perm_trans; [apply perm_skip, IH|apply perm_swap].
Qed.
Lemma push_sorted : forall q e, sortedQ q -> sortedQ (pqPush e q).
Proof.
  induction q as [|x q IH]; intros e S; cbn [pqPush]; [repeat constructor|]. inv S. destruct (pairLess e x) eqn:Q.
  - constructor; [apply IH; auto|]. apply Forall_forall. intros y I. apply (Permutation_in _ (push_perm q e)) in I. destruct I as [<-|I].
    + unfold pairLess in Q. lia.
    + rewrite Forall_forall in H2. auto.
  - constructor; [constructor; auto|]. constructor.
    + unfold pairLess in Q. lia.
    + eapply Forall_impl; [|exact H2]. cbn beta. intros y Y. unfold pairLess in Q. lia.
Qed.
Lemma pushAll_perm : forall t q, Permutation (pqPushAll t q) (t ++ q).
Proof.
  induction t as [|e t IH]; intro q; [apply Permutation_refl|]. unfold pqPushAll in *. cbn [fold_left app].
  eapply perm_trans; [apply IH|]. eapply perm_trans; [apply Permutation_app_head, push_perm|]. apply Permutation_sym, Permutation_middle.
Qed.
Lemma pushAll_sorted : forall t q, sortedQ q -> sortedQ (pqPushAll t q).
Proof. induction t as [|e t IH]; intros q H; auto. unfold pqPushAll in *. cbn [fold_left]. apply IH, push_sorted; auto. Qed.

(* what is pushed back *)
Fixpoint dec (l : list (Z * Z)) : list (Z * Z) :=
  match l with [] => [] | (d, i) :: l' => if 0 <? d - 1 then (d - 1, i) :: dec l' else dec l' end.
Lemma in_dec_iff : forall l d i, In (d, i) (dec l) <-> In (d + 1, i) l /\ 0 < d.
Proof.
  induction l as [|[d0 i0] l IH]; intros d i; cbn [dec In]; [tauto|]. destruct (Z.ltb_spec 0 (d0 - 1)); cbn [In]; rewrite IH.
  - split; [intros [Q|(I & P)]|intros ([Q|I] & P)]; auto; [inv Q; split; [left; f_equal; lia|auto]|inv Q; left; f_equal; lia].
  - split; [intros (I & P); auto|intros ([Q|I] & P); auto]. inv Q. lia.
Qed.
Lemma dec_incl : forall l, incl (ids (dec l)) (ids l).
Proof. intros l x I. apply in_map_iff in I as ([d i] & <- & I). apply in_dec_iff in I as (I & _). apply in_map_iff. exists (d + 1, i). auto. Qed.
Lemma dec_NoDup : forall l r, NoDup (ids l ++ r) -> NoDup (ids (dec l) ++ r).
Proof.
  induction l as [|[d i] l IH]; intros r N; cbn [dec map app] in *; auto. inv N. destruct (0 <? d - 1); [|apply IH; auto].
  cbn [map app snd]. constructor; [|apply IH; auto]. intro I. apply H1. apply in_app_iff in I. apply in_app_iff. destruct I; auto. left. apply dec_incl. auto.
Qed.
Lemma dec_length : forall l, (length (dec l) <= length l)%nat.
Proof. induction l as [|[d i] l IH]; cbn [dec length]; [lia|]. destruct (0 <? d - 1); cbn [length]; lia. Qed.

Lemma cnt_sub : forall f a b, NoDup a -> NoDup b -> incl a b -> (forall x, In x b -> f x = true -> In x a) -> cnt f a = cnt f b.
Proof.
  intros f a b NA NB I H. unfold cnt. f_equal. apply Permutation_length, NoDup_Permutation; [apply NoDup_filter; auto|apply NoDup_filter; auto|].
  intro x. rewrite !filter_In. split; intros (J & F); auto.
Qed.
Lemma NoDup_left : forall (a b : list Z), NoDup (a ++ b) -> NoDup a.
Proof.
  induction a as [|x a IH]; intros b N; [constructor|]. cbn [app] in N. inv N. constructor; [|eapply IH; eauto]. intro I. apply H1. apply in_app_iff. auto.
Qed.
Lemma key_inj : forall (q : list (Z * Z)) d d' i, NoDup (ids q) -> In (d, i) q -> In (d', i) q -> d = d'.
Proof.
  induction q as [|[e j] q IH]; intros d d' i N I J; [destruct I|]. cbn [map] in N. inv N. destruct I as [Q|I], J as [Q'|J].
  - congruence.
  - inv Q. exfalso. apply H1. apply in_map_iff. exists (d', i). auto.
  - inv Q'. exfalso. apply H1. apply in_map_iff. exists (d, i). auto.
  - eapply IH; eauto.
Qed.

Section Step.
  Variables (d c : Z) (SS RR q' : list (Z * Z)).
  Hypothesis N : NoDup (c :: ids SS ++ ids RR).
  Hypothesis L : Z.of_nat (length SS) = d.
  Hypothesis POS : Forall (fun p => 0 < fst p) (SS ++ RR).
  Hypothesis P : Permutation q' (dec SS ++ RR).
  Hypothesis TOP : forall s r, In s SS -> In r RR -> fst r <= fst s.

  Lemma NR : NoDup (ids SS ++ ids RR). Proof. inv N. auto. Qed.
  Lemma cNot : ~ In c (ids SS) /\ ~ In c (ids RR).
  Proof. inv N. split; intro; apply H1; apply in_app_iff; auto. Qed.
  Lemma disj : forall x, In x (ids SS) -> In x (ids RR) -> False.
  Proof.
    pose proof NR as X. clear - X. intros x I J. induction (ids SS) as [|y l IH]; [destruct I|]. cbn [app] in X. inv X.
    destruct I as [->|I]; auto. apply H1. apply in_app_iff. auto.
  Qed.
  Lemma q'_ids : forall x, In x (ids q') <-> In x (ids (dec SS)) \/ In x (ids RR).
  Proof.
    intro x. rewrite <- in_app_iff, <- map_app. split; intro I; (eapply Permutation_in; [|exact I]); apply Permutation_map; auto. apply Permutation_sym; auto.
  Qed.
  Lemma q'_in : forall e i, In (e, i) q' <-> (In (e + 1, i) SS /\ 0 < e) \/ In (e, i) RR.
  Proof.
    intros e i. rewrite <- in_dec_iff, <- in_app_iff. split; intro I; (eapply Permutation_in; [|exact I]); auto. apply Permutation_sym; auto.
  Qed.
  Lemma q'_NoDup : NoDup (ids q').
  Proof.
    apply (Permutation_NoDup (l := ids (dec SS) ++ ids RR)); [|apply dec_NoDup, NR]. rewrite <- map_app. apply Permutation_map, Permutation_sym; auto.
  Qed.
  Lemma q'_incl : incl (ids q') (ids SS ++ ids RR).
  Proof. intros x I. apply q'_ids in I. apply in_app_iff. destruct I; auto. left. apply dec_incl. auto. Qed.
  Lemma c_q' : ~ In c (ids q').
  Proof. intro I. apply q'_incl in I. inv N. auto. Qed.
  Lemma q'_pos : Forall (fun p => 0 < fst p) q'.
  Proof.
    apply Forall_forall. intros [e i] I. apply q'_in in I. cbn [fst]. destruct I as [(I & X)|I]; auto. rewrite Forall_forall in POS.
    apply (POS (e, i)). apply in_app_iff. auto.
  Qed.
  (* dropped: a node of SS with degree 1 *)
  Lemma dropped : forall i, In i (ids SS ++ ids RR) -> ~ In i (ids q') -> In (1, i) SS.
  Proof.
    intros i I NI. apply in_app_iff in I. destruct I as [I|I]; [|exfalso; apply NI; apply q'_ids; auto].
    apply in_map_iff in I as ([e j] & Q & I). cbn [snd] in Q. subst j.
    assert (0 < e) by (rewrite Forall_forall in POS; apply (POS (e, i)); apply in_app_iff; auto).
    destruct (Z.eq_dec e 1) as [->|D]; auto. exfalso. apply NI. apply q'_ids. left. apply in_map_iff. exists (e - 1, i). split; auto.
    apply in_dec_iff. split; [replace (e - 1 + 1) with e by lia; auto|lia].
  Qed.

  Lemma reduce : forall G, realizesQ ((d, c) :: SS ++ RR) G -> exists H, realizesQ q' H.
  Proof.
    intros G (GG & DG). set (V := ids ((d, c) :: SS ++ RR)) in *. assert (VE : V = c :: ids SS ++ ids RR) by (unfold V; cbn [map snd]; rewrite map_app; auto).
    destruct (exchange V c (ids SS)) with (k := length (ids SS)) (G := G) as (G' & GG' & D' & NC); auto.
    - rewrite VE. auto.
    - rewrite VE. left. auto.
    - eapply NoDup_left, NR.
    - rewrite VE. intros x I. right. apply in_app_iff. auto.
    - apply cNot.
    - rewrite (DG d c); [|left; auto]. rewrite map_length. auto.
    - intros s r I1 I2 I3 I4. rewrite VE in I2. destruct I2 as [->|I2]; [congruence|]. apply in_app_iff in I2. destruct I2 as [I2|I2]; [contradiction|].
      apply in_map_iff in I1 as ([ds s'] & Q1 & I1). apply in_map_iff in I2 as ([dr r'] & Q2 & I2). cbn [snd] in *. subst s' r'.
      rewrite (DG ds s), (DG dr r); [|right; apply in_app_iff; auto|right; apply in_app_iff; auto]. apply (TOP _ _ I1 I2).
    - apply cnt_le_length.
    - assert (SY : forall u v, G' u v = G' v u) by apply GG'.
      (* the part of the degree outside c *)
      assert (DR : forall e i, In (e, i) (SS ++ RR) -> cnt (G' i) (ids SS ++ ids RR) = e - (if in_dec Z.eq_dec i (ids SS) then 1 else 0)).
      { intros e i I. pose proof (D' i) as Q. rewrite (DG e i) in Q by (right; auto). rewrite VE, cnt_cons in Q.
        pose proof (NC i) as NCi. rewrite SY in NCi. destruct (in_dec Z.eq_dec i (ids SS)) as [J|J]; destruct (G' i c); try lia; intuition congruence. }
      set (H := fun u v => G' u v && negb (u =? c) && negb (v =? c)).
      assert (HV : forall u v, H u v = true -> In u (ids SS ++ ids RR) /\ In v (ids SS ++ ids RR) /\ u <> v).
      { intros u v Q. unfold H in Q. destruct GG' as (_ & X). destruct (X u v) as (A & B & C); [destruct (G' u v); auto|]. rewrite VE in A, B.
        destruct A as [->|A]; [rewrite Z.eqb_refl, andb_false_r in Q; discriminate|]. destruct B as [->|B]; [rewrite Z.eqb_refl, andb_false_r in Q; discriminate|]. auto. }
      assert (HS : forall u v, H u v = H v u) by (intros; unfold H; rewrite (SY u v); destruct (G' v u), (u =? c), (v =? c); auto).
      assert (HQ : forall u v, H u v = true -> In u (ids q')).
      { intros u v Q. destruct (in_dec Z.eq_dec u (ids q')) as [I|I]; auto. exfalso. destruct (HV _ _ Q) as (A & B & C). pose proof (dropped u A I) as X.
        pose proof (DR 1 u ltac:(apply in_app_iff; auto)) as Y. destruct (in_dec Z.eq_dec u (ids SS)) as [J|J]; [|apply J; apply in_map_iff; exists (1, u); auto].
        pose proof (cnt_zero_inv _ _ v Y B) as Z0. unfold H in Q. rewrite Z0 in Q. discriminate. }
      exists H. split; [split; auto|].
      + intros u v Q. destruct (HV _ _ Q) as (A & B & C). split; [eapply HQ; eauto|]. split; auto. rewrite HS in Q. eapply HQ; eauto.
      + intros e i I. assert (IC : i <> c) by (intros ->; apply c_q'; apply in_map_iff; exists (e, c); auto).
        rewrite (cnt_sub (H i) (ids q') (ids SS ++ ids RR)); [|apply q'_NoDup|apply NR|apply q'_incl|intros x _ Q; rewrite HS in Q; eapply HQ; eauto].
        rewrite (cnt_ext (H i) (G' i)).
        * apply q'_in in I. destruct I as [(I & PE)|I].
          -- rewrite (DR (e + 1)); [|apply in_app_iff; auto]. destruct (in_dec Z.eq_dec i (ids SS)) as [J|J]; [lia|]. exfalso. apply J. apply in_map_iff. exists (e + 1, i). auto.
          -- rewrite (DR e); [|apply in_app_iff; auto]. destruct (in_dec Z.eq_dec i (ids SS)) as [J|J]; [|lia]. exfalso. apply (disj i J). apply in_map_iff. exists (e, i). auto.
        * intros x J. assert (x <> c) by (intros ->; inv N; auto). unfold H. replace (i =? c) with false by lia. replace (x =? c) with false by lia. destruct (G' i x); auto.
  Qed.

  (* a graph with the remaining degrees together with the new edges of c *)
  Lemma extend : forall (F F1 F' : Z -> Z -> bool),
    (forall u v, In u (c :: ids SS ++ ids RR) -> In v (c :: ids SS ++ ids RR) -> F u v = false) ->
    (forall u v, F1 u v = F u v || (u =? c) && (if in_dec Z.eq_dec v (ids SS) then true else false) || (v =? c) && (if in_dec Z.eq_dec u (ids SS) then true else false)) ->
    (forall u v, ~ (In u (ids q') /\ In v (ids q')) -> F' u v = F1 u v) ->
    (forall e i, In (e, i) q' -> cnt (F' i) (ids q') = e) ->
    (forall u v, ~ (In u (ids ((d, c) :: SS ++ RR)) /\ In v (ids ((d, c) :: SS ++ RR))) -> F' u v = F u v) /\
    (forall e i, In (e, i) ((d, c) :: SS ++ RR) -> cnt (F' i) (ids ((d, c) :: SS ++ RR)) = e).
  Proof.
    intros F F1 F' Z0 E1 E2 DQ. pose proof disj as DJ. cbn [map snd]. rewrite map_app. pose proof c_q' as CQ. pose proof cNot as (C1 & C2).
    assert (IN : forall x, In x (ids SS) -> In x (ids SS ++ ids RR)) by (intros; apply in_app_iff; auto).
    split.
    - intros u v NI. rewrite E2 by (intros (A & B); apply NI; split; right; apply q'_incl; auto). rewrite E1.
      destruct (Z.eqb_spec u c) as [->|D1], (Z.eqb_spec v c) as [->|D2]; cbn [andb]; rewrite ?orb_false_r; auto.
      + destruct (in_dec Z.eq_dec c (ids SS)); [contradiction|]. rewrite !orb_false_r. auto.
      + destruct (in_dec Z.eq_dec v (ids SS)); [|rewrite orb_false_r; auto]. exfalso. apply NI. split; [left; auto|right; auto].
      + destruct (in_dec Z.eq_dec u (ids SS)); [|rewrite orb_false_r; auto]. exfalso. apply NI. split; [right; auto|left; auto].
    - intros e i [Q|I].
      + inv Q. rewrite cnt_cons. replace (F' i i) with false by (rewrite E2 by tauto; rewrite E1, Z0 by (left; auto); destruct (in_dec Z.eq_dec i (ids SS)); [contradiction|rewrite !andb_false_r; auto]).
        rewrite cnt_app, (cnt_all _ (ids SS)), (cnt_zero _ (ids RR)); [rewrite map_length; lia| |].
        * intros x J. rewrite E2 by tauto. rewrite E1, Z0 by ((left; reflexivity) || (right; apply in_app_iff; auto)). rewrite Z.eqb_refl.
          destruct (in_dec Z.eq_dec x (ids SS)) as [K|K]; [exfalso; eapply DJ; eauto|]. destruct (in_dec Z.eq_dec i (ids SS)) as [K'|K']; [contradiction|]. rewrite !andb_false_r. auto.
        * intros x J. rewrite E2 by tauto. rewrite E1. rewrite Z.eqb_refl. destruct (in_dec Z.eq_dec x (ids SS)); [|contradiction]. cbn [andb]. rewrite orb_true_r. auto.
      + assert (II : In i (ids SS ++ ids RR)) by (rewrite <- map_app; apply in_map_iff; exists (e, i); auto).
        assert (IC : i <> c) by (intros ->; inv N; auto). rewrite cnt_cons. rewrite (E2 i c) by tauto. rewrite (E1 i c), Z0 by ((left; reflexivity) || (right; assumption)).
        replace (i =? c) with false by lia. rewrite Z.eqb_refl. cbn [andb orb].
        assert (OUT : forall x, In x (ids SS ++ ids RR) -> ~ (In i (ids q') /\ In x (ids q')) -> F' i x = false).
        { intros x J K. rewrite E2 by auto. rewrite E1, Z0 by (right; auto). assert (x <> c) by (intros ->; inv N; auto).
          replace (i =? c) with false by lia. replace (x =? c) with false by lia. auto. }
        destruct (in_dec Z.eq_dec i (ids q')) as [Q|Q].
        * rewrite <- (cnt_sub (F' i) (ids q')); [|apply q'_NoDup|apply NR|apply q'_incl|intros x J K; destruct (in_dec Z.eq_dec x (ids q')); auto; rewrite OUT in K; [discriminate|auto|tauto]].
          apply in_map_iff in Q as ([e' i'] & Q & I'). cbn [snd] in Q. subst i'. rewrite (DQ e' i I'). apply q'_in in I'.
          assert (NN : NoDup (ids (SS ++ RR))) by (rewrite map_app; apply NR).
          destruct I' as [(I' & PE)|I'].
          -- assert (e = e' + 1) by (eapply key_inj; [exact NN|exact I|apply in_app_iff; auto]). destruct (in_dec Z.eq_dec i (ids SS)) as [J|J]; [lia|]. exfalso. apply J. apply in_map_iff. exists (e' + 1, i). auto.
          -- assert (e = e') by (eapply key_inj; [exact NN|exact I|apply in_app_iff; auto]). destruct (in_dec Z.eq_dec i (ids SS)) as [J|J]; [|lia]. exfalso. apply (disj i J). apply in_map_iff. exists (e', i). auto.
        * pose proof (dropped i II Q) as X. rewrite cnt_zero by (intros x J; apply OUT; tauto).
          assert (NN : NoDup (ids (SS ++ RR))) by (rewrite map_app; apply NR).
          assert (e = 1) by (eapply key_inj; [exact NN|exact I|apply in_app_iff; auto]).
          destruct (in_dec Z.eq_dec i (ids SS)) as [J|J]; [lia|]. exfalso. apply J. apply in_map_iff. exists (1, i). auto.
  Qed.
End Step.
