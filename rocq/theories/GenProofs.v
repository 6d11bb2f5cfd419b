(* The edge store of graph_gen.h: the sets of pointers stay consistent with the edge list. *)
From Verif Require Import Base Tac GenModel GenSpec.
From Coq Require Import Sorted.

Lemma lxor_cancel : forall a b, Z.lxor (Z.lxor a b) b = a.
Proof. intros. rewrite Z.lxor_assoc, Z.lxor_nilpotent, Z.lxor_0_r. auto. Qed.
Lemma lxor_cancel_l : forall a b, Z.lxor (Z.lxor a b) a = b.
Proof. intros. rewrite (Z.lxor_comm a b). apply lxor_cancel. Qed.
Lemma lxor_inj : forall a b c, Z.lxor a b = Z.lxor a c -> b = c.
Proof. intros a b c H. rewrite <- (lxor_cancel_l a b), H. apply lxor_cancel_l. Qed.
Lemma samePairb_iff : forall dir u v x y, samePairb dir u v x y = true <-> samePair dir u v x y.
Proof.
  intros. unfold samePairb, samePair. rewrite orb_true_iff, !andb_true_iff, negb_true_iff, !Z.eqb_eq. tauto.
Qed.
Lemma samePair_refl : forall dir u v, samePair dir u v u v.
Proof. intros. left. auto. Qed.
Lemma samePair_sym : forall dir u v x y, samePair dir u v x y -> samePair dir x y u v.
Proof. unfold samePair. intros. intuition. Qed.
Lemma samePair_trans : forall dir u v x y a b, samePair dir u v x y -> samePair dir x y a b -> samePair dir u v a b.
Proof. unfold samePair. intros. intuition; subst; intuition. Qed.

Section Store.
  Variable E : Type.
  Variable dir : bool.
  Implicit Types (es : list (edge E)) (e f : edge E) (s : list nat) (g : graph E).

  Definition keyOf es (i : nat) : Z := match nth_error es i with Some e => ekey e | None => 0 end.
  Definition valid es (i : nat) : Prop := (i < length es)%nat.
  Definition sorted es s : Prop := StronglySorted Z.lt (map (keyOf es) s).

  Lemma deref_valid : forall es i, valid es i -> exists e, nth_error es i = Some e /\ deref es i = Ok e /\ keyOf es i = ekey e.
  Proof.
    intros es i H. unfold deref, keyOf. destruct (nth_error es i) as [e|] eqn:Q; [exists e; auto|]. apply nth_error_None in Q. unfold valid in H. lia.
  Qed.
  Lemma setFind_spec : forall es k s, Forall (valid es) s -> exists r, setFind es k s = Ok r /\
    match r with Some i => In i s /\ keyOf es i = k | None => forall i, In i s -> keyOf es i <> k end.
  Proof.
    induction 1 as [|i s V F IH]; cbn [setFind]; [exists None; split; auto; intros i []|]. destruct IH as (r & -> & R).
    destruct (deref_valid es i V) as (e & _ & -> & K). cbn [bind]. destruct (ekey e =? k) eqn:Q.
    - exists (Some i). split; auto. split; [left; auto|lia].
    - exists r. split; auto. destruct r as [j|]; [destruct R; split; auto; right; auto|].
      intros j [<-|J]; [lia|auto].
  Qed.
  Lemma setEmplace_spec : forall es i k s, Forall (valid es) s -> sorted es s -> keyOf es i = k -> (forall j, In j s -> keyOf es j <> k) ->
    exists s', setEmplace es k i s = Ok (s', i) /\ sorted es s' /\ forall x, In x s' <-> x = i \/ In x s.
  Proof.
    intros es i k s F SO K D. induction F as [|j s V F IH]; cbn [setEmplace].
    - exists [i]. split; auto. split; [repeat constructor|]. intro x. simpl. intuition.
    - destruct (deref_valid es j V) as (e & _ & -> & KJ). cbn [bind]. pose proof (D j (or_introl eq_refl)) as NJ. inversion SO as [|? ? SO' FO]; subst.
      destruct (keyOf es i =? ekey e) eqn:Q1; [lia|]. destruct (keyOf es i <? ekey e) eqn:Q2.
      + exists (i :: j :: s). split; auto. split; [|intro x; simpl; intuition]. unfold sorted. cbn [map]. constructor; auto.
        constructor; [lia|]. eapply Forall_impl; [|exact FO]. intros a A. simpl in A. lia.
      + destruct IH as (s' & -> & SS & M); auto. { intros x I. apply D. right. auto. }
        cbn [bind]. exists (j :: s'). split; auto. split.
        * unfold sorted. cbn [map]. constructor; auto. apply Forall_forall. intros a A. apply in_map_iff in A as (x & <- & I).
          apply M in I as [->|I]; [lia|]. rewrite Forall_forall in FO. apply FO. apply in_map; auto.
        * intro x. simpl. rewrite M. intuition.
  Qed.
  Lemma setErase_spec : forall es k s, Forall (valid es) s -> sorted es s ->
    exists s', setErase es k s = Ok s' /\ sorted es s' /\ forall x, In x s' <-> In x s /\ keyOf es x <> k.
  Proof.
    intros es k s F SO. induction F as [|j s V F IH]; cbn [setErase].
    - exists []. split; auto. split; [constructor|]. intro x. simpl. tauto.
    - destruct (deref_valid es j V) as (e & _ & -> & KJ). cbn [bind]. inversion SO as [|? ? SO' FO]; subst.
      destruct (ekey e =? k) eqn:Q.
      + exists s. split; auto. split; auto. intro x. simpl. rewrite Forall_forall in FO. split.
        * intro I. split; auto. specialize (FO _ (in_map (keyOf es) s x I)). lia.
        * intros [[<-|I] N]; auto. lia.
      + destruct IH as (s' & -> & SS & M); auto. cbn [bind]. exists (j :: s'). split; auto. split.
        * unfold sorted. cbn [map]. constructor; auto. apply Forall_forall. intros a A. apply in_map_iff in A as (x & <- & I).
          apply M in I as [I _]. rewrite Forall_forall in FO. apply FO. apply in_map; auto.
        * intro x. simpl. rewrite M. intuition. subst. lia.
  Qed.

  (* ---- all sets at once: P v i = the set of v holds i ---- *)
  Definition adjOk es (a : list (list nat)) (m : Z) (P : Z -> nat -> Prop) : Prop :=
    (forall v i, P v i -> valid es i) /\
    forall k s, nth_error a k = Some s -> sorted es s /\ forall i, In i s <-> P (m + Z.of_nat k) i.
  Definition inRange (a : list (list nat)) (m v : Z) : Prop := m <= v < m + alen a.

  Lemma adjOk_ext : forall es a m (P Q : Z -> nat -> Prop), (forall v i, inRange a m v -> (P v i <-> Q v i)) -> (forall v i, Q v i -> valid es i) ->
    adjOk es a m P -> adjOk es a m Q.
  Proof.
    intros es a m P Q X VQ [V H]. split; auto. intros k s N. destruct (H k s N) as [SO I]. split; auto. intro i. rewrite I. apply X.
    assert (k < length a)%nat by (apply nth_error_Some; congruence). unfold inRange, alen. lia.
  Qed.
  Lemma adjOk_es : forall es es' a m (P : Z -> nat -> Prop), (forall v i, P v i -> nth_error es' i = nth_error es i) -> adjOk es a m P -> adjOk es' a m P.
  Proof.
    intros es es' a m P X [V H]. split.
    - intros v i p. unfold valid. apply nth_error_Some. rewrite (X v i p). apply nth_error_Some. exact (V v i p).
    - intros k s N. destruct (H k s N) as [SO I]. split; auto. unfold sorted in *.
      erewrite map_ext_in; [exact SO|]. intros i J. unfold keyOf. rewrite (X (m + Z.of_nat k) i); [auto|apply I; auto].
  Qed.
  Lemma adj_get : forall es a m P v, adjOk es a m P -> inRange a m v ->
    exists s, aget a (v - m) = Ok s /\ sorted es s /\ Forall (valid es) s /\ forall i, In i s <-> P v i.
  Proof.
    intros es a m P v [V H] R. unfold inRange, alen in R. destruct (nth_error a (Z.to_nat (v - m))) as [s|] eqn:N.
    - exists s. unfold aget. replace (v - m <? 0) with false by lia. rewrite N. split; auto. destruct (H _ _ N) as [SO I].
      replace (m + Z.of_nat (Z.to_nat (v - m))) with v in I by lia. split; auto. split; auto.
      apply Forall_forall. intros i J. apply (V v). apply I. auto.
    - apply nth_error_None in N. lia.
  Qed.
  Lemma adj_set : forall es a m P Q v s, adjOk es a m P -> inRange a m v -> sorted es s -> (forall i, In i s <-> Q v i) ->
    (forall w i, w <> v -> (Q w i <-> P w i)) -> (forall w i, Q w i -> valid es i) ->
    exists a', aset a (v - m) s = Ok a' /\ adjOk es a' m Q /\ alen a' = alen a.
  Proof.
    intros es a m P Q v s [V H] R SO I X VQ. unfold inRange in R. rewrite aset_Ok by lia. eexists. split; [reflexivity|].
    split; [|unfold alen; rewrite upd_length; auto]. split; auto. intros k t N.
    destruct (Nat.eq_dec (Z.to_nat (v - m)) k) as [<-|D].
    - rewrite nth_error_upd_same in N by (unfold alen in R; lia). inv N. split; auto. intro i.
      replace (m + Z.of_nat (Z.to_nat (v - m))) with v by lia. auto.
    - rewrite nth_error_upd_other in N by auto. destruct (H k t N) as [S1 I1]. split; auto. intro i. rewrite I1. symmetry. apply X. lia.
  Qed.

  (* one emplace, one erase *)
  Lemma adj_emplace : forall es a m P v i, adjOk es a m P -> inRange a m v -> valid es i ->
    (forall x, P v x -> keyOf es x <> keyOf es i) ->
    exists s s' a', aget a (v - m) = Ok s /\ setEmplace es (keyOf es i) i s = Ok (s', i) /\ aset a (v - m) s' = Ok a' /\
      adjOk es a' m (fun w x => P w x \/ (w = v /\ x = i)) /\ alen a' = alen a.
  Proof.
    intros es a m P v i A R VI D. destruct (adj_get _ _ _ _ _ A R) as (s & G & SO & VS & I).
    destruct (setEmplace_spec es i (keyOf es i) s VS SO eq_refl) as (s' & EM & SO' & I'). { intros j J. apply D. apply I. auto. }
    destruct (adj_set es a m P (fun w x => P w x \/ (w = v /\ x = i)) v s' A R SO') as (a' & AS & A' & L).
    - intro x. rewrite I', I. intuition.
    - intros w x N. intuition.
    - intros w x [p|[-> ->]]; auto. destruct A as [V _]. eauto.
    - exists s, s', a'. auto.
  Qed.
  Lemma adj_erase : forall g P v k, adjOk (edges g) (adj g) (minId g) P -> inRange (adj g) (minId g) v ->
    exists a', eraseAt g v k = Ok (mkGraph a' (edges g) (minId g)) /\
      adjOk (edges g) a' (minId g) (fun w x => P w x /\ ~ (w = v /\ keyOf (edges g) x = k)) /\ alen a' = alen (adj g).
  Proof.
    intros g P v k A R. destruct (adj_get _ _ _ _ _ A R) as (s & G & SO & VS & I).
    destruct (setErase_spec (edges g) k s VS SO) as (s' & ER & SO' & I').
    destruct (adj_set _ _ _ P (fun w x => P w x /\ ~ (w = v /\ keyOf (edges g) x = k)) v s' A R SO') as (a' & AS & A' & L).
    - intro x. rewrite I', I. intuition.
    - intros w x N. intuition.
    - intros w x [p _]. destruct A as [V _]. eauto.
    - exists a'. unfold eraseAt. rewrite G. cbn [bind]. rewrite ER. cbn [bind]. rewrite AS. auto.
  Qed.

  (* ---- edges ---- *)
  Definition incident e (v : Z) : Prop := efrom e = v \/ (dir = false /\ eto e = v).
  Definition joins e (u v : Z) : Prop := samePair dir (efrom e) (eto e) u v.
  Definition okEdge (a : list (list nat)) (m : Z) e : Prop :=
    inRange a m (efrom e) /\ inRange a m (eto e) /\ efrom e <> eto e.

  Lemma ekey_ends : forall e, ekey e = Z.lxor (efrom e) (eto e).
  Proof. intro e. unfold efrom. rewrite lxor_cancel. auto. Qed.
  Lemma efrom_mk : forall u v (d : E), efrom (mkEdge (Z.lxor u v) v d) = u.
  Proof. intros. unfold efrom. simpl. apply lxor_cancel. Qed.
  Lemma joins_key : forall e u v, incident e u -> (ekey e = Z.lxor u v <-> joins e u v).
  Proof.
    intros e u v I. rewrite ekey_ends. unfold joins, samePair. split.
    - intro K. destruct I as [<-|[D <-]].
      + apply lxor_inj in K. auto.
      + rewrite Z.lxor_comm in K. apply lxor_inj in K. auto.
    - intros [[-> ->]|(_ & -> & ->)]; [auto|apply Z.lxor_comm].
  Qed.
  Lemma joins_incident : forall e u v, joins e u v -> incident e u.
  Proof. unfold joins, samePair, incident. intros e u v [[? ?]|(? & ? & ?)]; auto. Qed.
  Lemma same_key : forall e f v, incident e v -> incident f v -> ekey e = ekey f -> samePair dir (efrom e) (eto e) (efrom f) (eto f).
  Proof.
    intros e f v I J K. assert (X : exists w, joins f v w).
    { destruct J as [<-|[D <-]]; [exists (eto f); left; auto|exists (efrom f); right; auto]. }
    destruct X as (w & W). assert (joins e v w) by (apply joins_key; auto; rewrite K; apply joins_key; auto).
    eapply samePair_trans; [exact H|]. apply samePair_sym. exact W.
  Qed.
  Lemma incident_range : forall a m e v, okEdge a m e -> incident e v -> inRange a m v.
  Proof. intros a m e v (A & B & _) [<-|[_ <-]]; auto. Qed.

  (* live = the pointers that are in the sets *)
  Definition liveAdj es (live : nat -> Prop) (v : Z) (i : nat) : Prop :=
    live i /\ exists e, nth_error es i = Some e /\ incident e v.
  Definition distinctEdges es (live : nat -> Prop) : Prop :=
    forall i j e f, live i -> live j -> nth_error es i = Some e -> nth_error es j = Some f ->
      samePair dir (efrom e) (eto e) (efrom f) (eto f) -> i = j.

  Lemma nth_valid : forall es i e, nth_error es i = Some e -> valid es i.
  Proof. intros. unfold valid. apply nth_error_Some. congruence. Qed.
  Lemma nth_keyOf : forall es i e, nth_error es i = Some e -> keyOf es i = ekey e.
  Proof. intros. unfold keyOf. rewrite H. auto. Qed.
  Lemma nth_deref : forall es i e, nth_error es i = Some e -> deref es i = Ok e.
  Proof. intros. unfold deref. rewrite H. auto. Qed.
  Lemma liveAdj_valid : forall es live v i, liveAdj es live v i -> valid es i.
  Proof. intros es live v i (_ & e & N & _). eapply nth_valid; eauto. Qed.

  Lemma addInternal_ok : forall g live i e, adjOk (edges g) (adj g) (minId g) (liveAdj (edges g) live) ->
    ~ live i -> nth_error (edges g) i = Some e -> okEdge (adj g) (minId g) e ->
    distinctEdges (edges g) (fun x => live x \/ x = i) ->
    exists a', addInternal dir g i = Ok (mkGraph a' (edges g) (minId g), i) /\ alen a' = alen (adj g) /\
      adjOk (edges g) a' (minId g) (liveAdj (edges g) (fun x => live x \/ x = i)).
  Proof.
    intros g live i e A NL N (RF & RT & NE) D. pose proof (nth_valid _ _ _ N) as V. pose proof (nth_keyOf _ _ _ N) as K.
    assert (KEY : forall v x, incident e v -> liveAdj (edges g) live v x -> keyOf (edges g) x <> keyOf (edges g) i).
    { intros v x I (LX & f & NX & IX) Q. rewrite K, (nth_keyOf _ _ _ NX) in Q. apply NL.
      replace i with x; auto. apply (D x i f e); auto. apply (same_key f e v); auto. }
    unfold addInternal. rewrite (nth_deref _ _ _ N). cbn [bind]. rewrite <- K.
    assert (ST1 : exists a1, (if negb dir && negb (efrom e =? eto e) then
        let! s := aget (adj g) (eto e - minId g) in
        let! (s, _) := setEmplace (edges g) (keyOf (edges g) i) i s in
        aset (adj g) (eto e - minId g) s else Ok (adj g)) = Ok a1 /\ alen a1 = alen (adj g) /\
        adjOk (edges g) a1 (minId g) (fun w x => liveAdj (edges g) live w x \/ (dir = false /\ w = eto e /\ x = i))).
    { replace (efrom e =? eto e) with false by lia. destruct dir eqn:DIR; cbn [negb andb].
      - exists (adj g). split; auto. split; auto. eapply adjOk_ext; [| |exact A].
        + intros. intuition; discriminate.
        + intros v x [L|[? _]]; [eapply liveAdj_valid; eauto|discriminate].
      - destruct (adj_emplace _ _ _ _ (eto e) i A RT V) as (s & s' & a' & G & EM & AS & A' & L).
        { intros x. apply KEY. right. auto. }
        exists a'. rewrite G. cbn [bind]. rewrite EM. cbn [bind]. rewrite AS. split; auto. split; auto. eapply adjOk_ext; [| |exact A'].
        + intros. intuition.
        + intros v x [L0|(_ & _ & ->)]; [eapply liveAdj_valid; eauto|auto]. }
    destruct ST1 as (a1 & -> & L1 & A1). cbn [bind].
    assert (RF1 : inRange a1 (minId g) (efrom e)) by (unfold inRange in *; lia).
    destruct (adj_emplace _ _ _ _ (efrom e) i A1 RF1 V) as (s & s' & a' & G & EM & AS & A' & L).
    { intros x [Q|(_ & Q & _)]; [apply (KEY (efrom e)); [left; auto|auto]|congruence]. }
    rewrite G. cbn [bind]. rewrite EM. cbn [bind]. rewrite AS. cbn [bind]. exists a'. split; auto. split; [lia|].
    eapply adjOk_ext; [| |exact A'].
    - intros v x _. unfold liveAdj. split.
      + intros [[(LX & f & NX & IX)|(DD & -> & ->)]|[-> ->]].
        * split; auto. eauto.
        * split; auto. exists e. split; auto. right. auto.
        * split; auto. exists e. split; auto. left. auto.
      + intros ([LX| ->] & f & NX & IX).
        * left. left. split; eauto.
        * rewrite N in NX. inv NX. destruct IX as [<-|[DD <-]]; auto.
    - intros v x. apply liveAdj_valid.
  Qed.

  (* ---- well-formed graphs ---- *)
  Definition wf g : Prop :=
    Forall (okEdge (adj g) (minId g)) (edges g) /\ distinctEdges (edges g) (valid (edges g)) /\
    adjOk (edges g) (adj g) (minId g) (liveAdj (edges g) (valid (edges g))).
  Definition repr g (M : emap E) : Prop :=
    forall u v d, M u v = Some d <-> exists e, In e (edges g) /\ joins e u v /\ edat e = d.
  Definition nodes g (lo hi : Z) : Prop := minId g = lo /\ lo + nodeCount g = hi.

  Lemma okEdge_adj : forall a a' m e, alen a' = alen a -> okEdge a m e -> okEdge a' m e.
  Proof. intros a a' m e L. unfold okEdge, inRange. rewrite L. auto. Qed.
  Lemma okEdges_adj : forall a a' m es, alen a' = alen a -> Forall (okEdge a m) es -> Forall (okEdge a' m) es.
  Proof. intros a a' m es L F. eapply Forall_impl; [|exact F]. intro. apply okEdge_adj; auto. Qed.

  Lemma assertNode_ok : forall g v, inRange (adj g) (minId g) v -> assertNode g v = Ok tt.
  Proof.
    intros g v R. unfold assertNode, nodeCount. unfold inRange in R. replace (v <? minId g) with false by lia.
    replace (minId g + alen (adj g) <=? v) with false by lia. reflexivity.
  Qed.
  Lemma assertNode_throw : forall g v, ~ inRange (adj g) (minId g) v -> assertNode g v = Throw.
  Proof.
    intros g v R. unfold assertNode, nodeCount. unfold inRange in R.
    replace ((v <? minId g) || (minId g + alen (adj g) <=? v)) with true by lia. reflexivity.
  Qed.

  Lemma lookup_ok : forall g u v, wf g -> inRange (adj g) (minId g) u -> exists r, lookupKey g u v = Ok r /\
    match r with
    | Some i => exists e, nth_error (edges g) i = Some e /\ joins e u v
    | None => forall e, In e (edges g) -> ~ joins e u v
    end.
  Proof.
    intros g u v (_ & _ & A) R. unfold lookupKey. destruct (adj_get _ _ _ _ _ A R) as (s & -> & _ & V & I). cbn [bind].
    destruct (setFind_spec (edges g) (Z.lxor u v) s V) as (r & -> & H). exists r. split; auto. destruct r as [i|].
    - destruct H as [J K]. apply I in J as (_ & e & N & IN). exists e. split; auto. apply joins_key; auto. rewrite <- K. symmetry. apply nth_keyOf. auto.
    - intros e J Q. apply In_nth_error in J as (i & N). pose proof (joins_incident _ _ _ Q) as IN. apply (H i).
      + apply I. split; [eapply nth_valid; eauto|eauto].
      + rewrite (nth_keyOf _ _ _ N). apply joins_key; auto.
  Qed.
  Lemma wf_unique : forall g i j e f u v, wf g -> nth_error (edges g) i = Some e -> nth_error (edges g) j = Some f ->
    joins e u v -> joins f u v -> i = j.
  Proof.
    intros g i j e f u v (_ & D & _) N1 N2 J1 J2. apply (D i j e f); eauto using nth_valid.
    eapply samePair_trans; [exact J1|]. apply samePair_sym. exact J2.
  Qed.
  Lemma repr_lookup : forall g M u v r, wf g -> repr g M ->
    match r with
    | Some i => exists e, nth_error (edges g) i = Some e /\ joins e u v
    | None => forall e, In e (edges g) -> ~ joins e u v
    end -> match r with Some i => exists e, nth_error (edges g) i = Some e /\ M u v = Some (edat e) | None => M u v = None end.
  Proof.
    intros g M u v [i|] W R H.
    - destruct H as (e & N & J). exists e. split; auto. apply R. exists e. split; auto. eapply nth_error_In; eauto.
    - destruct (M u v) as [d|] eqn:Q; auto. apply R in Q as (e & I & J & _). exfalso. eapply H; eauto.
  Qed.

  Lemma wf_findEdge : forall g M u v, wf g -> repr g M -> inRange (adj g) (minId g) u -> inRange (adj g) (minId g) v ->
    findEdge g u v = Ok (M u v).
  Proof.
    intros g M u v W R RU RV. unfold findEdge. rewrite !assertNode_ok by auto. cbn [bind].
    destruct (lookup_ok g u v W RU) as (r & -> & H). cbn [bind]. apply (repr_lookup g M u v r W R) in H. destruct r as [i|].
    - destruct H as (e & N & ->). rewrite (nth_deref _ _ _ N). reflexivity.
    - rewrite H. auto.
  Qed.
  Lemma wf_hasEdge : forall g M u v, wf g -> repr g M -> inRange (adj g) (minId g) u -> inRange (adj g) (minId g) v ->
    hasEdge g u v = Ok (isEdge M u v).
  Proof.
    intros g M u v W R RU RV. unfold hasEdge, isEdge. rewrite !assertNode_ok by auto. cbn [bind].
    destruct (lookup_ok g u v W RU) as (r & -> & H). cbn [bind]. apply (repr_lookup g M u v r W R) in H. destruct r as [i|].
    - destruct H as (e & N & ->). reflexivity.
    - rewrite H. auto.
  Qed.

  Lemma distinct_app : forall es f, distinctEdges es (valid es) -> (forall e, In e es -> ~ samePair dir (efrom e) (eto e) (efrom f) (eto f)) ->
    distinctEdges (es ++ [f]) (valid (es ++ [f])).
  Proof.
    intros es f D X i j e e' _ _ N1 N2 SP.
    assert (SP' := samePair_sym _ _ _ _ _ SP).
    destruct (Nat.lt_ge_cases i (length es)) as [LI|LI], (Nat.lt_ge_cases j (length es)) as [LJ|LJ].
    - rewrite nth_error_app1 in N1, N2 by auto. eapply D; eauto.
    - rewrite nth_error_app1 in N1 by auto. rewrite nth_error_app2 in N2 by auto. destruct (j - length es)%nat as [|k]; simpl in N2; [|destruct k; discriminate].
      inv N2. exfalso. apply (X e); auto. eapply nth_error_In; eauto.
    - rewrite nth_error_app2 in N1 by auto. rewrite nth_error_app1 in N2 by auto. destruct (i - length es)%nat as [|k]; simpl in N1; [|destruct k; discriminate].
      inv N1. exfalso. apply (X e'); auto. eapply nth_error_In; eauto.
    - rewrite nth_error_app2 in N1, N2 by auto. destruct (i - length es)%nat as [|k] eqn:E1; simpl in N1; [|destruct k; discriminate].
      destruct (j - length es)%nat as [|k] eqn:E2; simpl in N2; [|destruct k; discriminate]. lia.
  Qed.

  Lemma addEdge_ok : forall g M u v d, wf g -> repr g M -> inRange (adj g) (minId g) u -> inRange (adj g) (minId g) v -> u <> v ->
    exists g', addEdge dir g u v d = Ok g' /\ wf g' /\ repr g' (put dir M u v (Some d)) /\
      minId g' = minId g /\ nodeCount g' = nodeCount g.
  Proof.
    intros g M u v d W R RU RV NE. unfold addEdge. rewrite !assertNode_ok by auto. cbn [bind]. replace (u =? v) with false by lia. cbn [negb judgeAssert bind].
    destruct (lookup_ok g u v W RU) as (r & -> & H). cbn [bind]. pose proof W as (F & D & A). destruct r as [i|].
    - destruct H as (e & N & J). rewrite (nth_deref _ _ _ N). cbn [bind]. eexists. split; [reflexivity|].
      set (e' := mkEdge (ekey e) (eto e) d). assert (EF : efrom e' = efrom e) by reflexivity. assert (ET : eto e' = eto e) by reflexivity.
      pose proof (nth_valid _ _ _ N) as VI.
      assert (NU : forall j x, nth_error (upd (edges g) i e') j = Some x -> exists y, nth_error (edges g) j = Some y /\ efrom x = efrom y /\ eto x = eto y /\ ekey x = ekey y /\ (j <> i -> x = y)).
      { intros j x Q. destruct (Nat.eq_dec i j) as [<-|NJ].
        - rewrite nth_error_upd_same in Q by auto. inv Q. exists e. split; auto. split; auto. split; auto. split; auto. intro; congruence.
        - rewrite nth_error_upd_other in Q by auto. exists x. repeat split; auto. }
      assert (NV : forall j y, nth_error (edges g) j = Some y -> exists x, nth_error (upd (edges g) i e') j = Some x /\ efrom x = efrom y /\ eto x = eto y).
      { intros j y Q. destruct (Nat.eq_dec i j) as [<-|NJ].
        - rewrite nth_error_upd_same by auto. rewrite N in Q. inv Q. exists e'. auto.
        - rewrite nth_error_upd_other by auto. exists y. auto. }
      split; [|split; [|split; reflexivity]].
      + split; [|split].
        * cbn [edges adj minId]. apply Forall_forall. intros x I. apply In_nth_error in I as (j & I). destruct (NU j x I) as (y & Y & Q1 & Q2 & _).
          rewrite Forall_forall in F. unfold okEdge. rewrite Q1, Q2. apply F. eapply nth_error_In; eauto.
        * cbn [edges]. intros a b x y _ _ X Y SP. destruct (NU a x X) as (x' & X' & P1 & P2 & _). destruct (NU b y Y) as (y' & Y' & Q1 & Q2 & _).
          rewrite P1, P2, Q1, Q2 in SP. eapply D; eauto using nth_valid.
        * cbn [edges adj minId]. destruct A as [V A]. split; [intros w x; apply liveAdj_valid|]. intros k s Q. destruct (A k s Q) as [SO I]. split.
          { unfold sorted in *. erewrite map_ext_in; [exact SO|]. intros x X. unfold keyOf.
            destruct (nth_error (upd (edges g) i e') x) as [y|] eqn:Y.
            - destruct (NU x y Y) as (z & -> & _ & _ & K & _). auto.
            - apply nth_error_None in Y. rewrite upd_length in Y. apply nth_error_None in Y. rewrite Y. auto. }
          { intro x. rewrite I. unfold liveAdj. split.
            - intros (L & y & Y & IY). destruct (NV x y Y) as (z & Z1 & Z2 & Z3). split; [eapply nth_valid; eauto|]. exists z. split; auto.
              unfold incident. rewrite Z2, Z3. auto.
            - intros (L & z & Z1 & IZ). destruct (NU x z Z1) as (y & Y & Q1 & Q2 & _). split; [eapply nth_valid; eauto|]. exists y. split; auto.
              unfold incident. rewrite <- Q1, <- Q2. auto. }
      + intros x y d'. cbn [edges]. unfold put. destruct (samePairb dir u v x y) eqn:SP.
        * apply samePairb_iff in SP. split.
          { intro Q. inv Q. exists e'. split; [|split; auto].
            - eapply nth_error_In. apply (nth_error_upd_same _ (edges g) i e'). auto.
            - unfold joins. rewrite EF, ET. eapply samePair_trans; [exact J|auto]. }
          { intros (z & I & JZ & <-). apply In_nth_error in I as (j & I). destruct (NU j z I) as (y' & Y & Q1 & Q2 & _ & _).
            assert (j = i). { eapply (wf_unique g j i y' e u v); eauto. unfold joins in *. rewrite <- Q1, <- Q2. eapply samePair_trans; [exact JZ|]. apply samePair_sym. auto. }
            subst j. rewrite nth_error_upd_same in I by auto. inv I. auto. }
        * assert (NS : ~ samePair dir u v x y) by (rewrite <- samePairb_iff, SP; discriminate). rewrite (R x y d'). split.
          { intros (z & I & JZ & ZD). exists z. split; auto. apply In_nth_error in I as (j & I). destruct (Nat.eq_dec j i) as [->|NJ].
            - rewrite N in I. inv I. exfalso. apply NS. eapply samePair_trans; [apply samePair_sym; exact J|exact JZ].
            - apply (nth_error_In _ j). rewrite nth_error_upd_other; auto. }
          { intros (z & I & JZ & ZD). exists z. split; auto. apply In_nth_error in I as (j & I). destruct (Nat.eq_dec i j) as [<-|NJ].
            - rewrite nth_error_upd_same in I by auto. inv I. exfalso. apply NS. unfold joins in JZ. rewrite EF, ET in JZ. eapply samePair_trans; [apply samePair_sym; exact J|exact JZ].
            - rewrite nth_error_upd_other in I by auto. eapply nth_error_In; eauto. }
    - set (f := mkEdge (Z.lxor u v) v d). set (g1 := emplaceEdge g u v d).
      assert (FF : efrom f = u) by apply efrom_mk. assert (FT : eto f = v) by reflexivity.
      assert (E1 : edges g1 = edges g ++ [f]) by reflexivity.
      assert (LEN : (length (edges g1) - 1)%nat = length (edges g)) by (rewrite E1, app_length; simpl; lia). rewrite LEN.
      assert (NF : nth_error (edges g1) (length (edges g)) = Some f) by (rewrite E1, nth_error_app2, Nat.sub_diag by lia; auto).
      assert (OK : okEdge (adj g) (minId g) f) by (unfold okEdge; rewrite FF, FT; auto).
      assert (DD : distinctEdges (edges g1) (valid (edges g1))).
      { rewrite E1. apply distinct_app; auto. intros e I. rewrite FF, FT. apply H. auto. }
      assert (LV : forall x, valid (edges g) x \/ x = length (edges g) <-> valid (edges g1) x).
      { intro x. unfold valid. rewrite E1, app_length. simpl. lia. }
      destruct (addInternal_ok g1 (valid (edges g)) (length (edges g)) f) as (a' & -> & L & A').
      + cbn [adj minId g1 emplaceEdge]. rewrite E1. eapply adjOk_ext; [| |eapply adjOk_es; [|exact A]].
        * intros w x _. unfold liveAdj. split; intros (VX & e & NX & IX); split; auto; exists e; split; auto; rewrite nth_error_app1 in *; auto.
        * intros w x. apply liveAdj_valid.
        * intros w x (VX & _). rewrite nth_error_app1; auto.
      + unfold valid. lia.
      + exact NF.
      + exact OK.
      + intros x y p q X Y. apply DD; apply LV; auto.
      + cbn [bind]. exists (mkGraph a' (edges g1) (minId g)). split; [reflexivity|]. split; [|split; [|split; [reflexivity|exact L]]].
        * split; [|split].
          { cbn [edges adj minId]. rewrite E1. apply Forall_app. split; [|constructor; auto]; [eapply okEdges_adj; [|exact F]; exact L|eapply okEdge_adj; [|exact OK]; exact L]. }
          { exact DD. }
          { cbn [edges adj minId]. eapply adjOk_ext; [| |exact A'].
            - intros w x _. unfold liveAdj. rewrite LV. tauto.
            - intros w x. apply liveAdj_valid. }
        * intros x y d'. cbn [edges]. rewrite E1. unfold put. destruct (samePairb dir u v x y) eqn:SP.
          { apply samePairb_iff in SP. split.
            - intro Q. injection Q as Q. subst d'. exists f. split; [apply in_or_app; right; left; auto|]. split; auto. unfold joins. rewrite FF, FT. auto.
            - intros (z & I & JZ & <-). apply in_app_or in I as [I|[Q|[]]]; [|subst z; auto]. exfalso. apply (H z I).
              unfold joins in *. eapply samePair_trans; [exact JZ|]. apply samePair_sym. auto. }
          { assert (NS : ~ samePair dir u v x y) by (rewrite <- samePairb_iff, SP; discriminate). rewrite (R x y d'). split.
            - intros (z & I & JZ & ZD). exists z. split; auto. apply in_or_app. auto.
            - intros (z & I & JZ & ZD). apply in_app_or in I as [I|[Q|[]]]; [eauto|]. subst z. exfalso. apply NS. unfold joins in JZ. rewrite FF, FT in JZ. auto. }
  Qed.
End Store.
