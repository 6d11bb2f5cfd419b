(* Erasing edges, views and client programs of the edge store. *)
From Verif Require Import Base Tac GenModel GenSpec GenProofs.
From Coq Require Import Sorted.

Section Store.
  Variable E : Type.
  Variable dir : bool.
  Implicit Types (es : list (edge E)) (e f : edge E) (s : list nat) (g : graph E).
  Notation joins := (joins E dir).
  Notation incident := (incident E dir).
  Notation liveAdj := (liveAdj E dir).
  Notation distinctEdges := (distinctEdges E dir).
  Notation wf := (wf E dir).
  Notation repr := (repr E dir).
  Notation valid := (valid E).
  Notation keyOf := (keyOf E).
  Notation adjOk := (adjOk E).
  Notation okEdge := (okEdge E).

  (* erase the pointer i from the sets of its ends p, q *)
  Definition eraseBoth g (p q k : Z) : outcome (graph E) :=
    let! g := eraseAt g p k in if dir then Ok g else eraseAt g q k.
  Lemma eraseBoth_ok : forall g (live : nat -> Prop) i e p q, (forall x, live x -> valid (edges g) x) ->
    distinctEdges (edges g) (valid (edges g)) -> adjOk (edges g) (adj g) (minId g) (liveAdj (edges g) live) ->
    nth_error (edges g) i = Some e -> okEdge (adj g) (minId g) e -> joins e p q ->
    exists a', eraseBoth g p q (ekey e) = Ok (mkGraph a' (edges g) (minId g)) /\ alen a' = alen (adj g) /\
      adjOk (edges g) a' (minId g) (liveAdj (edges g) (fun x => live x /\ x <> i)).
  Proof.
    intros g live i e p q LV D A N OK J. unfold eraseBoth.
    assert (RP : inRange (adj g) (minId g) p) by (eapply incident_range; [exact OK|eapply joins_incident; eauto]).
    assert (KE : forall x w, liveAdj (edges g) live w x -> incident e w -> keyOf (edges g) x = ekey e -> x = i).
    { intros x w (LX & f & NX & IX) IE K. apply (D x i f e); eauto using nth_valid. rewrite (nth_keyOf _ _ _ _ NX) in K.
      eapply same_key; eauto. }
    destruct (adj_erase E g _ p (ekey e) A RP) as (a1 & -> & A1 & L1). cbn [bind].
    assert (IP : incident e p) by (eapply joins_incident; eauto). destruct dir eqn:DIR.
    - exists a1. split; auto. split; auto. eapply adjOk_ext; [| |exact A1].
      + intros w x _. split.
        * intros [(LX & f & NX & IX) NW]. split; [|eauto]. split; auto. intros ->. rewrite N in NX. inv NX. apply NW.
          split; [|apply nth_keyOf; auto]. destruct J as [[<- <-]|[? _]]; [|discriminate]. destruct IX as [<-|[? _]]; [auto|discriminate].
        * intros ([LX NX] & R). split; [split; auto|]. intros [-> K]. apply NX. apply (KE x p); auto. split; auto.
      + intros w x. apply liveAdj_valid.
    - clear DIR. assert (IQ : GenProofs.incident E false e q) by (destruct J as [[_ <-]|(_ & <- & _)]; [right; auto|left; auto]).
      assert (RQ : inRange a1 (minId g) q) by (unfold inRange in *; rewrite L1; eapply incident_range; [exact OK|exact IQ]).
      destruct (adj_erase E (mkGraph a1 (edges g) (minId g)) _ q (ekey e) A1 RQ) as (a2 & -> & A2 & L2). cbn [edges adj minId] in *.
      exists a2. split; auto. split; [lia|]. eapply adjOk_ext; [| |exact A2].
      + intros w x _. split.
        * intros [[(LX & f & NX & IX) NW] NW2]. split; [|eauto]. split; auto. intros ->. rewrite N in NX. inv NX.
          assert (K : keyOf (edges g) i = ekey f) by (apply nth_keyOf; auto).
          assert (w = p \/ w = q). { unfold GenProofs.incident, GenProofs.joins, samePair in *. intuition; subst; auto. } destruct H; subst; tauto.
        * intros ([LX NX] & R). assert (LL : GenProofs.liveAdj E false (edges g) live w x) by (split; auto). split; [split; auto|].
          -- intros [-> K]. apply NX. apply (KE x p); auto.
          -- intros [-> K]. apply NX. apply (KE x q); auto.
      + intros w x. apply liveAdj_valid.
  Qed.

  Definition swapped es (a b : nat) ea eb : list (edge E) := firstn b (upd (upd es a eb) b ea).
  Lemma nth_error_firstn : forall A (l : list A) n i, nth_error (firstn n l) i = if (i <? n)%nat then nth_error l i else None.
  Proof.
    induction l as [|x l IH]; intros n i; [rewrite firstn_nil; destruct i; destruct (_ <? n)%nat; auto|].
    destruct n as [|n]; [destruct i; auto|]. destruct i as [|i]; [auto|]. simpl. rewrite IH. reflexivity.
  Qed.
  Lemma swapped_nth : forall es a b ea eb x, length es = S b -> nth_error es a = Some ea -> nth_error es b = Some eb ->
    nth_error (swapped es a b ea eb) x = if (x <? b)%nat then nth_error es (if (x =? a)%nat then b else x) else None.
  Proof.
    intros es a b ea eb x L NA NB. unfold swapped. rewrite nth_error_firstn. destruct (Nat.ltb_spec x b) as [H|H]; auto.
    rewrite nth_error_upd_other by lia. destruct (Nat.eqb_spec x a) as [->|NE].
    - rewrite nth_error_upd_same by lia. auto.
    - rewrite nth_error_upd_other by auto. auto.
  Qed.

  Lemma eraseEdge_ok : forall g M u v, wf g -> repr g M -> inRange (adj g) (minId g) u -> inRange (adj g) (minId g) v ->
    exists g', eraseEdge dir g u v = Ok (g', isEdge M u v) /\ wf g' /\ repr g' (put dir M u v None) /\
      minId g' = minId g /\ nodeCount g' = nodeCount g.
  Proof.
    intros g M u v W R RU RV. unfold eraseEdge. rewrite !assertNode_ok by auto. cbn [bind].
    destruct (lookup_ok E dir g u v W RU) as (r & -> & H). cbn [bind]. pose proof (repr_lookup E dir g M u v r W R H) as Q.
    pose proof W as (F & D & A). destruct r as [a|].
    2:{ unfold isEdge. rewrite Q. exists g. split; auto. split; auto. split; [|auto]. intros x y d. unfold put.
        destruct (samePairb dir u v x y) eqn:SP; [|apply R]. apply samePairb_iff in SP. split; [discriminate|].
        intros (e & I & J & _). exfalso. apply (H e I). eapply samePair_trans; [exact J|]. apply samePair_sym. auto. }
    destruct Q as (ea' & NA' & MU). destruct H as (ea & NA & JA). rewrite NA in NA'. inv NA'. unfold isEdge. rewrite MU. clear MU.
    rename ea' into ea. set (b := (length (edges g) - 1)%nat). pose proof (nth_valid _ _ _ _ NA) as VA.
    assert (LB : length (edges g) = S b) by (unfold GenProofs.valid in VA; unfold b; lia).
    destruct (nth_error (edges g) b) as [eb|] eqn:NB; [|apply nth_error_None in NB; lia].
    assert (OKI : forall i e, nth_error (edges g) i = Some e -> okEdge (adj g) (minId g) e).
    { intros i e N. rewrite Forall_forall in F. apply F. eapply nth_error_In; eauto. }
    rewrite (nth_deref _ _ _ _ NA). cbn [bind].
    destruct (eraseBoth_ok g (valid (edges g)) a ea u v) as (a1 & ER1 & L1 & A1); eauto.
    unfold eraseBoth in ER1. destruct (eraseAt g u (ekey ea)) as [g1| | |]; try discriminate. cbn [bind] in *. rewrite ER1. cbn [bind edges].
    rewrite (nth_deref _ _ _ _ NB). cbn [bind].
    destruct (eraseBoth_ok (mkGraph a1 (edges g) (minId g)) (fun x => valid (edges g) x /\ x <> a) b eb (efrom eb) (eto eb)) as (a2 & ER2 & L2 & A2); eauto.
    { intros x [? _]; auto. } { eapply okEdge_adj; [|eapply OKI; exact NB]. exact L1. } { apply samePair_refl. }
    unfold eraseBoth in ER2. destruct (eraseAt (mkGraph a1 (edges g) (minId g)) (efrom eb) (ekey eb)) as [g2| | |]; try discriminate. cbn [bind] in *. rewrite ER2.
    cbn [bind edges adj minId] in *. clear ER1 ER2 g1 g2.
    change (firstn b (upd (upd (edges g) a eb) b ea)) with (swapped (edges g) a b ea eb). set (es' := swapped (edges g) a b ea eb).
    pose proof (fun x => swapped_nth (edges g) a b ea eb x LB NA NB) as SW. fold es' in SW.
    assert (LEN' : length es' = b) by (unfold es', swapped; rewrite firstn_length, !upd_length; lia).
    set (sg := fun x => if (x =? a)%nat then b else x).
    assert (SG : forall x, (x < b)%nat -> nth_error es' x = nth_error (edges g) (sg x) /\ sg x <> a /\ (sg x < S b)%nat).
    { intros x X. rewrite SW. replace (x <? b)%nat with true by (symmetry; apply Nat.ltb_lt; auto). split; auto. unfold sg.
      destruct (Nat.eqb_spec x a); lia. }
    assert (SGI : forall x y, (x < b)%nat -> (y < b)%nat -> sg x = sg y -> x = y).
    { intros x y X Y. unfold sg. destruct (Nat.eqb_spec x a), (Nat.eqb_spec y a); lia. }
    assert (IN : forall e, In e es' <-> exists i, i <> a /\ nth_error (edges g) i = Some e).
    { intro e. split.
      - intro I. apply In_nth_error in I as (x & X). assert (x < b)%nat by (rewrite <- LEN'; apply nth_error_Some; congruence).
        destruct (SG x H) as (S1 & S2 & _). exists (sg x). split; auto. congruence.
      - intros (i & NI & X). assert (i < S b)%nat by (rewrite <- LB; apply nth_error_Some; congruence). destruct (Nat.eq_dec i b) as [->|NB'].
        + apply (nth_error_In _ a). rewrite SW. assert (a < S b)%nat by (rewrite <- LB; exact VA).
          replace (a <? b)%nat with true by (symmetry; apply Nat.ltb_lt; lia). rewrite Nat.eqb_refl. auto.
        + apply (nth_error_In _ i). rewrite SW. replace (i <? b)%nat with true by (symmetry; apply Nat.ltb_lt; lia).
          replace (i =? a)%nat with false by (symmetry; apply Nat.eqb_neq; auto). auto. }
    assert (D' : distinctEdges es' (valid es')).
    { intros x y e f X Y NX NY SP. unfold GenProofs.valid in X, Y. rewrite LEN' in X, Y.
      destruct (SG x X) as (S1 & S2 & S3). destruct (SG y Y) as (T1 & T2 & T3). rewrite S1 in NX. rewrite T1 in NY.
      apply SGI; auto. apply (D (sg x) (sg y) e f); auto; eapply nth_valid; eauto. }
    assert (F' : forall a', alen a' = alen (adj g) -> Forall (okEdge a' (minId g)) es').
    { intros a' L. apply Forall_forall. intros e I. apply IN in I as (i & _ & N). eapply okEdge_adj; [exact L|eauto]. }
    assert (R' : forall a', repr (mkGraph a' es' (minId g)) (put dir M u v None)).
    { intros a' x y d. cbn [edges]. unfold put. destruct (samePairb dir u v x y) eqn:SP.
      - apply samePairb_iff in SP. split; [discriminate|]. intros (e & I & J & _). exfalso. apply IN in I as (i & NI & N). apply NI.
        eapply (wf_unique E dir g i a e ea u v); eauto. eapply samePair_trans; [exact J|]. apply samePair_sym. auto.
      - assert (NS : ~ samePair dir u v x y) by (rewrite <- samePairb_iff, SP; discriminate). rewrite (R x y d). split.
        + intros (e & I & J & ED). exists e. split; auto. apply IN. apply In_nth_error in I as (i & I). exists i. split; auto. intros ->.
          rewrite NA in I. inv I. apply NS. eapply samePair_trans; [apply samePair_sym; exact JA|exact J].
        + intros (e & I & J & ED). exists e. split; auto. apply IN in I as (i & _ & I). eapply nth_error_In; eauto. }
    set (live := fun x => (valid (edges g) x /\ x <> a) /\ x <> b) in *.
    assert (LV : forall x, live x <-> (x < b)%nat /\ x <> a) by (intro x; unfold live, GenProofs.valid; rewrite LB; lia).
    assert (A3 : adjOk es' a2 (minId g) (liveAdj es' live)).
    { assert (NE : forall x, live x -> nth_error es' x = nth_error (edges g) x).
      { intros x L. apply LV in L as [L1' L2']. rewrite SW. replace (x <? b)%nat with true by (symmetry; apply Nat.ltb_lt; auto).
        replace (x =? a)%nat with false by (symmetry; apply Nat.eqb_neq; auto). auto. }
      eapply adjOk_ext; [| |eapply adjOk_es; [|exact A2]].
      - intros w x _. unfold GenProofs.liveAdj. split; intros (L & e & N & I); split; auto; exists e; split; auto.
        + rewrite NE; auto.
        + rewrite NE in N; auto.
      - intros w x. apply liveAdj_valid.
      - intros w x (L & _). apply NE. exact L. }
    destruct (Nat.eqb_spec a b) as [AB|AB].
    - eexists. split; [reflexivity|]. split; [|split; [apply R'|split; [reflexivity|]]].
      + split; [|split]; cbn [edges adj minId]; auto.
        * apply F'. lia.
        * eapply adjOk_ext; [| |exact A3].
          -- intros w x _. unfold GenProofs.liveAdj. rewrite LV. unfold GenProofs.valid. rewrite LEN'. intuition lia.
          -- intros w x. apply liveAdj_valid.
      + unfold nodeCount. cbn [adj]. lia.
    - assert (NA2 : nth_error es' a = Some eb).
      { rewrite SW. assert (a < S b)%nat by (rewrite <- LB; exact VA). replace (a <? b)%nat with true by (symmetry; apply Nat.ltb_lt; lia).
        rewrite Nat.eqb_refl. auto. }
      assert (LV2 : forall x, live x \/ x = a <-> valid es' x).
      { intro x. rewrite LV. unfold GenProofs.valid. rewrite LEN'. assert (a < S b)%nat by (rewrite <- LB; exact VA). lia. }
      destruct (addInternal_ok E dir (mkGraph a2 es' (minId g)) live a eb) as (a3 & -> & L3 & A4); cbn [edges adj minId].
      + exact A3.
      + rewrite LV. tauto.
      + exact NA2.
      + eapply okEdge_adj; [|eapply OKI; exact NB]. lia.
      + intros x y e f X Y. apply D'; apply LV2; auto.
      + cbn [edges adj minId bind] in *. eexists. split; [reflexivity|]. split; [|split; [apply R'|split; [reflexivity|]]].
        * split; [|split]; cbn [edges adj minId]; auto.
          -- apply F'. lia.
          -- eapply adjOk_ext; [| |exact A4].
             ++ intros w x _. unfold GenProofs.liveAdj. rewrite LV2. tauto.
             ++ intros w x. apply liveAdj_valid.
        * unfold nodeCount. cbn [adj]. lia.
  Qed.

  (* ---- views ---- *)
  Lemma view_ok : forall es u s, Forall (valid es) s -> sorted E es s -> (forall i e, In i s -> nth_error es i = Some e -> incident e u) ->
    exists l, view es u s = Ok l /\ length l = length s /\ StronglySorted Z.lt (map (fun p => Z.lxor u (fst p)) l) /\
      forall v d, In (v, d) l <-> exists i e, In i s /\ nth_error es i = Some e /\ joins e u v /\ edat e = d.
  Proof.
    intros es u s V. induction V as [|i s VI V IH]; intros SO I; cbn [view].
    - exists []. split; auto. split; auto. split; [constructor|]. intros v d. split; [intros []|intros (i & _ & [] & _)].
    - destruct (deref_valid E es i VI) as (e & N & -> & K). cbn [bind]. inversion SO as [|? ? SO' FO]; subst.
      destruct IH as (l & -> & L & SL & M); auto. { intros j f J. apply I. right. auto. }
      cbn [bind]. eexists. split; [reflexivity|]. split; [simpl; auto|].
      assert (J : joins e u (Z.lxor (ekey e) u)).
      { apply joins_key; [apply (I i); [left; auto|auto]|]. rewrite (Z.lxor_comm (ekey e)), <- Z.lxor_assoc, Z.lxor_nilpotent. reflexivity. }
      assert (KU : forall f v, incident f u -> joins f u v -> Z.lxor u v = ekey f) by (intros f v If Jf; symmetry; apply (joins_key E dir f u v); auto).
      split.
      + cbn [map fst]. constructor; auto. apply Forall_forall. intros x X. apply in_map_iff in X as ((v & d) & <- & X). cbn [fst].
        apply M in X as (j & f & JS & NJ & JF & _). rewrite (KU e _ (I i e (or_introl eq_refl) N) J), (KU f _ (I j f (or_intror JS) NJ) JF).
        rewrite Forall_forall in FO. specialize (FO _ (in_map (keyOf es) s j JS)). rewrite K, (nth_keyOf _ _ _ _ NJ) in FO. exact FO.
      + intros v d. split.
        * intros [Q|Q].
          -- inv Q. exists i, e. split; [left; auto|auto].
          -- apply M in Q as (j & f & JS & R). exists j, f. split; [right; auto|auto].
        * intros (j & f & [<-|JS] & NJ & JF & ED).
          -- left. rewrite N in NJ. inv NJ. f_equal. apply (lxor_inj u). rewrite (KU f v), (KU f _ (I i f (or_introl eq_refl) N) J); auto. apply (I i); [left; auto|auto].
          -- right. apply M. exists j, f. auto.
  Qed.
  Lemma neighbours_ok : forall g M u, wf g -> repr g M -> inRange (adj g) (minId g) u ->
    exists l, neighbours g u = Ok l /\ neighbourList M u l /\ degree g u = Ok (alen l).
  Proof.
    intros g M u (F & D & A) R RU. unfold neighbours, degree. rewrite !assertNode_ok by auto. cbn [bind].
    destruct (adj_get _ _ _ _ _ _ A RU) as (s & -> & SO & V & I). cbn [bind].
    destruct (view_ok (edges g) u s V SO) as (l & -> & L & SL & ML).
    { intros i e J N. apply I in J as (_ & f & N' & IF). rewrite N in N'. inv N'. auto. }
    exists l. split; auto. split; [|unfold alen; rewrite L; auto]. split; auto. intros v d. rewrite ML, (R u v d). split.
    - intros (i & e & _ & N & J & ED). exists e. split; auto. eapply nth_error_In; eauto.
    - intros (e & N & J & ED). apply In_nth_error in N as (i & N). exists i, e. split; auto. apply I. split; [eapply nth_valid; eauto|].
      exists e. split; auto. eapply joins_incident; eauto.
  Qed.

  Lemma distinct_split : forall es, distinctEdges es (valid es) -> forall l1 e l2 f l3, es = l1 ++ e :: l2 ++ f :: l3 ->
    ~ samePair dir (efrom e) (eto e) (efrom f) (eto f).
  Proof.
    intros es D l1 e l2 f l3 -> SP. assert (N1 : nth_error (l1 ++ e :: l2 ++ f :: l3) (length l1) = Some e) by (rewrite nth_error_app2, Nat.sub_diag by lia; auto).
    assert (N2 : nth_error (l1 ++ e :: l2 ++ f :: l3) (length l1 + S (length l2)) = Some f).
    { rewrite nth_error_app2 by lia. replace (length l1 + S (length l2) - length l1)%nat with (S (length l2)) by lia. simpl.
      rewrite nth_error_app2, Nat.sub_diag by lia. auto. }
    pose proof (D _ _ _ _ (nth_valid _ _ _ _ N1) (nth_valid _ _ _ _ N2) N1 N2 SP). lia.
  Qed.
  Lemma map_split2 : forall A B (h : A -> B) l l1 x l2 y l3, map h l = l1 ++ x :: l2 ++ y :: l3 ->
    exists m1 a m2 b m3, l = m1 ++ a :: m2 ++ b :: m3 /\ h a = x /\ h b = y.
  Proof.
    intros A B h l l1 x l2 y l3 H. apply map_eq_app in H as (m1 & r & -> & _ & H). apply map_eq_cons in H as (a & r' & -> & HA & H).
    apply map_eq_app in H as (m2 & r2 & -> & _ & H). apply map_eq_cons in H as (b & m3 & -> & HB & _). exists m1, a, m2, b, m3. auto.
  Qed.
  Lemma edges_ok : forall g M, wf g -> repr g M -> edgeList dir M (getEdges g) /\ edgeCount g = alen (getEdges g).
  Proof.
    intros g M (F & D & A) R. split; [|unfold edgeCount, alen, getEdges; rewrite map_length; auto]. unfold getEdges. split; [|split].
    - intros u v d I. apply in_map_iff in I as (e & Q & I). inv Q. apply R. exists e. split; auto. split; auto. apply samePair_refl.
    - intros u v d Q. apply R in Q as (e & I & J & <-). exists (efrom e), (eto e). split; auto. apply in_map_iff. exists e. auto.
    - intros l1 x y d l2 u v f l3 Q. apply map_split2 in Q as (m1 & a & m2 & b & m3 & Q & HA & HB). inv HA. inv HB. eapply distinct_split; eauto.
  Qed.

  (* ---- new graphs and programs ---- *)
  Lemma newGraph_ok : forall lo hi, lo <= hi -> exists g, newGraph lo hi = Ok g /\ wf g /\ repr g (fun _ _ => None) /\
    minId g = lo /\ nodeCount g = hi - lo.
  Proof.
    intros lo hi H. unfold newGraph. replace (lo <=? hi) with true by lia. cbn [judgeAssert bind]. eexists. split; [reflexivity|].
    split; [|split; [|split; [reflexivity|unfold nodeCount, alen; cbn [adj]; rewrite repeat_length; lia]]].
    - split; [constructor|]. split; [intros i j e f V; unfold GenProofs.valid in V; simpl in V; lia|]. split.
      + intros v i. apply liveAdj_valid.
      + cbn [edges adj]. intros k s N. apply nth_error_In, repeat_spec in N. subst. split; [constructor|]. intro i. split; [intros []|].
        intros (V & _). unfold GenProofs.valid in V. simpl in V. lia.
    - intros u v d. split; [discriminate|]. intros (e & [] & _).
  Qed.
  Lemma newGraph_throw : forall lo hi, hi < lo -> @newGraph E lo hi = Throw.
  Proof. intros. unfold newGraph. replace (lo <=? hi) with false by lia. reflexivity. Qed.

  Lemma grun_ok : forall cs g M, wf g -> repr g M -> Forall (gcallOk (minId g) (minId g + nodeCount g)) cs ->
    exists g' l, grun dir g cs = Ok (g', l) /\ ganswers dir M cs l /\ wf g'.
  Proof.
    induction cs as [|c cs IH]; intros g M W R F; cbn [grun].
    - exists g, []. split; auto. split; auto. constructor.
    - inv F. destruct c as [u v d|u v|u v|u v|u|u| |]; simpl in H1; cbn [gstep].
      + destruct H1 as (RU & RV & NE). destruct (addEdge_ok E dir g M u v d W R RU RV NE) as (g1 & -> & W1 & R1 & M1 & N1). cbn [bind].
        rewrite <- M1, <- N1 in H2. destruct (IH g1 _ W1 R1 H2) as (g' & l & -> & AN & W'). cbn [bind]. exists g', (AUnit :: l). split; auto. split; auto. constructor; auto.
      + destruct H1 as (RU & RV). destruct (eraseEdge_ok g M u v W R RU RV) as (g1 & -> & W1 & R1 & M1 & N1). cbn [bind].
        rewrite <- M1, <- N1 in H2. destruct (IH g1 _ W1 R1 H2) as (g' & l & -> & AN & W'). cbn [bind]. eexists _, _. split; [reflexivity|]. split; auto. constructor; auto.
      + destruct H1 as (RU & RV). rewrite (wf_hasEdge E dir g M u v W R RU RV). cbn [bind].
        destruct (IH g M W R H2) as (g' & l & -> & AN & W'). cbn [bind]. eexists _, _. split; [reflexivity|]. split; auto. constructor; auto.
      + destruct H1 as (RU & RV). rewrite (wf_findEdge E dir g M u v W R RU RV). cbn [bind].
        destruct (IH g M W R H2) as (g' & l & -> & AN & W'). cbn [bind]. eexists _, _. split; [reflexivity|]. split; auto. constructor; auto.
      + destruct (neighbours_ok g M u W R H1) as (n & _ & NL & ->). cbn [bind].
        destruct (IH g M W R H2) as (g' & l & -> & AN & W'). cbn [bind]. eexists _, _. split; [reflexivity|]. split; auto. constructor; auto.
      + destruct (neighbours_ok g M u W R H1) as (n & -> & NL & _). cbn [bind].
        destruct (IH g M W R H2) as (g' & l & -> & AN & W'). cbn [bind]. eexists _, _. split; [reflexivity|]. split; auto. constructor; auto.
      + destruct (edges_ok g M W R) as [EL ->]. cbn [bind].
        destruct (IH g M W R H2) as (g' & l & -> & AN & W'). cbn [bind]. eexists _, _. split; [reflexivity|]. split; auto. constructor; auto.
      + destruct (edges_ok g M W R) as [EL _]. cbn [bind].
        destruct (IH g M W R H2) as (g' & l & -> & AN & W'). cbn [bind]. eexists _, _. split; [reflexivity|]. split; auto. constructor; auto.
  Qed.
  Lemma store_program : forall lo hi cs, lo <= hi -> Forall (gcallOk lo hi) cs ->
    exists g l, (let! g := newGraph lo hi in grun dir g cs) = Ok (g, l) /\ ganswers dir (fun _ _ => None) cs l.
  Proof.
    intros lo hi cs H F. destruct (newGraph_ok lo hi H) as (g & -> & W & R & M & N). cbn [bind].
    destruct (grun_ok cs g _ W R) as (g' & l & Q & A & _); [|eauto]. rewrite M, N. replace (lo + (hi - lo)) with hi by lia. auto.
  Qed.
  (* calls with a node outside, and loops, throw *)
  Lemma store_throws : forall g c, wf g -> ~ gcallOk (minId g) (minId g + nodeCount g) c -> gstep dir g c = Throw.
  Proof.
    intros g c W N. assert (X : forall u, ~ (minId g <= u < minId g + nodeCount g) -> assertNode g u = Throw) by (intros; apply assertNode_throw; auto).
    assert (Y : forall u, (minId g <= u < minId g + nodeCount g) -> assertNode g u = Ok tt) by (intros; apply assertNode_ok; auto).
    assert (DEC : forall u, {minId g <= u < minId g + nodeCount g} + {~ (minId g <= u < minId g + nodeCount g)}).
    { intro u. destruct (Z_le_dec (minId g) u); [destruct (Z_lt_dec u (minId g + nodeCount g)); [left; lia|right; lia]|right; lia]. }
    destruct c as [u v d|u v|u v|u v|u|u| |]; cbn [gstep gcallOk] in *;
      try (unfold degree, neighbours; rewrite X by auto; reflexivity); try (exfalso; auto; fail);
      (destruct (DEC u) as [U|U]; [|unfold addEdge, eraseEdge, hasEdge, findEdge; rewrite X by auto; reflexivity]);
      (destruct (DEC v) as [V|V]; [|unfold addEdge, eraseEdge, hasEdge, findEdge; rewrite Y, X by auto; reflexivity]);
      try (exfalso; tauto).
    unfold addEdge. rewrite !Y by auto. cbn [bind]. destruct (u =? v) eqn:Q; [reflexivity|exfalso; apply N; split; auto; split; auto; lia].
  Qed.
End Store.
