(* randomGraph: degrees of the result, sequences that are rejected. *)
From Verif Require Import Base Tac BaseLemmas RndModel RndLemmas RandSpec DegModel DegSpec DegProofs DegProofs2.
From Verif Require Import GenModel GenSpec GenProofs GenProofs2 GenProofs3 GenOpsProofs GenRandProofs.
From Coq Require Import Permutation Sorted.

Definition member (x : Z) (l : list Z) : bool := if in_dec Z.eq_dec x l then true else false.
Lemma member_cons : forall x y l, member x (y :: l) = (x =? y) || member x l.
Proof.
  intros. unfold member. destruct (Z.eqb_spec x y) as [->|D]; cbn [orb].
  - destruct (in_dec Z.eq_dec y (y :: l)) as [I|I]; auto. exfalso. apply I. left. auto.
  - destruct (in_dec Z.eq_dec x (y :: l)) as [[I|I]|I], (in_dec Z.eq_dec x l) as [J|J]; auto; try contradiction; try congruence. exfalso. apply I. right. auto.
Qed.
Lemma isEdge_put : forall E (M : emap E) u v o x y, isEdge (put false M u v o) x y =
  if pairb u v x y then match o with Some _ => true | None => false end else isEdge M x y.
Proof.
  intros. unfold isEdge, put, samePairb, pairb. cbn [negb andb].
  replace ((u =? x) && (v =? y) || (u =? y) && (v =? x)) with ((x =? u) && (y =? v) || (x =? v) && (y =? u)).
  - destruct ((x =? u) && (y =? v) || (x =? v) && (y =? u)); auto.
  - rewrite (Z.eqb_sym x u), (Z.eqb_sym y v), (Z.eqb_sym x v), (Z.eqb_sym y u), (andb_comm (v =? x)). auto.
Qed.

Section Deg.
  Variable E : Type.
  Variable dflt : E.
  Variable n : Z.

  Lemma connect_ok : forall c SS RR g M todo, represents false g 0 n M -> 0 <= c < n -> ~ In c (ids SS) ->
    Forall (fun p => 0 <= snd p < n) SS ->
    exists g' M', connect dflt g c (length SS) (SS ++ RR) todo = Ok (g', RR, todo ++ dec SS) /\ represents false g' 0 n M' /\
      forall u v, isEdge M' u v = isEdge M u v || (u =? c) && member v (ids SS) || (v =? c) && member u (ids SS).
  Proof.
    intros c SS RR. induction SS as [|[d i] SS IH]; intros g M todo R C NI F.
    - exists g, M. cbn [length connect app dec]. rewrite app_nil_r. split; auto. split; auto. intros. unfold member. cbn [map in_dec].
      destruct (in_dec Z.eq_dec v []) as [[]|_], (in_dec Z.eq_dec u []) as [[]|_]. rewrite !andb_false_r, !orb_false_r. auto.
    - cbn [length connect app dec]. inv F. cbn [snd] in H1. assert (CI : c <> i) by (intros ->; apply NI; left; auto).
      destruct (add_rep E false g M 0 n c i dflt R C H1 CI) as (g1 & -> & R1). cbn [bind].
      destruct (IH g1 _ (if 0 <? d - 1 then todo ++ [(d - 1, i)] else todo) R1 C) as (g' & M' & Q & R' & ED); auto. { intro I. apply NI. right. auto. }
      exists g', M'. split; [|split; auto].
      + rewrite Q. destruct (0 <? d - 1); auto. rewrite <- app_assoc. auto.
      + intros u v. rewrite ED, isEdge_put. cbn [map snd]. rewrite !member_cons. unfold pairb.
        destruct (u =? c), (v =? c), (v =? i), (u =? i), (isEdge M u v), (member v (ids SS)), (member u (ids SS)); auto.
  Qed.

  Lemma hh_ok : forall fuel q g M, (length q < fuel)%nat -> represents false g 0 n M -> NoDup (ids q) -> Forall (fun p => 0 < fst p) q ->
    sortedQ q -> Forall (fun p => 0 <= snd p < n) q -> (forall u v, In u (ids q) -> In v (ids q) -> isEdge M u v = false) ->
    (havelHakimi dflt fuel g q = Throw /\ ~ exists G, realizesQ q G) \/
    (exists g' M', havelHakimi dflt fuel g q = Ok g' /\ represents false g' 0 n M' /\
       (forall u v, ~ (In u (ids q) /\ In v (ids q)) -> isEdge M' u v = isEdge M u v) /\
       (forall d i, In (d, i) q -> cnt (isEdge M' i) (ids q) = d)).
  Proof.
    induction fuel as [|fuel IH]; intros q g M LT R N POS SO RG Z0; [lia|]. cbn [havelHakimi]. destruct q as [|[d c] q].
    { right. exists g, M. split; auto. split; auto. split; auto. intros d i []. }
    pose proof N as N0. cbn [map snd] in N. inv POS. cbn [fst] in H1. destruct (Z.ltb_spec (alen q) d) as [LD|LD]; cbn [orb].
    { left. split; auto. intros (G & GG & DG). specialize (DG d c ltac:(left; auto)). cbn [map snd] in DG. rewrite cnt_cons in DG.
      rewrite (graphOn_loop _ _ c GG) in DG. pose proof (cnt_le_length (G c) (ids q)) as X. rewrite map_length in X. unfold alen in LD. lia. }
    replace (d <? 0) with false by lia.
    set (SS := firstn (Z.to_nat d) q). set (RR := skipn (Z.to_nat d) q). assert (QE : q = SS ++ RR) by (symmetry; apply firstn_skipn).
    assert (LS : length SS = Z.to_nat d) by (unfold SS; apply firstn_length_le; unfold alen in LD; lia).
    clearbody SS RR. subst q. rewrite <- LS. rewrite map_app in N. pose proof RG as RG0. inv RG. cbn [snd] in H3. apply Forall_app in H4 as (RS & RRR).
    assert (CS : ~ In c (ids SS)) by (apply NoDup_cons_iff in N as (NX & _); intro; apply NX; apply in_app_iff; auto).
    destruct (connect_ok c SS RR g M [] R H3 CS RS) as (g1 & M1 & -> & R1 & ED). cbn [bind app].
    set (q' := pqPushAll (dec SS) RR). assert (PQ : Permutation q' (dec SS ++ RR)) by apply pushAll_perm.
    assert (LSd : Z.of_nat (length SS) = d) by lia.
    unfold sortedQ in SO. apply StronglySorted_inv in SO as (H5 & H6). assert (TOP : forall s r, In s SS -> In r RR -> fst r <= fst s).
    { clear - H5. induction SS as [|x SS IH]; intros s r I J; [destruct I|]. cbn [app] in H5. inv H5. destruct I as [->|I]; [|eapply IH; eauto].
      rewrite Forall_forall in H2. apply H2. apply in_app_iff. auto. }
    assert (SR : sortedQ RR).
    { clear - H5. induction SS as [|x SS IH]; auto. cbn [app] in H5. inv H5. auto. }
    pose proof (q'_ids SS RR q' PQ) as QI. pose proof (q'_incl SS RR q' PQ) as QC. pose proof (c_q' c SS RR q' N PQ) as CQ.
    destruct (IH q' g1 M1) as [(T & NG)|(g' & M' & Q & R' & OUT & DEG)].
    - assert (LQ : length q' = (length (dec SS) + length RR)%nat) by (rewrite (Permutation_length PQ), app_length; auto).
      pose proof (dec_length SS). cbn [length] in LT. rewrite app_length in LT. lia.
    - auto.
    - apply (q'_NoDup c SS RR q' N PQ).
    - apply (q'_pos SS RR q' H2 PQ).
    - apply pushAll_sorted. auto.
    - apply Forall_forall. intros [e i] I. cbn [snd]. assert (J : In i (ids q')) by (apply in_map_iff; exists (e, i); auto). apply QC in J.
      rewrite <- map_app in J. apply in_map_iff in J as ([e' i'] & QQ & J). cbn [snd] in QQ. subst i'.
      assert (FF : Forall (fun p => 0 <= snd p < n) (SS ++ RR)) by (apply Forall_app; auto). rewrite Forall_forall in FF. apply (FF _ J).
    - intros u v U V. rewrite ED. assert (u <> c) by congruence. assert (v <> c) by congruence. replace (u =? c) with false by lia. replace (v =? c) with false by lia.
      cbn [andb]. rewrite !orb_false_r. apply Z0; cbn [map snd]; rewrite map_app; right; apply QC; auto.
    - left. split; auto. intros (G & GR). apply NG. eapply (reduce d c SS RR q' N LSd H2 PQ TOP). eauto.
    - right. exists g', M'. split; auto. split; auto. apply (extend d c SS RR q' N LSd H2 PQ (isEdge M) (isEdge M1) (isEdge M')); auto.
      cbn [map snd] in Z0. rewrite map_app in Z0. exact Z0.
  Qed.
End Deg.

(* the first queue *)
Fixpoint initL (i : Z) (ds : list Z) : list (Z * Z) :=
  match ds with [] => [] | d :: r => (if 0 <? d then [(d, i)] else []) ++ initL (i + 1) r end.
Lemma init_perm : forall ds i q, Permutation (pqInit i ds q) (initL i ds ++ q).
Proof.
  induction ds as [|d ds IH]; intros i q; cbn [pqInit initL]; auto. destruct (0 <? d); cbn [app]; [|apply IH].
  eapply perm_trans; [apply IH|]. eapply perm_trans; [apply Permutation_app_head, push_perm|]. apply Permutation_sym, Permutation_middle.
Qed.
Lemma init_sorted : forall ds i q, sortedQ q -> sortedQ (pqInit i ds q).
Proof. induction ds as [|d ds IH]; intros i q S; cbn [pqInit]; auto. destruct (0 <? d); apply IH; auto. apply push_sorted. auto. Qed.
Lemma init_in : forall ds i d j, In (d, j) (initL i ds) <-> 0 < d /\ exists k, j = i + Z.of_nat k /\ nth_error ds k = Some d.
Proof.
  induction ds as [|x ds IH]; intros i d j; cbn [initL].
  - split; [intros []|]. intros (_ & k & _ & Q). destruct k; discriminate.
  - rewrite in_app_iff, IH. split.
    + intros [I|(P & k & -> & Q)].
      * destruct (Z.ltb_spec 0 x); [|destruct I]. destruct I as [Q|[]]. inv Q. split; auto. exists 0%nat. split; [lia|auto].
      * split; auto. exists (S k). split; [lia|auto].
    + intros (P & k & -> & Q). destruct k as [|k].
      * cbn [nth_error] in Q. inv Q. left. replace (0 <? d) with true by lia. left. f_equal. lia.
      * right. split; auto. exists k. split; [lia|auto].
Qed.
Lemma init_NoDup : forall ds i, NoDup (ids (initL i ds)).
Proof.
  induction ds as [|d ds IH]; intro i; cbn [initL]; [constructor|]. destruct (0 <? d); cbn [app map snd]; auto. constructor; auto.
  intro I. apply in_map_iff in I as ([e j] & Q & I). cbn [snd] in Q. subst j. apply init_in in I as (_ & k & Q & _). lia.
Qed.

Lemma nth_error_same : forall A (l l' : list A), (forall k, nth_error l k = nth_error l' k) -> l = l'.
Proof.
  induction l as [|x l IH]; intros [|y l'] H; auto.
  - specialize (H 0%nat). discriminate.
  - specialize (H 0%nat). discriminate.
  - pose proof (H 0%nat) as Q. inv Q. f_equal. apply IH. intro k. apply (H (S k)).
Qed.
Lemma realizes_iff : forall G ds, realizes G ds <-> graphOn (zseq 0 (length ds)) G /\
  forall k d, nth_error ds k = Some d -> cnt (G (Z.of_nat k)) (zseq 0 (length ds)) = d.
Proof.
  intros G ds. unfold realizes, simpleOn, graphOn, alen.
  assert (A : (forall u v, G u v = true -> 0 <= u < Z.of_nat (length ds) /\ 0 <= v < Z.of_nat (length ds) /\ u <> v) <->
              (forall u v, G u v = true -> In u (zseq 0 (length ds)) /\ In v (zseq 0 (length ds)) /\ u <> v)).
  { split; intros H u v Q; specialize (H u v Q); rewrite !in_zseq in *; lia. }
  rewrite A. assert (B : map (degreeIn G (Z.of_nat (length ds))) (zseq 0 (length ds)) = ds <->
    forall k d, nth_error ds k = Some d -> cnt (G (Z.of_nat k)) (zseq 0 (length ds)) = d); [|rewrite B; tauto].
  unfold degreeIn. rewrite Nat2Z.id. split.
  - intros Q k d K. rewrite <- Q in K. rewrite nth_error_map in K. rewrite zseq_nth_error in K; [cbn in K; inv K; auto|].
    rewrite <- (zseq_length (length ds) 0), <- (map_length (fun u => Z.of_nat (length (filter (G u) (zseq 0 (length ds)))))). apply nth_error_Some. rewrite nth_error_map. intro X. rewrite X in K. discriminate.
  - intro H. apply nth_error_same. intro k. rewrite nth_error_map. destruct (nth_error ds k) as [d|] eqn:K.
    + rewrite zseq_nth_error by (apply nth_error_Some; congruence). cbn [option_map]. f_equal. rewrite Z.add_0_l. apply H. auto.
    + apply nth_error_None in K. rewrite (proj2 (nth_error_None _ _)); auto. rewrite zseq_length. auto.
Qed.

Notation pos0 := (map (Z.max 0)).
Lemma queue_realizes : forall ds G q, Permutation q (initL 0 ds) -> (realizesQ q G <-> realizes G (pos0 ds)).
Proof.
  intros ds G q P. rewrite realizes_iff, map_length. unfold realizesQ.
  assert (II : forall d i, In (d, i) q <-> 0 < d /\ exists k, i = Z.of_nat k /\ nth_error ds k = Some d).
  { intros d i. rewrite <- (init_in ds 0). split; intro I; (eapply Permutation_in; [|exact I]); auto. apply Permutation_sym; auto. }
  assert (NQ : NoDup (ids q)) by (eapply Permutation_NoDup; [apply Permutation_map, Permutation_sym, P|apply init_NoDup]).
  assert (IC : incl (ids q) (zseq 0 (length ds))).
  { intros x I. apply in_map_iff in I as ([d i] & <- & I). apply II in I as (_ & k & -> & K). apply in_zseq. cbn [snd].
    assert (k < length ds)%nat by (apply nth_error_Some; congruence). lia. }
  pose proof (zseq_NoDup (length ds) 0) as NZ. split; intros (GG & D); pose proof GG as (S1 & S2).
  - split.
    + split; auto. intros u v Q. destruct (S2 u v Q) as (A & B & C). auto.
    + intros k d K. rewrite nth_error_map in K. destruct (nth_error ds k) as [e|] eqn:KE; [|discriminate]. cbn in K. inv K.
      rewrite <- (cnt_sub _ (ids q)); auto. 2: { intros x _ Q. apply S2 in Q. tauto. }
      destruct (Z.ltb_spec 0 e) as [PE|PE].
      * rewrite (D e); [lia|]. apply II. split; auto. exists k. auto.
      * rewrite cnt_zero; [lia|]. intros x J. destruct (G (Z.of_nat k) x) eqn:Q; auto. apply S2 in Q as (A & _). apply in_map_iff in A as ([d i] & Q & A). cbn [snd] in Q. subst i.
        apply II in A as (PD & k' & QK & K'). assert (k = k') by lia. subst k'. rewrite KE in K'. inv K'. lia.
  - assert (OUT : forall u v, G u v = true -> In u (ids q)).
    { intros u v Q. destruct (S2 _ _ Q) as (A & B & C). apply in_zseq in A. set (k := Z.to_nat u). assert (U : u = Z.of_nat k) by lia.
      destruct (nth_error ds k) as [d|] eqn:K; [|apply nth_error_None in K; lia]. destruct (Z.ltb_spec 0 d) as [PD|PD].
      - apply in_map_iff. exists (d, u). split; auto. apply II. split; auto. exists k. auto.
      - exfalso. specialize (D k (Z.max 0 d)). rewrite nth_error_map, K in D. specialize (D eq_refl). rewrite <- U in D.
        assert (Z1 : cnt (G u) (zseq 0 (length ds)) = 0) by lia. pose proof (cnt_zero_inv _ _ v Z1 B). congruence. }
    split.
    + split; auto. intros u v Q. destruct (S2 _ _ Q) as (A & B & C). split; [eapply OUT; eauto|]. split; auto. rewrite S1 in Q. eapply OUT; eauto.
    + intros d i I. apply II in I as (PD & k & -> & K). rewrite (cnt_sub _ _ (zseq 0 (length ds))); auto.
      * rewrite (D k (Z.max 0 d)); [lia|]. rewrite nth_error_map, K. auto.
      * intros x _ Q. rewrite S1 in Q. eapply OUT; eauto.
Qed.

Section Flips.
  Variable E : Type.
  Variable dflt : E.

  Definition holds (ds : list Z) (g : graph E) : Prop := exists M, represents false g 0 (alen ds) M /\ realizes (isEdge M) ds.

  Lemma build_ok : forall ds g, newGraph 0 (alen ds) = Ok g -> represents false g 0 (alen ds) (fun _ _ => @None E) ->
    let q := pqInit 0 ds [] in
    (havelHakimi dflt (S (length q)) g q = Throw /\ ~ graphical (pos0 ds)) \/
    (exists g', havelHakimi dflt (S (length q)) g q = Ok g' /\ holds (pos0 ds) g').
  Proof.
    intros ds g Q R q. assert (P : Permutation q (initL 0 ds)) by (unfold q; rewrite <- (app_nil_r (initL 0 ds)); apply init_perm).
    assert (II : forall d i, In (d, i) q -> 0 < d /\ 0 <= i < alen ds).
    { intros d i I. apply (Permutation_in _ P) in I. apply init_in in I as (D & k & -> & K). assert (k < length ds)%nat by (apply nth_error_Some; congruence). unfold alen. lia. }
    destruct (hh_ok E dflt (alen ds) (S (length q)) q g (fun _ _ => None)) as [(T & NG)|(g' & M' & T & R' & OUT & DEG)]; auto.
    - eapply Permutation_NoDup; [apply Permutation_map, Permutation_sym, P|apply init_NoDup].
    - apply Forall_forall. intros [d i] I. apply II in I. cbn [fst]. tauto.
    - apply init_sorted. constructor.
    - apply Forall_forall. intros [d i] I. apply II in I. cbn [snd]. tauto.
    - left. split; auto. intros (G & H). apply NG. exists G. apply (queue_realizes ds G q P). auto.
    - right. exists g'. split; auto. exists M'. unfold alen. rewrite map_length. split; [auto|]. apply (queue_realizes ds (isEdge M') q P).
      split; auto. split.
      + intros u v. unfold isEdge. rewrite (rep_sym E false g' M' 0 (alen ds)); auto.
      + intros u v X. assert (D : exists d, M' u v = Some d) by (unfold isEdge in X; destruct (M' u v); [eauto|discriminate]). destruct D as (d & D).
        destruct (rep_range E false _ _ _ _ u v d R' D) as (A & B & C).
        * split; [|split; auto].
          -- destruct (in_dec Z.eq_dec u (ids q)); auto. rewrite OUT in X by tauto. discriminate.
          -- destruct (in_dec Z.eq_dec v (ids q)); auto. rewrite OUT in X by tauto. discriminate.
  Qed.
End Flips.
