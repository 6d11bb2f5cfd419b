(* Line graphs, and where the operations go wrong. *)
From Verif Require Import Base Tac RndModel RndLemmas GenModel GenSpec GenProofs GenProofs2 GenOpsModel GenOpsSpec GenProofs3 GenOpsProofs GenOpsProofs2.
From Coq Require Import Sorted.

Lemma number_nth : forall l k u v i, In (u, v, i) (number l k) <-> k <= i /\ exists x, nth_error l (Z.to_nat (i - k)) = Some (u, v, x).
Proof.
  induction l as [|[[a b] c] l IH]; intros k u v i; cbn [number In].
  - split; [intros []|]. intros (_ & x & Q). destruct (Z.to_nat (i - k)); discriminate.
  - rewrite IH. split.
    + intros [Q|(H & x & N)].
      * injection Q as -> -> ->. split; [lia|]. exists c. replace (Z.to_nat (i - i)) with 0%nat by lia. auto.
      * split; [lia|]. exists x. replace (Z.to_nat (i - k)) with (S (Z.to_nat (i - (k + 1)))) by lia. auto.
    + intros (H & x & N). destruct (Z.eq_dec i k) as [->|NE].
      * left. rewrite Z.sub_diag in N. cbn in N. congruence.
      * right. split; [lia|]. exists x. replace (Z.to_nat (i - k)) with (S (Z.to_nat (i - (k + 1)))) in N by lia. auto.
Qed.
Lemma number_Forall2 : forall l k, Forall2 (fun p q : Z * Z * Z => fst p = fst q) l (number l k).
Proof. induction l as [|[[a b] c] l IH]; intro k; cbn [number]; constructor; auto. Qed.

Section Line.
  Variable dir : bool.
  Variables (tmp : graph Z) (T : emap Z) (lo hi : Z).
  Hypothesis R : represents dir tmp lo hi T.
  (* numbers identify edges *)
  Hypothesis INJ : forall u v u' v' i, In (u, v, i) (getEdges tmp) -> In (u', v', i) (getEdges tmp) -> u = u' /\ v = v'.

  Definition nb (w : Z) : list (Z * Z) := match neighbours tmp w with Ok l => l | _ => [] end.
  Lemma nb_ok : forall w, lo <= w < hi -> neighbours tmp w = Ok (nb w) /\
    (forall x j, In (x, j) (nb w) <-> T w x = Some j) /\ ForallOrdPairs (fun p q => snd p <> snd q) (nb w).
  Proof.
    intros w W. pose proof (rep_elim _ _ _ _ _ _ R) as (WF & RP & ML & NC).
    destruct (neighbours_ok Z dir tmp T w WF RP) as (l & NB & (SL & NL) & _); [unfold inRange, nodeCount in *; lia|]. unfold nb. rewrite NB. split; auto. split; auto.
    pose proof (rep_edges _ _ _ _ _ _ R) as (P & RE & L).
    assert (SS : ForallOrdPairs (fun p q : Z * Z => fst p <> fst q) l).
    { clear - SL. induction l as [|p l IH]; [constructor|]. cbn [map] in SL. inversion SL as [|? ? S' F]; subst. constructor; auto.
      rewrite Forall_map in F. eapply Forall_impl; [|exact F]. intros q LT Q. cbv beta in LT. rewrite Q in LT. lia. }
    eapply FOP_ext; [|exact SS]. intros [x j] [y j'] I I' NE Q. cbn [fst snd] in *. subst j'. apply NE. apply NL in I, I'. apply L in I as (a & b & I & J). apply L in I' as (a' & b' & I' & J').
    destruct (INJ _ _ _ _ _ I I') as [<- <-]. unfold samePair in *. destruct J as [[A B]|(_ & A & B)], J' as [[A' B']|(_ & A' & B')]; congruence.
  Qed.
  Definition lineOut (p : Z * Z * Z) : list (Z * Z * Z) :=
    let '(u, v, i) := p in
    if dir then map (fun p => (i, snd p, 0)) (nb v)
    else map (fun p => (i, snd p, 0)) (filter (fun p => i <? snd p) (nb v ++ nb u)).
  Lemma lineLoop_ok : forall l, (forall u v i, In (u, v, i) l -> lo <= u < hi /\ lo <= v < hi) -> lineLoop dir tmp l = Ok (flat_map lineOut l).
  Proof.
    induction l as [|[[u v] i] l IH]; intro H; cbn [lineLoop flat_map]; auto. destruct (H u v i (or_introl eq_refl)) as [U V].
    destruct (nb_ok v V) as (-> & _). destruct (nb_ok u U) as (NU & _). cbn [bind]. rewrite NU. rewrite IH by (intros; apply (H _ _ i0); right; auto).
    unfold lineOut at 2. destruct dir; reflexivity.
  Qed.
  Lemma lineOut_in : forall u v i x j z, In (u, v, i) (getEdges tmp) -> (In (x, j, z) (lineOut (u, v, i)) <->
    x = i /\ z = 0 /\ (dir = false -> i < j) /\ exists u' v', In (u', v', j) (getEdges tmp) /\ follows dir (u, v) (u', v')).
  Proof.
    intros u v i x j z I. pose proof (rep_edges _ _ _ _ _ _ R) as (P & RE & L). destruct (RE _ _ _ I) as (_ & U & V & _).
    destruct (nb_ok u U) as (_ & NU & _). destruct (nb_ok v V) as (_ & NV & _). unfold lineOut, follows. cbn [fst snd].
    destruct dir eqn:DD; rewrite in_map_iff.
    - split.
      + intros ([w j'] & Q & J). cbn [snd] in Q. injection Q as <- <- <-. apply NV in J. apply L in J as (a & b & J & SP). assert (a = v /\ b = w) as [-> ->] by sp.
        split; auto. split; auto. split; [discriminate|]. eauto.
      + intros (-> & -> & _ & u' & v' & J & <-). exists (v', j). split; auto. apply NV. apply RE in J. tauto.
    - split.
      + intros ([w j'] & Q & J). cbn [snd] in Q. injection Q as <- <- <-. apply filter_In in J as [J LT]. cbn [snd] in LT. split; auto. split; auto. split; [lia|].
        apply in_app_or in J as [J|J]; [apply NV in J|apply NU in J]; apply L in J as (a & b & J & SP); exists a, b; (split; [auto|sp]).
      + intros (-> & -> & LT & u' & v' & J & F). assert (EX : exists w, In (w, j) (nb v ++ nb u)).
        { setoid_rewrite in_app_iff. setoid_rewrite NV. setoid_rewrite NU. setoid_rewrite L. destruct F as [<-|[<-|[<-|<-]]].
          - exists v'. right. exists u, v'. split; auto. left. auto.
          - exists u'. right. exists u', u. split; auto. right. auto.
          - exists v'. left. exists v, v'. split; auto. left. auto.
          - exists u'. left. exists u', v. split; auto. right. auto. }
        destruct EX as (w & EX). exists (w, j). split; auto. apply filter_In. split; auto. cbn [snd]. specialize (LT eq_refl). lia.
  Qed.
  Lemma lineOut_FOP : ForallOrdPairs (diffPairs Z dir) (flat_map lineOut (getEdges tmp)).
  Proof.
    pose proof (rep_edges _ _ _ _ _ _ R) as (P & RE & L). apply FOP_flat_map.
    - apply Forall_forall. intros [[u v] i] I. destruct (RE _ _ _ I) as (_ & U & V & UV). destruct (nb_ok u U) as (_ & NU & FU). destruct (nb_ok v V) as (_ & NV & FV).
      assert (OUT : forall p, In p (lineOut (u, v, i)) -> fst (fst p) = i /\ (dir = false -> i < snd (fst p))).
      { intros [[x j] z] J. apply lineOut_in in J as (-> & _ & LT & _); auto. }
      assert (FO : ForallOrdPairs (fun p q => snd (fst p) <> snd (fst q)) (lineOut (u, v, i))).
      { unfold lineOut. destruct dir eqn:DD; rewrite FOP_map; cbn [fst snd].
        - exact FV.
        - assert (EDGE : forall w x j, T w x = Some j -> T v u = Some i -> j <> i -> w = v -> forall y, T u y <> Some j).
          { intros w x j T1 T2 NE -> y T3. apply L in T1 as (a & b & J1 & S1). apply L in T3 as (a' & b' & J3 & S3).
            destruct (INJ _ _ _ _ _ J1 J3) as [<- <-]. apply NE. assert (SP : samePair false a b u v) by (clear - S1 S3 UV; sp).
            assert (T u v = Some j) by (apply L; exists a, b; auto). assert (T u v = Some i) by (apply L; exists u, v; split; auto; left; auto). congruence. }
          rewrite filter_app. apply FOP_app. split; [apply FOP_filter; auto|]. split; [apply FOP_filter; auto|]. intros [x j] [y j'] I1 I2 Q. cbn [snd] in Q. subst j'.
          apply filter_In in I1 as [I1 LT]. apply filter_In in I2 as [I2 _]. cbn [snd] in LT. apply NV in I1. apply NU in I2. eapply (EDGE v x j); eauto; [|lia].
          apply L. exists u, v. split; auto. right. auto. }
      eapply FOP_ext; [|exact FO]. intros p q I1 I2 NE SP. apply OUT in I1, I2. destruct I1 as [A1 A2], I2 as [B1 B2]. destruct SP as [[S1 S2]|(DF & S1 & S2)]; auto.
      specialize (A2 DF). lia.
    - eapply FOP_ext; [|exact P]. intros [[u v] i] [[u' v'] i'] I I' DF [[x j] z] [[x' j'] z'] J J' SP.
      assert (NI : i <> i'). { intro Q. subst i'. destruct (INJ _ _ _ _ _ I I') as [<- <-]. apply DF. left. auto. }
      apply lineOut_in in J as (-> & _ & LT & _); auto. apply lineOut_in in J' as (-> & _ & LT' & _); auto. cbn [fst snd] in SP.
      destruct SP as [[S1 S2]|(DD & S1 & S2)]; auto. specialize (LT DD). specialize (LT' DD). lia.
  Qed.
End Line.

Lemma lineGraph_rep : forall dir (g : graph Z) M lo hi, represents dir g lo hi M ->
  exists g' M', lineGraph dir g = Ok g' /\ represents dir g' 0 (alen (getEdges g)) M' /\
    (forall i j, isEdge M' i j = true <-> i <> j /\ exists u v x u' v' y,
      aget (getEdges g) i = Ok (u, v, x) /\ aget (getEdges g) j = Ok (u', v', y) /\ follows dir (u, v) (u', v')) /\
    (forall i j d, M' i j = Some d -> d = 0).
Proof.
  intros dir g M lo hi R. destruct (rep_len _ _ _ _ _ _ R) as (ML & NC & H & N). pose proof (rep_edges _ _ _ _ _ _ R) as (P & RE & L). pose proof (rep_pairIn _ _ _ _ _ _ R) as PI.
  unfold lineGraph. rewrite ML, N. replace (lo + (hi - lo)) with hi by lia.
  set (nl := number (getEdges g) 0).
  assert (INN : forall u v i, In (u, v, i) nl <-> exists x, aget (getEdges g) i = Ok (u, v, x)).
  { intros u v i. unfold nl. rewrite number_nth, Z.sub_0_r. unfold aget. split.
    - intros (I & x & Q). exists x. replace (i <? 0) with false by lia. rewrite Q. auto.
    - intros (x & Q). destruct (i <? 0) eqn:S; [discriminate|]. split; [lia|]. exists x. destruct (nth_error (getEdges g) (Z.to_nat i)); inv Q. auto. }
  assert (PN : ForallOrdPairs (diffPairs Z dir) nl).
  { unfold nl. eapply FOP_Forall2; [|apply number_Forall2|exact P]. intros [[a b] c] [[a' b'] c'] [[x y] z] [[x' y'] z'] _ _ D S1 S2. cbn [fst] in S1, S2. injection S1 as <- <-. injection S2 as <- <-. exact D. }
  destruct (emplace_build Z dir lo hi nl (mapOf Z dir nl)) as (a & Q & RT); auto.
  { apply Forall_forall. intros [[u v] i] I. apply INN in I as (x & I). unfold aget in I. destruct (i <? 0); [discriminate|]. destruct (nth_error (getEdges g) (Z.to_nat i)) eqn:NE; inv I.
    apply nth_error_In in NE. apply RE in NE as (_ & NE). exact NE. }
  { apply mapOf_lists. auto. }
  unfold newGraph in Q at 1. unfold newGraph at 1. replace (lo <=? hi) with true in * by lia. cbn [judgeAssert bind] in *. rewrite Q. cbn [bind].
  set (tmp := mkGraph a (map (edgeOf Z) nl) lo) in *. assert (GE : getEdges tmp = nl) by apply getEdges_build.
  assert (INJ : forall u v u' v' i, In (u, v, i) (getEdges tmp) -> In (u', v', i) (getEdges tmp) -> u = u' /\ v = v').
  { rewrite GE. intros u v u' v' i I I'. apply INN in I as (x & I). apply INN in I' as (x' & I'). rewrite I in I'. inv I'. auto. }
  rewrite (lineLoop_ok dir tmp _ lo hi RT INJ).
  2: { intros u v i I. apply (rep_edges _ _ _ _ _ _ RT) in I. tauto. }
  unfold edgeCount. replace (alen (edges g)) with (alen (getEdges g)) by (unfold alen, getEdges; rewrite map_length; auto).
  set (out := flat_map (lineOut dir tmp) (getEdges tmp)).
  assert (INO : forall i j z, In (i, j, z) out <-> z = 0 /\ (dir = false -> i < j) /\ exists u v u' v', In (u, v, i) nl /\ In (u', v', j) nl /\ follows dir (u, v) (u', v')).
  { intros i j z. unfold out. rewrite in_flat_map. split.
    - intros ([[u v] i'] & I & J). apply (lineOut_in dir tmp _ lo hi RT INJ) in J as (-> & -> & LT & u' & v' & J & F); auto. rewrite GE in *. split; auto. split; auto. exists u, v, u', v'. auto.
    - intros (-> & LT & u & v & u' & v' & I & J & F). exists (u, v, i). rewrite GE. split; auto. apply (lineOut_in dir tmp _ lo hi RT INJ); [rewrite GE; auto|]. rewrite GE. split; auto. split; auto. split; auto. exists u', v'. auto. }
  assert (NS : forall i u v u' v', In (u, v, i) nl -> In (u', v', i) nl -> dir = true -> ~ follows dir (u, v) (u', v')).
  { intros i u v u' v' I I' DT F. rewrite <- GE in I, I'. destruct (INJ _ _ _ _ _ I I') as [<- <-]. unfold follows in F. rewrite DT in F. cbn in F.
    apply (rep_edges _ _ _ _ _ _ RT) in I as (_ & _ & _ & NE). auto. }
  assert (RG : forall u v i, In (u, v, i) nl -> 0 <= i < alen (getEdges g)).
  { intros u v i I. apply INN in I as (x & I). unfold aget in I. destruct (i <? 0) eqn:S; [discriminate|]. destruct (nth_error (getEdges g) (Z.to_nat i)) eqn:NE; [|discriminate].
    assert (Z.to_nat i < length (getEdges g))%nat by (apply nth_error_Some; congruence). unfold alen. lia. }
  pose proof (lineOut_FOP dir tmp _ lo hi RT INJ : ForallOrdPairs (diffPairs Z dir) out) as PO.
  destruct (emplace_build Z dir 0 (alen (getEdges g)) out (mapOf Z dir out)) as (a2 & Q2 & R2); auto.
  - unfold alen. lia.
  - apply Forall_forall. intros [[i j] z] I. apply INO in I as (-> & LT & u & v & u' & v' & I & J & F). cbn [fst snd]. split; [eapply RG; eauto|]. split; [eapply RG; eauto|].
    intro; subst j. destruct dir eqn:DD; [|specialize (LT eq_refl); lia]. eapply (NS i u v u' v'); eauto.
  - apply mapOf_lists. auto.
  - destruct (newGraph 0 (alen (getEdges g))) as [res| | |] eqn:NG; try discriminate Q2. cbn [bind] in *. eexists _, (mapOf Z dir out). split; [exact Q2|]. split; [exact R2|]. split.
    + intros i j. rewrite isEdge_true. split.
      * intros (d & D). apply (mapOf_lists Z dir out PO) in D as (x & y & I & SP). apply INO in I as (-> & LT & u & v & u' & v' & I & J & F).
        assert (NE : x <> y). { intro; subst y. destruct dir eqn:DD; [|specialize (LT eq_refl); lia]. eapply (NS x u v u' v'); eauto. }
        apply INN in I as (d & I). apply INN in J as (d' & J). destruct SP as [[<- <-]|(DF & <- & <-)].
        -- split; auto. exists u, v, d, u', v', d'. auto.
        -- split; auto. exists u', v', d', u, v, d. split; auto. split; auto. unfold follows in *. rewrite DF in *. cbn [fst snd] in *. intuition.
      * intros (NE & u & v & x & u' & v' & y & I & J & F). exists 0. apply (mapOf_lists Z dir out PO).
        assert (I' : In (u, v, i) nl) by (apply INN; eauto). assert (J' : In (u', v', j) nl) by (apply INN; eauto).
        destruct dir eqn:DD.
        -- exists i, j. split; [|left; auto]. apply INO. split; auto. split; [discriminate|]. exists u, v, u', v'. auto.
        -- destruct (Z_lt_dec i j) as [C|C].
           ++ exists i, j. split; [|left; auto]. apply INO. split; auto. split; auto. exists u, v, u', v'. auto.
           ++ exists j, i. split; [|right; auto]. apply INO. split; auto. split; [lia|]. exists u', v', u, v. split; auto. split; auto. unfold follows in *. cbn [fst snd] in *. intuition.
    + intros i j d D. apply (mapOf_lists Z dir out PO) in D as (x & y & I & _). apply INO in I. tauto.
Qed.

(* ---- where the operations go wrong ---- *)
(* range on a graph with nodes from 5: the bounds are shifted but the edge ends are not *)
Definition shifted : outcome (graph unit) :=
  let! g := newGraph 5 15 in addEdges false g [(5, 6, tt); (8, 9, tt)].
Lemma range_shifted : (let! g := shifted in let! r := range false g 5 10 in Ok (getEdges g, getEdges r)) = Ok ([(5, 6, tt); (8, 9, tt)], []) /\
  (let! g := shifted in range false g 13 15) = Throw.
Proof. split; vm_compute; reflexivity. Qed.
(* permutate accepts permutations of the wrong length *)
Lemma permutate_short : 
  (let! g := newGraph 0 2 in let! g := addEdge false g 0 1 tt in play (permutateWith false g [0]) [0; 0]) = UB /\
  (let! g := newGraph 0 2 in let! g := addEdge false g 0 1 tt in play (permutateWith false g [0; 2; 1]) [0; 0]) = UB.
Proof. split; vm_compute; reflexivity. Qed.
(* power of an undirected graph lists every edge twice; erasing an edge then does not remove it *)
Lemma power_twice :
  (let! g := newGraph 0 2 in let! g := addEdge false g 0 1 tt in let! p := power tt false g 1 in
   let! (q, b) := eraseEdge false p 0 1 in let! h := hasEdge q 0 1 in Ok (getEdges p, b, getEdges q, h)) =
  Ok ([(0, 1, tt); (1, 0, tt)], true, [(1, 0, tt)], true).
Proof. vm_compute. reflexivity. Qed.
