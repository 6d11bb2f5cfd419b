(* The directed random tree. *)
From Verif Require Import Base BaseLemmas Tac RndModel RndLemmas GenModel GenSpec GenProofs GenProofs2 GenProofs3 GenOpsProofs.
From Verif Require Import GraphSpec GenMakeModel GenMakeSpec GenMakeProofs GenMakeProofs2 GenRandSpec GenRandProofs GenRandProofs2 GenTreeSpec GenTreeProofs GenTreeProofs2 GenTreeProofs3.
From Coq Require Import QArith Permutation Sorted.
Open Scope Z_scope.

(* parents and depths of a tree with root r *)
Definition rooted (V : list Z) (E : list (Z * Z)) (r : Z) (par dep : Z -> Z) : Prop :=
  (forall v, In v V -> 0 <= dep v < alen V) /\
  (forall v, In v V -> v <> r -> In (par v) V /\ dep v = dep (par v) + 1) /\
  (forall u v, joined E u v <-> In u V /\ In v V /\ ((u <> r /\ par u = v) \/ (v <> r /\ par v = u))).
Lemma root_tree : forall k V E r, length V = S k -> treeOn V E -> In r V -> exists par dep, rooted V E r par dep.
Proof.
  induction k as [|k IH]; intros V E r LV T IR; pose proof T as (NV & NE & R & C & L).
  - destruct V as [|a [|b V]]; cbn in LV; try lia. destruct IR as [->|[]]. destruct E; cbn in L; [|lia]. exists (fun _ => 0), (fun _ => 0). split; [|split].
    + intros. unfold alen. cbn. lia.
    + intros v [<-|[]]. tauto.
    + intros u v. split; [intros [[]|[]]|]. intros ([<-|[]] & [<-|[]] & Q). exfalso. tauto.
  - destruct (treeOn_leaf V E r T) as (y & IY & YR & DY); [lia|]. destruct (leaf_split V E y T IY DY) as (x & E' & IX & XY & JE & T').
    pose proof (rem_length y V NV IY) as RL. destruct (IH (remove Z.eq_dec y V) E' r) as (par & dep & H1 & H2 & H3); auto; [lia|apply in_rem; auto|].
    assert (IRm : forall v, In v V -> v <> y -> In v (remove Z.eq_dec y V)) by (intros; apply in_rem; auto).
    exists (fun v => if v =? y then x else par v), (fun v => if v =? y then dep x + 1 else dep v).
    assert (A' : alen V = alen (remove Z.eq_dec y V) + 1) by (unfold alen; lia). split; [|split].
    + intros v I. rewrite A'. destruct (v =? y) eqn:Q. * pose proof (H1 x (IRm _ IX XY)). lia. * assert (VY : v <> y) by lia. pose proof (H1 v (IRm _ I VY)). lia.
    + intros v I VR. destruct (v =? y) eqn:Q.
      * replace (x =? y) with false by lia. auto.
      * assert (VY : v <> y) by lia. destruct (H2 v (IRm _ I VY) VR) as (A & B). apply in_rem in A as (A & AY). replace (par v =? y) with false by lia. auto.
    + intros u v. rewrite JE, H3, !in_rem. split.
      * intros [(-> & ->)|[(-> & ->)|((U & UY) & (V' & VY) & Q)]].
        -- split; [auto|]. split; [auto|]. right. rewrite Z.eqb_refl. auto.
        -- split; [auto|]. split; [auto|]. left. rewrite Z.eqb_refl. auto.
        -- split; [auto|]. split; [auto|]. replace (u =? y) with false by lia. replace (v =? y) with false by lia. auto.
      * intros (U & V' & Q). destruct (Z.eq_dec u y) as [UY|UY].
        -- subst u. rewrite Z.eqb_refl in Q. destruct Q as [(_ & Q)|(VR & Q)]; [right; left; auto|]. exfalso. destruct (Z.eq_dec v y) as [VY|VY]; [subst v; rewrite Z.eqb_refl in Q; congruence|]. replace (v =? y) with false in Q by lia.
           destruct (H2 v (IRm _ V' VY) VR) as (A & _). rewrite Q in A. apply in_rem in A. tauto.
        -- replace (u =? y) with false in Q by lia. destruct (Z.eq_dec v y) as [VY|VY].
           ++ subst v. rewrite Z.eqb_refl in Q. destruct Q as [(UR & Q)|(_ & Q)]; [|left; auto]. exfalso. destruct (H2 u (IRm _ U UY) UR) as (A & _). rewrite Q in A. apply in_rem in A. tauto.
           ++ replace (v =? y) with false in Q by lia. right. right. auto.
Qed.

Section Orient.
  Variable E : Type.
  Variable dflt : E.
  Variable n : Z.
  Variable Es : list (Z * Z).
  Variable tmp : graph unit.
  Variables par dep : Z -> Z.
  Let V := zseq 0 (Z.to_nat n).
  Hypothesis RT : rooted V Es 0 par dep.
  Variable M0 : emap unit.
  Hypothesis RP : represents false tmp 0 n M0.
  Hypothesis MJ : forall u v, isEdge M0 u v = true <-> joined Es u v.
  Hypothesis N : 1 <= n.

  Definition child (u v : Z) : Prop := In v V /\ v <> 0 /\ par v = u.
  Inductive below (c : Z) : Z -> Prop :=
  | below_refl : below c c
  | below_step : forall v, In v V -> v <> 0 -> below c (par v) -> below c v.
  Lemma below_split : forall c u, below c u -> u = c \/ exists t, child c t /\ below t u.
  Proof.
    induction 1 as [|v I NZ B IH]; auto. right. destruct IH as [Q|(t & C & B')].
    - exists v. split; [|constructor]. split; auto.
    - exists t. split; auto. constructor; auto.
  Qed.
  Definition pref (cur : Z) : Z := if cur =? 0 then -1 else par cur.
  Lemma in_V : forall v, In v V <-> 0 <= v < n.
  Proof. intro v. unfold V. rewrite in_zseq. lia. Qed.
  Lemma child_dep : forall u v, child u v -> In u V /\ dep v = dep u + 1.
  Proof. intros u v (I & NZ & <-). destruct RT as (_ & H & _). apply H; auto. Qed.
  Lemma neigh_child : forall u v, In u V -> joined Es u v -> v <> pref u -> child u v.
  Proof.
    intros u v U J NP. destruct RT as (_ & _ & H). apply H in J as (_ & V' & [(NZ & Q)|(NZ & Q)]); [|split; auto].
    exfalso. apply NP. unfold pref. replace (u =? 0) with false by lia. auto.
  Qed.
  Lemma child_neigh : forall u v, child u v -> joined Es u v /\ v <> pref u /\ pref v = u.
  Proof.
    intros u v C. destruct (child_dep u v C) as (U & D). pose proof C as (I & NZ & Q). split; [|split].
    - destruct RT as (_ & _ & H). apply H. split; auto.
    - intros ->. unfold pref in *. destruct (u =? 0) eqn:Z0; [apply in_V in I; lia|]. assert (NZ' : u <> 0) by lia. destruct RT as (_ & H & _). destruct (H u U NZ'). lia.
    - unfold pref. replace (v =? 0) with false by lia. auto.
  Qed.
  Definition grown (M M' : emap E) : Prop := forall u v, M' u v = M u v \/ (M' u v = Some dflt /\ child u v).
  Lemma grown_keep : forall M M' u v, grown M M' -> M u v = Some dflt -> M' u v = Some dflt.
  Proof. intros M M' u v G Q. destruct (G u v) as [->|(-> & _)]; auto. Qed.
  Lemma grown_trans : forall M M' M'', grown M M' -> grown M' M'' -> grown M M''.
  Proof. intros M M' M'' A B u v. destruct (B u v) as [->|B']; auto. Qed.
  Lemma orient_ok : forall f cur res M, In cur V -> n - dep cur < Z.of_nat f -> represents true res 0 n M ->
    exists res' M', orient f tmp dflt res cur (pref cur) = Ok res' /\ represents true res' 0 n M' /\ grown M M' /\
      (forall u v, below cur u -> child u v -> M' u v = Some dflt).
  Proof.
    induction f as [|f IH]; intros cur res M I F R.
    - exfalso. destruct RT as (H & _). pose proof (H cur I) as D. unfold V, alen in D. rewrite zseq_length in D. lia.
    - assert (exists l, neighbours tmp cur = Ok l /\ neighbourList M0 cur l) as (l & NQ & _ & NL).
      { destruct (rep_observe unit false tmp _ _ _ [CNeighbours cur] RP) as (g' & a & X & A). { constructor; auto. cbn. apply in_V. auto. }
        cbn [grun gstep] in X. destruct (neighbours tmp cur) as [l| | |]; try discriminate. cbn [bind] in X. inv X. inv A. eauto. }
      cbn [orient]. rewrite NQ. cbn [bind].
      assert (JL : forall t d, In (t, d) l -> joined Es cur t). { intros t d J. apply MJ. apply NL in J. unfold isEdge. rewrite J. auto. }
      assert (LJ : forall t, joined Es cur t -> In (t, tt) l). { intros t J. apply MJ in J. unfold isEdge in J. apply NL. destruct (M0 cur t) as [[]|]; auto. discriminate. }
      assert (EACH : forall l res M, (forall t d, In (t, d) l -> joined Es cur t) -> represents true res 0 n M -> exists res' M',
        (fix each (l : list (Z * unit)) (res : graph E) : outcome (graph E) :=
           match l with
           | [] => Ok res
           | (to, _) :: l' =>
             if to =? pref cur then each l' res
             else
               let! res := addEdge true res cur to dflt in
               let! res := orient f tmp dflt res to cur in
               each l' res
           end) l res = Ok res' /\ represents true res' 0 n M' /\ grown M M' /\
        (forall t d, In (t, d) l -> t <> pref cur -> M' cur t = Some dflt /\ forall u v, below t u -> child u v -> M' u v = Some dflt)).
      { clear JL LJ NL NQ l R res M. induction l as [|[t d] l IHl]; intros res M JL R.
        - exists res, M. split; auto. split; auto. split; [intros u v; auto|]. intros t d [].
        - destruct (t =? pref cur) eqn:TP.
          + apply Z.eqb_eq in TP. destruct (IHl res M) as (res' & M' & Q & R' & G & H); auto. { intros x y J. apply (JL x y). right. auto. }
            exists res', M'. split; auto. split; auto. split; auto. intros x y [J|J] NP; [inv J; congruence|]. eauto.
          + assert (C : child cur t) by (apply neigh_child; auto; [apply (JL t d); left; auto|lia]). destruct (child_dep _ _ C) as (_ & D). destruct (child_neigh _ _ C) as (J & _ & PT). pose proof C as (IT & TZ & PQ).
            assert (NE : cur <> t) by (intros ->; lia). destruct (add_rep E true res M 0 n cur t dflt R) as (r1 & -> & R1); [apply in_V; auto|apply in_V; auto|auto|]. cbn [bind].
            destruct (IH t r1 _ IT ltac:(lia) R1) as (r2 & M2 & Q2 & R2 & G2 & H2). rewrite PT in Q2. rewrite Q2. cbn [bind].
            destruct (IHl r2 M2) as (r3 & M3 & Q3 & R3 & G3 & H3); auto. { intros x y J'. apply (JL x y). right. auto. }
            exists r3, M3. split; auto. split; auto. assert (P1 : forall u v, put true M cur t (Some dflt) u v = M u v \/ put true M cur t (Some dflt) u v = Some dflt /\ child u v).
            { intros u v. unfold put, samePairb. cbn [negb andb]. destruct ((cur =? u) && (t =? v) || false) eqn:K; auto. right. assert (cur = u /\ t = v) as (<- & <-) by lia. auto. }
            split; [apply (grown_trans _ _ _ P1); eapply grown_trans; eauto|].
            intros x y [J'|J'] NP; [injection J' as <- <-|eauto]. split.
            * eapply grown_keep; [exact G3|]. eapply grown_keep; [exact G2|]. unfold put, samePairb. rewrite !Z.eqb_refl. auto.
            * intros u v B C'. eapply grown_keep; [exact G3|]. auto. }
      destruct (EACH l res M JL R) as (res' & M' & Q & R' & G & H). exists res', M'. split; auto. split; auto. split; auto.
      intros u v B C. apply below_split in B as [->|(t & CT & B)].
      + destruct (child_neigh _ _ C) as (J & NP & _). destruct (H v tt) as (X & _); auto.
      + destruct (child_neigh _ _ CT) as (J & NP & _). destruct (H t tt) as (_ & X); auto.
  Qed.
  Lemma below_root : forall k v, In v V -> dep v < Z.of_nat k -> below 0 v.
  Proof.
    induction k as [|k IH]; intros v I D; [destruct RT as (H & _); pose proof (H v I); lia|]. destruct (Z.eq_dec v 0) as [->|NZ]; [constructor|].
    constructor; auto. destruct RT as (_ & H & _). destruct (H v I NZ) as (A & B). apply IH; auto. lia.
  Qed.
  Lemma orient_tree : exists res0 g M, newGraph 0 n = Ok res0 /\ orient (S (Z.to_nat n)) tmp dflt res0 (minId tmp) (minId tmp - 1) = Ok g /\
    represents true g 0 n M /\ (forall u v d, M u v = Some d <-> child u v /\ d = dflt).
  Proof.
    destruct (newGraph_rep E true 0 n) as (g0 & Q0 & R0); [lia|]. assert (I0 : In 0 V) by (apply in_V; lia).
    assert (QM : minId tmp = 0) by apply RP. rewrite QM. destruct (orient_ok (S (Z.to_nat n)) 0 g0 (fun _ _ => None) I0) as (g & M & Q & R & G & H); [|exact R0|].
    { destruct RT as (D & _). pose proof (D 0 I0). lia. }
    exists g0, g, M. split; auto. split; auto. split; auto. intros u v d. split.
    - intro X. destruct (G u v) as [Y|(Y & C)]; [congruence|]. split; auto. congruence.
    - intros (C & ->). apply H; auto. destruct (child_dep _ _ C) as (U & _). apply (below_root (S (Z.to_nat (dep u)))); auto. destruct RT as (D & _). pose proof (D u U). lia.
  Qed.
  Lemma child_arbor : forall (g : graph E) M, represents true g 0 n M -> (forall u v d, M u v = Some d <-> child u v /\ d = dflt) ->
    arborescence 0 n (map fst (getEdges g)) 0 /\ forall u v, joined Es u v <-> isEdge M u v = true \/ isEdge M v u = true.
  Proof.
    intros g M R MC. pose proof R as R'. apply rep_edges in R' as (FO & R1 & R2).
    assert (IE : forall u v, In (u, v) (map fst (getEdges g)) <-> child u v).
    { intros u v. rewrite in_map_iff. split.
      - intros ([[a b] d] & Q & I). cbn in Q. inv Q. apply R1 in I as (I & _). apply MC in I. tauto.
      - intro C. assert (Q : M u v = Some dflt) by (apply MC; auto). apply R2 in Q as (x & y & I & [(-> & ->)|(Q & _)]); [|discriminate]. exists (u, v, dflt). auto. }
    split; [|].
    - split; [unfold node; lia|]. split.
      + assert (RB : forall v, below 0 v -> reaches (map fst (getEdges g)) 0 v). { induction 1 as [|v I NZ B IH]; [constructor|]. econstructor; [exact IH|]. apply IE. split; auto. }
        intros x X. apply RB. assert (IX : In x V) by (apply in_V; auto). apply (below_root (S (Z.to_nat (dep x)))); auto. destruct RT as (D & _). pose proof (D x IX). lia.
      + intros x X. assert (IX : In x V) by (apply in_V; auto). destruct (x =? 0) eqn:XZ.
        * apply length_zero_iff_nil. destruct (filter (fun e => snd e =? x) (map fst (getEdges g))) as [|[u v] l] eqn:FQ; auto. exfalso.
          assert (I : In (u, v) (filter (fun e => snd e =? x) (map fst (getEdges g)))) by (rewrite FQ; left; auto). apply filter_In in I as (I & C). apply IE in I as (_ & I & _). cbn [snd] in C. lia.
        * apply Nat.le_antisymm.
          -- apply all_eq_len.
             ++ apply NoDup_filter. clear - FO. revert FO. generalize (getEdges g) as l. induction l as [|p l IH]; intro FO; cbn [map]; constructor; inv FO; auto.
                rewrite Forall_forall in H1. intro I. apply in_map_iff in I as (q & Q & I). apply (H1 q I). unfold samePair. rewrite Q. auto.
             ++ intros [a b] [c d] A B. apply filter_In in A as (A & A'). apply filter_In in B as (B & B'). cbn [snd] in *. apply IE in A as (_ & _ & A). apply IE in B as (_ & _ & B). assert (b = d) by lia. congruence.
          -- assert (I : In (par x, x) (filter (fun e => snd e =? x) (map fst (getEdges g)))). { apply filter_In. split; [|cbn; lia]. apply IE. split; [auto|]. split; [lia|auto]. }
             destruct (filter (fun e => snd e =? x) (map fst (getEdges g))); [destruct I|]. cbn [length]. lia.
    - assert (IM : forall u v, isEdge M u v = true <-> child u v). { intros u v. unfold isEdge. destruct (M u v) as [d|] eqn:Q; [apply MC in Q as (Q & _); tauto|]. split; [discriminate|]. intro C. assert (M u v = Some dflt) by (apply MC; auto). congruence. }
      intros u v. rewrite !IM. destruct RT as (_ & A & H). rewrite H. split.
      + intros (U & V' & [(NZ & Q)|(NZ & Q)]); [right|left]; split; auto.
      + intros [C|C]; pose proof C as (I & NZ & Q); destruct (child_dep _ _ C) as (U & _); split; auto.
  Qed.
End Orient.

Lemma randomTreeDir_rep : forall E (dflt : E) n P tmp, 1 <= n -> represents false tmp 0 n (edgesBy tt P) -> isTree n P ->
  exists res0 g M, newGraph 0 n = Ok res0 /\ orient (S (Z.to_nat n)) tmp dflt res0 (minId tmp) (minId tmp - 1) = Ok g /\ represents true g 0 n M /\
    (forall u v d, M u v = Some d -> d = dflt) /\ arborescence 0 n (map fst (getEdges g)) 0 /\ forall u v, isEdge M u v || isEdge M v u = P u v.
Proof.
  intros E dflt n P tmp N R T. assert (IN : In 0 (zseq 0 (Z.to_nat n))) by (apply in_zseq; lia).
  destruct (root_tree (Z.to_nat (n - 1)) (zseq 0 (Z.to_nat n)) (pairsOf n P) 0) as (par & dep & RT); [rewrite zseq_length; lia|apply isTree_on; auto; lia|auto|].
  assert (SY : forall u v, P u v = P v u). { intros u v. destruct R as (_ & _ & SY & _). specialize (SY eq_refl u v). unfold edgesBy in SY. destruct (P u v), (P v u); auto; discriminate. }
  assert (RG : forall u v, P u v = true -> 0 <= u < n /\ 0 <= v < n /\ u <> v). { intros u v Q. destruct R as (_ & _ & _ & _ & RG & _). apply RG. unfold isEdge, edgesBy. rewrite Q. auto. }
  assert (MJ : forall u v, isEdge (edgesBy tt P) u v = true <-> joined (pairsOf n P) u v).
  { intros u v. replace (isEdge (edgesBy tt P) u v) with (P u v) by (unfold isEdge, edgesBy; destruct (P u v); auto). unfold joined. rewrite !pairsOf_in. rewrite (SY v u). split.
    - intro Q. destruct (RG u v Q) as (A & B & C). destruct (Z_lt_dec u v); [left|right]; (split; [lia|split; [lia|auto]]).
    - tauto. }
  destruct (orient_tree E dflt n (pairsOf n P) tmp par dep RT _ R MJ N) as (res0 & g & M & Q0 & Q & GR & MC). exists res0, g, M. split; auto. split; auto. split; auto.
  split; [intros u v d X; apply MC in X; tauto|]. edestruct (child_arbor E dflt n (pairsOf n P)) as (A & J); eauto. split; auto.
  intros u v. specialize (J u v). rewrite <- MJ in J. replace (isEdge (edgesBy tt P) u v) with (P u v) in J by (unfold isEdge, edgesBy; destruct (P u v); auto).
  destruct (isEdge M u v), (isEdge M v u), (P u v); cbn [orb]; auto; exfalso; intuition discriminate.
Qed.
Lemma randomTreeDir_always : forall E (dflt : E) n, 1 <= n -> always (randomTreeDir dflt n) (returns (fun g =>
  exists M, represents true g 0 n M /\ (forall u v d, M u v = Some d -> d = dflt) /\ arborescence 0 n (map fst (getEdges g)) 0 /\
    isTree n (fun u v => isEdge M u v || isEdge M v u))).
Proof.
  intros E dflt n N. unfold randomTreeDir. eapply returns_bind; [apply randomTree_always; auto|]. intros tmp (P & R & T & _).
  destruct (randomTreeDir_rep E dflt n P tmp N R T) as (g0 & g & M & -> & Q & GR & D & A & J). cbn [lift RndModel.rbind always returns]. rewrite Q. cbn [returns]. exists M. split; auto. split; auto. split; auto.
  assert (PE : pairsOf n (fun u v => isEdge M u v || isEdge M v u) = pairsOf n P). { unfold pairsOf. apply filter_ext. intros [u v]. cbn [fst snd]. auto. }
  unfold isTree in *. rewrite PE. auto.
Qed.
Lemma randomTreeDir_uniform : forall E (dflt : E) n P, 2 <= n -> isTree n P ->
  (Pr (randomTreeDir dflt n) (underlyingIs (allPairs false n) P) == 1 / inject_Z (n ^ (n - 2)))%Q.
Proof.
  intros E dflt n P N T. rewrite <- (randomTree_uniform unit tt n P N T). unfold Pr, randomTreeDir. rewrite expect_bind. apply expect_ext_always.
  eapply always_mono; [|apply (randomTree_always unit tt n ltac:(lia))]. intros [tmp| | |] X; cbn [returns] in X; try contradiction. destruct X as (P' & R & T' & _).
  destruct (randomTreeDir_rep E dflt n P' tmp ltac:(lia) R T') as (g0 & g & M & -> & Q & GR & D & A & J). cbn [lift RndModel.rbind expect]. rewrite Q.
  assert (EQ : underlyingIs (allPairs false n) P (Ok g) = graphIs (allPairs false n) P (Ok tmp)); [|rewrite EQ; reflexivity].
  unfold underlyingIs, graphIs.
  assert (FE : forall l, (forall u v, In (u, v) l -> 0 <= u < n /\ 0 <= v < n) ->
    forallb (fun p => match hasEdge g (fst p) (snd p), hasEdge g (snd p) (fst p) with Ok a, Ok b => Bool.eqb (a || b) (P (fst p) (snd p)) | _, _ => false end) l =
    forallb (fun p => match hasEdge tmp (fst p) (snd p) with Ok b => Bool.eqb b (P (fst p) (snd p)) | _ => false end) l).
  { induction l as [|[u v] l IH]; intro H; cbn [forallb]; auto. rewrite IH by (intros; apply H; right; auto). f_equal. cbn [fst snd]. destruct (H u v (or_introl eq_refl)) as (U & V).
    rewrite !(has_rep E true g M 0 n) by auto. rewrite (has_rep unit false tmp _ 0 n u v R) by auto. rewrite J. f_equal. unfold isEdge, edgesBy. destruct (P' u v); auto. }
  apply FE. intros u v I. apply allPairs_in in I. lia.
Qed.
