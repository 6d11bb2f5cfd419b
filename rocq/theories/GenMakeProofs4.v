(* Complete trees. *)
From Verif Require Import Base Tac RndModel RndLemmas GenModel GenSpec GenProofs GenProofs2 GenOpsModel GenProofs3 GenOpsProofs GenOpsProofs2 GenOpsProofs3.
From Verif Require Import GenMakeModel GenMakeSpec GenMakeProofs GenMakeProofs2.

Section Tree.
  Variable E : Type.
  Variable dir : bool.
  Variable dflt : E.
  Variable c : Z.
  Hypothesis C : 0 <= c.

  Lemma treeSize_pos : forall h, 1 <= treeSize c h.
  Proof. induction h; cbn [treeSize]; nia. Qed.
  (* M has exactly the edges R, with default data *)
  Definition edgesAre (M : emap E) (R : Z -> Z -> Prop) : Prop :=
    (forall u v, isEdge M u v = true <-> R u v \/ dir = false /\ R v u) /\ (forall u v d, M u v = Some d -> d = dflt).
  (* the root with the first k subtrees *)
  Definition partTree (T : Z -> Z -> Prop) (s k u v : Z) : Prop :=
    exists j, 0 <= j < k /\ ((u = 0 /\ v = 1 + j * s) \/ exists a b, T a b /\ u = 1 + j * s + a /\ v = 1 + j * s + b).
  Lemma partTree_edge : forall h u v, treeEdge c (S h) u v <-> partTree (treeEdge c h) (treeSize c h) c u v.
  Proof.
    intros h u v. split.
    - intro H. inv H; eexists; split; try eassumption; [left|right]; eauto.
    - intros (j & J & [(-> & ->)|(a & b & T & -> & ->)]); constructor; auto.
  Qed.
  Lemma treeLoop_ok : forall sub MS T s i k g M, represents dir sub 0 s MS -> edgesAre MS T -> 1 <= s -> 0 <= k ->
    represents dir g 0 (1 + k * s) M -> edgesAre M (partTree T s k) ->
    exists g' M', treeLoop dflt dir sub g i = Ok g' /\ represents dir g' 0 (1 + (k + Z.of_nat i) * s) M' /\ edgesAre M' (partTree T s (k + Z.of_nat i)).
  Proof.
    intros sub MS T s i. induction i as [|i IH]; intros k g M RS ES S1 K R EM; cbn [treeLoop].
    - exists g, M. replace (k + Z.of_nat 0) with k by lia. auto.
    - destruct (append_rep E dir g _ _ _ sub _ _ _ R RS) as (g1 & Q1 & R1). rewrite Q1. cbn [bind].
      destruct (rep_len _ _ _ _ _ _ R) as (_ & _ & _ & NC). rewrite NC, Z.sub_0_r.
      replace (1 + k * s + (s - 0)) with (1 + (k + 1) * s) in R1 by lia.
      destruct (add_rep E dir g1 _ _ _ 0 (1 + k * s) dflt R1) as (g2 & Q2 & R2); try nia. rewrite Q2. cbn [bind].
      replace (k + Z.of_nat (S i)) with (k + 1 + Z.of_nat i) by lia. eapply IH; try exact R2; auto; try lia.
      destruct EM as (EM & ED). destruct ES as (ES & ESD).
      assert (RG : forall u v, isEdge M u v = true -> 0 <= u < 1 + k * s /\ 0 <= v < 1 + k * s) by (intros u v I; destruct R as (_ & _ & _ & _ & H & _); destruct (H u v I); intuition lia).
      assert (RT : forall a b, T a b -> 0 <= a < s /\ 0 <= b < s).
      { intros a b I. destruct RS as (_ & _ & _ & _ & H & _). destruct (H a b); intuition. apply ES. auto. }
      split.
      + intros u v. unfold put, isEdge at 1.
        assert (KEY : (if samePairb dir 0 (1 + k * s) u v then Some dflt
                       else match MS (u - (1 + k * s) + 0) (v - (1 + k * s) + 0) with Some d => Some d | None => M u v end) <> None <->
          samePair dir 0 (1 + k * s) u v \/ isEdge MS (u - (1 + k * s)) (v - (1 + k * s)) = true \/ isEdge M u v = true).
        { rewrite !Z.add_0_r. destruct (samePairb dir 0 (1 + k * s) u v) eqn:SP.
          - split; [|discriminate]. intros _. left. unfold samePairb in SP. unfold samePair. destruct dir; [left|destruct (u =? 0) eqn:?; [left|right]]; lia.
          - unfold isEdge. destruct (MS _ _); [intuition congruence|]. destruct (M u v); [intuition congruence|]. split; [congruence|].
            intros [H|[H|H]]; try discriminate. exfalso. unfold samePair in H. unfold samePairb in SP. destruct dir; [|]; lia. }
        split.
        * intro H. destruct KEY as (KEY & _). destruct KEY as [KEY|[KEY|KEY]].
          -- intro Z0. rewrite Z0 in H. discriminate.
          -- destruct KEY as [(<- & <-)|(D & <- & <-)]; [left|right; split; auto]; exists k; split; try lia; left; auto.
          -- apply ES in KEY as [KEY|(D & KEY)]; [left|right; split; auto]; exists k; (split; [lia|]); right; eexists; eexists; (split; [exact KEY|]); lia.
          -- apply EM in KEY as [(j & J & KEY)|(D & j & J & KEY)]; [left|right; split; auto]; exists j; (split; [lia|]); auto.
        * intro H. match goal with |- match ?x with _ => _ end = true => enough (NN : x <> None) by (destruct x; auto; congruence) end. apply KEY. clear KEY.
          assert (CASE : forall a b, partTree T s (k + 1) a b -> (a = 0 /\ b = 1 + k * s) \/ T (a - (1 + k * s)) (b - (1 + k * s)) \/ partTree T s k a b).
          { intros a b (j & J & X). destruct (Z.eq_dec j k) as [->|NE].
            - destruct X as [X|(a' & b' & X & -> & ->)]; auto. right. left. replace (1 + k * s + a' - (1 + k * s)) with a' by lia. replace (1 + k * s + b' - (1 + k * s)) with b' by lia. auto.
            - right. right. exists j. split; auto. lia. }
          destruct H as [H|(D & H)]; apply CASE in H as [(-> & ->)|[H|H]].
          -- left. left. auto.
          -- right. left. apply ES. auto.
          -- right. right. apply EM. auto.
          -- left. right. auto.
          -- right. left. apply ES. auto.
          -- right. right. apply EM. auto.
      + intros u v d. unfold put. destruct (samePairb _ _ _ _ _); [congruence|]. destruct (MS _ _) eqn:Q; [|apply ED]. intro X. inv X. eapply ESD; eauto.
  Qed.
  Lemma treeLevels_ok : forall h, exists g M, treeLevels dflt dir c h = Ok g /\ represents dir g 0 (treeSize c (S h)) M /\ edgesAre M (treeEdge c (S h)).
  Proof.
    induction h as [|h (sub & MS & Q & RS & ES)]; cbn [treeLevels].
    - destruct (star_rep E dir dflt c C) as (g & -> & R). exists g. eexists. split; [reflexivity|]. cbn [treeSize]. replace (1 + c * 1) with (c + 1) by lia. split; [exact R|].
      split.
      + intros u v. rewrite isEdge_by. assert (T1 : forall a b, treeEdge c 1 a b <-> a = 0 /\ 1 <= b < c + 1).
        { intros a b. rewrite partTree_edge. cbn [treeSize]. split.
          - intros (j & J & [(-> & ->)|(? & ? & T & _)]); [lia|inv T].
          - intros (-> & B). exists (b - 1). split; [lia|]. left. lia. }
        rewrite !T1. unfold sym, inside. destruct dir; cbn [negb andb]; split; intro H; try (right; lia); try (left; lia); try lia.
      + intros u v d. unfold edgesBy. destruct (sym _ _ _ _); congruence.
    - destruct (newGraph_rep E dir 0 1) as (g0 & -> & R0); [lia|]. cbn [bind]. rewrite Q. cbn [bind].
      destruct (treeLoop_ok sub MS (treeEdge c (S h)) (treeSize c (S h)) (Z.to_nat c) 0 g0 (fun _ _ => None)) as (g & M & -> & R & EM); auto; try lia.
      + apply treeSize_pos.
      + split; [|discriminate]. intros u v. split; [discriminate|]. intros [(j & J & _)|(_ & j & J & _)]; lia.
      + replace (0 + Z.of_nat (Z.to_nat c)) with c in * by lia. exists g, M. split; auto. split; [exact R|].
        destruct EM as (E1 & E2). split; auto. intros u v. rewrite E1, !partTree_edge. tauto.
  Qed.
  Lemma completeTree_rep : forall level, exists g M, completeTree dflt dir level c = Ok g /\
    represents dir g 0 (treeSize c (Z.to_nat (Z.max 1 (level - 1)))) M /\
    (forall u v, isEdge M u v = true <-> treeEdge c (Z.to_nat (Z.max 1 (level - 1))) u v \/ dir = false /\ treeEdge c (Z.to_nat (Z.max 1 (level - 1))) v u) /\
    (forall u v d, M u v = Some d -> d = dflt).
  Proof.
    intro level. unfold completeTree. replace (Z.to_nat (Z.max 1 (level - 1))) with (S (Z.to_nat (level - 2))) by lia. apply treeLevels_ok.
  Qed.
End Tree.
