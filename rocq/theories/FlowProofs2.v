(* ffWorstcase. *)
From Verif Require Import Base Tac BaseLemmas RndModel RndLemmas RandSpec GenModel GenSpec GenOpsModel FlowModel FlowSpec FlowProofs GenProofs GenProofs2 GenProofs3 GenOpsProofs GenRandProofs DegProofs4.

Ltac unb H := match type of H with bind ?x _ = Ok _ => let Q := fresh "Q" in destruct x eqn:Q; cbn [bind] in H; try discriminate end.
(* new edges are listed last *)
Lemma add_order : forall E dir (g g' : graph E) M lo hi u v d, represents dir g lo hi M -> lo <= u < hi -> lo <= v < hi -> isEdge M u v = false ->
  addEdge dir g u v d = Ok g' -> getEdges g' = getEdges g ++ [(u, v, d)].
Proof.
  intros E dir g g' M lo hi u v d R U V NE H. pose proof (has_rep E dir g M lo hi u v R U V) as HE. rewrite NE in HE. unfold hasEdge in HE. unfold addEdge in H.
  unb H. unb H. unb H. unb H. cbn [bind] in HE. destruct a2; [discriminate|]. unb H. destruct a2 as [g1 it]. inv H. apply addInternal_edges in Q3. unfold getEdges. rewrite Q3.
  unfold emplaceEdge. cbn [edges]. rewrite map_app. cbn [map]. unfold efrom. cbn [ekey eto edat]. rewrite Z.lxor_assoc, Z.lxor_nilpotent, Z.lxor_0_r. auto.
Qed.
Lemma addEdges_order : forall E dir l (g g' : graph E) M lo hi, represents dir g lo hi M ->
  Forall (fun p => lo <= fst (fst p) < hi /\ lo <= snd (fst p) < hi /\ fst (fst p) <> snd (fst p)) l -> ForallOrdPairs (diffPairs E dir) l ->
  Forall (fun p => isEdge M (fst (fst p)) (snd (fst p)) = false) l -> addEdges dir g l = Ok g' -> getEdges g' = getEdges g ++ l.
Proof.
  induction l as [|[[u v] d] l IH]; intros g g' M lo hi R F P NE H; cbn [addEdges] in H; [inv H; rewrite app_nil_r; auto|].
  inv F. inv P. inv NE. cbn [fst snd] in *. destruct H2 as (U & V & UV). destruct (add_rep E dir g M lo hi u v d R U V UV) as (g1 & Q & R1). rewrite Q in H. cbn [bind] in H.
  rewrite (IH g1 g' _ lo hi R1); auto.
  - rewrite (add_order E dir g g1 M lo hi u v d R U V H6 Q). rewrite <- app_assoc. auto.
  - apply Forall_forall. intros p I. rewrite Forall_forall in H7, H4. specialize (H7 p I). specialize (H4 p I). unfold diffPairs in H4. cbn [fst snd] in H4.
    unfold isEdge, put. destruct (samePairb dir u v (fst (fst p)) (snd (fst p))) eqn:SP; auto. exfalso. apply H4. exact (proj1 (GenProofs.samePairb_iff dir _ _ _ _) SP).
Qed.

Definition ffEdges (n p : Z) : list (Z * Z * Z) :=
  [(n - 2 - p, n - 1 - p, 2 ^ p); (n - 2 - p, n + p, 2 ^ p); (n - 1 - p, n + 1 + p, 2 ^ p); (n + p, n + 1 + p, 2 ^ p)].
Lemma ffLoop_edges : forall r fuel n g p, (r < fuel)%nat -> 0 <= p -> n = p + Z.of_nat r + 1 -> n <= 63 ->
  ffLoop fuel n g (n - 2 - p) (n + 1 + p) (2 ^ p) = addEdges true g (flat_map (ffEdges n) (zseq p r)).
Proof.
  induction r as [|r IH]; intros fuel n g p L P N B; (destruct fuel as [|fuel]; [lia|]); cbn [ffLoop zseq flat_map].
  - replace (n + 1 + p <? 2 * n) with false by lia. reflexivity.
  - replace (n + 1 + p <? 2 * n) with true by lia. unfold ffEdges at 1. cbn [app addEdges].
    replace (n - 2 - p + 1) with (n - 1 - p) by lia. replace (n + 1 + p - 1) with (n + p) by lia.
    destruct (addEdge true g (n - 2 - p) (n - 1 - p) (2 ^ p)) as [g1| | |]; cbn [bind]; auto.
    destruct (addEdge true g1 (n - 2 - p) (n + p) (2 ^ p)) as [g2| | |]; cbn [bind]; auto.
    destruct (addEdge true g2 (n - 1 - p) (n + 1 + p) (2 ^ p)) as [g3| | |]; cbn [bind]; auto.
    destruct (addEdge true g3 (n + p) (n + 1 + p) (2 ^ p)) as [g4| | |]; cbn [bind]; auto.
    assert (2 ^ p * 2 = 2 ^ (p + 1)) as -> by (rewrite Z.pow_add_r by lia; lia).
    rewrite chk_Ok. 2: { assert (0 < 2 ^ (p + 1) <= 2 ^ 62) by (split; [apply Z.pow_pos_nonneg; lia|apply Z.pow_le_mono_r; lia]). unfold is_i64, I64_MIN, I64_MAX, two63. lia. }
    cbn [bind]. replace (n - 2 - p - 1) with (n - 2 - (p + 1)) by lia. replace (n + 1 + p + 1) with (n + 1 + (p + 1)) by lia. apply IH; lia.
Qed.
Definition ffC (n u v : Z) : option Z :=
  if (u =? n - 1) && (v =? n) then Some 1
  else if (0 <=? u) && (u <=? n - 2) && ((v =? u + 1) || (v =? 2 * n - 2 - u)) then Some (2 ^ (n - 2 - u))
  else if (1 <=? u) && (u <=? n - 1) && (v =? 2 * n - u) then Some (2 ^ (n - 1 - u))
  else if (n <=? u) && (u <=? 2 * n - 2) && (v =? u + 1) then Some (2 ^ (u - n))
  else None.
Lemma ff_rep : forall n, 1 <= n <= 63 -> exists g M, ffWorstcase n = Ok g /\ represents true g 0 (2 * n) M /\ (forall u v, M u v = ffC n u v) /\
  getEdges g = (n - 1, n, 1) :: flat_map (ffEdges n) (zseq 0 (Z.to_nat (n - 1))).
Proof.
  intros n N. unfold ffWorstcase. replace ((0 <? n) && (n <=? 63)) with true by lia. cbn [judgeAssert bind].
  destruct (new_rep Z true 0 (2 * n)) as (g0 & Q0 & R0); [lia|]. rewrite Q0. cbn [bind].
  set (l := (n - 1, n, 1) :: flat_map (ffEdges n) (zseq 0 (Z.to_nat (n - 1)))).
  assert (LI : forall u v d, In (u, v, d) l -> ffC n u v = Some d /\ 0 <= u < 2 * n /\ 0 <= v < 2 * n /\ u <> v).
  { intros u v d [Q|I].
    - inv Q. unfold ffC. rewrite !Z.eqb_refl. cbn [andb]. split; auto. lia.
    - apply in_flat_map in I as (p & P & I). apply in_zseq in P. unfold ffC. destruct I as [Q|[Q|[Q|[Q|[]]]]]; inv Q.
      + replace ((n - 2 - p =? n - 1) && (n - 1 - p =? n)) with false by lia.
        replace ((0 <=? n - 2 - p) && (n - 2 - p <=? n - 2) && ((n - 1 - p =? n - 2 - p + 1) || (n - 1 - p =? 2 * n - 2 - (n - 2 - p)))) with true by lia.
        split; [f_equal; f_equal; lia|lia].
      + replace ((n - 2 - p =? n - 1) && (n + p =? n)) with false by lia.
        replace ((0 <=? n - 2 - p) && (n - 2 - p <=? n - 2) && ((n + p =? n - 2 - p + 1) || (n + p =? 2 * n - 2 - (n - 2 - p)))) with true by lia.
        split; [f_equal; f_equal; lia|lia].
      + replace ((n - 1 - p =? n - 1) && (n + 1 + p =? n)) with false by lia.
        replace ((0 <=? n - 1 - p) && (n - 1 - p <=? n - 2) && ((n + 1 + p =? n - 1 - p + 1) || (n + 1 + p =? 2 * n - 2 - (n - 1 - p)))) with false by lia.
        replace ((1 <=? n - 1 - p) && (n - 1 - p <=? n - 1) && (n + 1 + p =? 2 * n - (n - 1 - p))) with true by lia.
        split; [f_equal; f_equal; lia|lia].
      + replace ((n + p =? n - 1) && (n + 1 + p =? n)) with false by lia.
        replace ((0 <=? n + p) && (n + p <=? n - 2) && ((n + 1 + p =? n + p + 1) || (n + 1 + p =? 2 * n - 2 - (n + p)))) with false by lia.
        replace ((1 <=? n + p) && (n + p <=? n - 1) && (n + 1 + p =? 2 * n - (n + p))) with false by lia.
        replace ((n <=? n + p) && (n + p <=? 2 * n - 2) && (n + 1 + p =? n + p + 1)) with true by lia.
        split; [f_equal; f_equal; lia|lia]. }
  assert (IL : forall u v d, ffC n u v = Some d -> In (u, v, d) l).
  { intros u v d Q. unfold ffC in Q. destruct ((u =? n - 1) && (v =? n)) eqn:B1.
    { inv Q. left. replace u with (n - 1) by lia. replace v with n by lia. auto. }
    right. apply in_flat_map.
    destruct ((0 <=? u) && (u <=? n - 2) && ((v =? u + 1) || (v =? 2 * n - 2 - u))) eqn:B2.
    { injection Q as Q. exists (n - 2 - u). split; [apply in_zseq; lia|]. unfold ffEdges. destruct (Z.eqb_spec v (u + 1)).
      - left. f_equal; [f_equal; lia|auto].
      - right; left. f_equal; [f_equal; lia|auto]. }
    destruct ((1 <=? u) && (u <=? n - 1) && (v =? 2 * n - u)) eqn:B3.
    { injection Q as Q. exists (n - 1 - u). split; [apply in_zseq; lia|]. right; right; left. f_equal; [f_equal; lia|auto]. }
    destruct ((n <=? u) && (u <=? 2 * n - 2) && (v =? u + 1)) eqn:B4; [|discriminate].
    injection Q as Q. exists (u - n). split; [apply in_zseq; lia|]. right; right; right; left. f_equal; [f_equal; lia|auto]. }
  destruct (addEdges_rep Z true l g0 (fun _ _ => None) 0 (2 * n) R0) as (g & Q & R).
  { apply Forall_forall. intros [[u v] d] I. cbn [fst snd]. apply LI in I. tauto. }
  exists g, (putAll Z true (fun _ _ => None) l). split; [|split; [auto|split]].
  - rewrite <- Q. unfold l. cbn [addEdges]. destruct (addEdge true g0 (n - 1) n 1) as [g1| | |]; cbn [bind]; auto.
    pose proof (ffLoop_edges (Z.to_nat (n - 1)) 64 n g1 0) as X. rewrite !Z.sub_0_r, !Z.add_0_r in X. apply X; lia.
  - intros u v. apply putAll_fun; auto. intros; apply LI; auto.
  - replace l with (getEdges g0 ++ l) by (unfold newGraph in Q0; replace (0 <=? 2 * n) with true in Q0 by lia; cbn [judgeAssert bind] in Q0; inv Q0; auto).
    apply (addEdges_order Z true l g0 g (fun _ _ => None) 0 (2 * n)); auto.
    + apply Forall_forall. intros [[u v] d] I. cbn [fst snd]. apply LI in I. tauto.
    + unfold l. constructor.
      * apply Forall_forall. intros [[u v] d] I. unfold diffPairs, samePair. cbn [fst snd]. apply in_flat_map in I as (p & P & I). apply in_zseq in P.
        intros [(A & B)|(F & _)]; [|discriminate]. destruct I as [X|[X|[X|[X|[]]]]]; inv X; lia.
      * apply FOP_flat_map.
        -- apply Forall_forall. intros p P. apply in_zseq in P. unfold ffEdges. repeat constructor; unfold diffPairs, samePair; cbn [fst snd]; intros [(A & B)|(F & _)]; try discriminate; lia.
        -- eapply FOP_ext; [|apply zseq_FOP]. intros p q P1 P2 PQ [[u v] d] [[u' v'] d'] I1 I2. apply in_zseq in P1, P2. unfold diffPairs, samePair. cbn [fst snd].
           intros [(A & B)|(F & _)]; [|discriminate]. destruct I1 as [X|[X|[X|[X|[]]]]]; inv X; destruct I2 as [X|[X|[X|[X|[]]]]]; inv X; lia.
    + apply Forall_forall. intros. auto.
Qed.

Lemma ff_flow : forall n M, 1 <= n <= 63 -> (forall u v, M u v = ffC n u v) -> maxFlow (2 * n) (capOf M) 0 (2 * n - 1) (2 ^ (n - 1)).
Proof.
  intros n M N HM.
  assert (CN : forall u v, 0 <= capOf M u v).
  { intros u v. unfold capOf. rewrite HM. unfold ffC. repeat match goal with |- context [if ?b then _ else _] => destruct b end; try lia; apply Z.pow_nonneg; lia. }
  (* at the source *)
  assert (C0 : forall v, capOf M 0 v = if (n =? 1) then ib (v =? 1) else 2 ^ (n - 2) * ib ((v =? 1) || (v =? 2 * n - 2))).
  { intro v. unfold capOf. rewrite HM. unfold ffC, ib. destruct (Z.eqb_spec n 1) as [->|D].
    - replace (1 - 1) with 0 by lia. cbn [Z.eqb andb]. destruct (Z.eqb_spec v 1); auto.
    - replace (0 =? n - 1) with false by lia. cbn [andb]. replace (0 <=? n - 2) with true by lia. cbn [Z.leb andb]. rewrite Z.add_0_l, !Z.sub_0_r.
      change (0 <=? 0) with true. change (1 <=? 0) with false. cbn [andb].
      destruct ((v =? 1) || (v =? 2 * n - 2)); [lia|]. replace (n <=? 0) with false by lia. cbn [andb]. lia. }
  split.
  - destruct (Z.eq_dec n 1) as [->|D].
    + exists (capOf M). split; [split|].
      * intros u v U V. specialize (CN u v). lia.
      * intros u U A B. lia.
      * unfold outflow. change (2 * 1) with 2. change (2 ^ (1 - 1)) with 1. rewrite (tot_point _ 0 2 1); [|lia|].
        -- rewrite (tot_zero (fun v => capOf M v 0)); [rewrite C0; reflexivity|]. intros x X. unfold capOf. rewrite HM. assert (x = 0 \/ x = 1) as [->| ->] by lia; reflexivity.
        -- intros y Y NE. rewrite C0. unfold ib. replace (y =? 1) with false by lia. auto.
    + set (w := 2 ^ (n - 2)). assert (W : 0 < w) by (apply Z.pow_pos_nonneg; lia). assert (W2 : 2 ^ (n - 1) = 2 * w) by (unfold w; rewrite <- Z.pow_succ_r by lia; f_equal; lia).
      set (f := fun u v => if (u =? 0) && ((v =? 1) || (v =? 2 * n - 2)) || ((u =? 1) || (u =? 2 * n - 2)) && (v =? 2 * n - 1) then w else 0).
      exists f. split; [split|].
      * intros u v U V. unfold f. destruct (_ || _) eqn:B; [|specialize (CN u v); lia]. split; [lia|].
        assert (X : (u = 0 /\ (v = 1 \/ v = 2 * n - 2)) \/ (u = 1 /\ v = 2 * n - 1) \/ (u = 2 * n - 2 /\ v = 2 * n - 1)) by lia.
        unfold capOf. rewrite HM. unfold ffC. destruct X as [(-> & X)|[(-> & ->)|(-> & ->)]].
        -- replace ((0 =? n - 1) && (v =? n)) with false by lia. replace ((0 <=? 0) && (0 <=? n - 2) && ((v =? 0 + 1) || (v =? 2 * n - 2 - 0))) with true by lia. rewrite Z.sub_0_r. unfold w. lia.
        -- replace ((1 =? n - 1) && (2 * n - 1 =? n)) with false by lia. replace ((0 <=? 1) && (1 <=? n - 2) && ((2 * n - 1 =? 1 + 1) || (2 * n - 1 =? 2 * n - 2 - 1))) with false by lia.
           replace ((1 <=? 1) && (1 <=? n - 1) && (2 * n - 1 =? 2 * n - 1)) with true by lia. replace (n - 1 - 1) with (n - 2) by lia. unfold w. lia.
        -- replace ((2 * n - 2 =? n - 1) && (2 * n - 1 =? n)) with false by lia.
           replace ((0 <=? 2 * n - 2) && (2 * n - 2 <=? n - 2) && ((2 * n - 1 =? 2 * n - 2 + 1) || (2 * n - 1 =? 2 * n - 2 - (2 * n - 2)))) with false by lia.
           replace ((1 <=? 2 * n - 2) && (2 * n - 2 <=? n - 1) && (2 * n - 1 =? 2 * n - (2 * n - 2))) with false by lia.
           replace ((n <=? 2 * n - 2) && (2 * n - 2 <=? 2 * n - 2) && (2 * n - 1 =? 2 * n - 2 + 1)) with true by lia. replace (2 * n - 2 - n) with (n - 2) by lia. unfold w. lia.
      * intros u U A B. unfold outflow. destruct (Z.eqb_spec u 1) as [->|U1]; [|destruct (Z.eqb_spec u (2 * n - 2)) as [->|U2]].
        -- rewrite (tot_point _ 0 (2 * n) (2 * n - 1)), (tot_point (fun v => f v 1) 0 (2 * n) 0); try lia; unfold f.
           ++ replace (_ || _) with true by lia. replace (_ || _) with true by lia. lia.
           ++ intros y Y NE. replace (_ || _) with false by lia. auto.
           ++ intros y Y NE. replace (_ || _) with false by lia. auto.
        -- rewrite (tot_point _ 0 (2 * n) (2 * n - 1)), (tot_point (fun v => f v (2 * n - 2)) 0 (2 * n) 0); try lia; unfold f.
           ++ replace (_ || _) with true by lia. replace (_ || _) with true by lia. lia.
           ++ intros y Y NE. replace (_ || _) with false by lia. auto.
           ++ intros y Y NE. replace (_ || _) with false by lia. auto.
        -- rewrite !tot_zero; [lia| |]; intros; unfold f; replace (_ || _) with false by lia; auto.
      * unfold outflow. rewrite (tot_zero (fun v => f v 0)) by (intros; unfold f; replace (_ || _) with false by lia; auto).
        replace (2 * n) with (2 + (2 * n - 2)) by lia. rewrite tot_app by lia. rewrite (tot_point _ 0 2 1), (tot_point _ (0 + 2) (2 * n - 2) (2 * n - 2)); try lia; unfold f.
        -- replace (_ || _) with true by lia. replace (_ || _) with true by lia. lia.
        -- intros y Y NE. replace (_ || _) with false by lia. auto.
        -- intros y Y NE. replace (_ || _) with false by lia. auto.
  - intros f F. pose proof (cut_bound (2 * n) 0 (2 * n - 1) (capOf M) (fun u => u =? 0) ltac:(lia) ltac:(lia) ltac:(lia) f F) as X.
    assert (Y : cutSize (2 * n) (capOf M) (fun u => u =? 0) <= 2 ^ (n - 1)); [|lia]. unfold cutSize. rewrite (tot_point _ 0 (2 * n) 0); [|lia|].
    + apply Z.le_trans with (total 0 (2 * n) (capOf M 0)). { apply tot_le. intros v V. unfold cutCap. specialize (CN 0 v). unfold ib. destruct (_ && _); lia. }
      destruct (Z.eq_dec n 1) as [->|D].
      * rewrite (tot_point _ 0 (2 * 1) 1); [rewrite C0; reflexivity|lia|]. intros y Y NE. rewrite C0. unfold ib. replace (y =? 1) with false by lia. auto.
      * replace (2 * n) with (2 + (2 * n - 2)) by lia. rewrite tot_app by lia. rewrite (tot_point _ 0 2 1), (tot_point _ (0 + 2) (2 * n - 2) (2 * n - 2)); try lia.
        -- rewrite !C0. replace (n =? 1) with false by lia. unfold ib. replace (_ || _) with true by lia. replace (_ || _) with true by lia.
           replace (2 ^ (n - 1)) with (2 * 2 ^ (n - 2)) by (rewrite <- Z.pow_succ_r by lia; f_equal; lia). lia.
        -- intros y Y NE. rewrite C0. replace (n =? 1) with false by lia. unfold ib. replace (_ || _) with false by lia. lia.
        -- intros y Y NE. rewrite C0. replace (n =? 1) with false by lia. unfold ib. replace (_ || _) with false by lia. lia.
    + intros y Y NE. apply tot_zero. intros v V. unfold cutCap, ib. replace (y =? 0) with false by lia. cbn [andb]. lia.
Qed.
