(* randomGraph: the flips. *)
From Verif Require Import Base Tac BaseLemmas RndModel RndLemmas RandSpec DegModel DegSpec DegProofs DegProofs2 DegProofs3.
From Verif Require Import GenModel GenSpec GenProofs GenProofs2 GenProofs3 GenOpsProofs GenRandProofs.
From Coq Require Import Permutation Sorted.

Section Flips.
  Variable E : Type.
  Variable dflt : E.

  Lemma byId_ok : forall g i, 0 <= i < edgeCount g -> exists u v (d : E), getEdgeById g (Z.to_nat i) = Ok (u, v, d) /\ In (u, v, d) (getEdges g).
  Proof.
    intros g i H. unfold getEdgeById, edgeCount, alen in *. destruct (nth_error (edges g) (Z.to_nat i)) as [e|] eqn:Q.
    - exists (efrom e), (eto e), (edat e). split; auto. unfold getEdges. apply in_map_iff. exists e. split; auto. eapply nth_error_In; eauto.
    - apply nth_error_None in Q. lia.
  Qed.

  Lemma flip_ok : forall ds g i j, holds E ds g -> 0 <= i < edgeCount g -> 0 <= j < edgeCount g -> exists g', flip dflt g i j = Ok g' /\ holds E ds g'.
  Proof.
    intros ds g i j (M & R & RZ) I J. unfold flip. destruct (byId_ok g i I) as (af & at_ & d1 & -> & IA). destruct (byId_ok g j J) as (bf & bt & d2 & -> & IB). cbn [bind].
    destruct (rep_edges E false g M _ _ R) as (_ & RE & _). destruct (RE _ _ _ IA) as (MA & A1 & A2 & A3). destruct (RE _ _ _ IB) as (MB & B1 & B2 & B3).
    assert (KEEP : holds E ds g) by (exists M; auto).
    destruct (Z.eqb_spec af bt) as [Q1|Q1]; cbn [bind]; [eauto|]. rewrite (has_rep E false g M 0 (alen ds)) by auto. cbn [bind].
    destruct (isEdge M af bt) eqn:H1; [eauto|].
    destruct (Z.eqb_spec bf at_) as [Q2|Q2]; cbn [bind]; [eauto|]. rewrite (has_rep E false g M 0 (alen ds)) by auto. cbn [bind].
    destruct (isEdge M bf at_) eqn:H2; [eauto|].
    destruct (erase_rep E false g M 0 (alen ds) af at_ R A1 A2) as (g1 & -> & R1). cbn [bind].
    destruct (erase_rep E false g1 _ 0 (alen ds) bf bt R1 B1 B2) as (g2 & -> & R2). cbn [bind].
    destruct (add_rep E false g2 _ 0 (alen ds) af bt dflt R2 A1 B2 Q1) as (g3 & -> & R3). cbn [bind].
    destruct (add_rep E false g3 _ 0 (alen ds) bf at_ dflt R3 B1 A2 Q2) as (g4 & -> & R4). exists g4. split; auto.
    eexists. split; [exact R4|]. apply realizes_iff. apply realizes_iff in RZ as (GG & D).
    set (V := zseq 0 (length ds)) in *. pose proof GG as (S1 & S2).
    assert (EA : isEdge M af at_ = true) by (unfold isEdge; rewrite MA; auto). assert (EB : isEdge M bf bt = true) by (unfold isEdge; rewrite MB; auto).
    assert (SW : forall u v, isEdge (put false (put false (put false (put false M af at_ None) bf bt None) af bt (Some dflt)) bf at_ (Some dflt)) u v = swap (isEdge M) af at_ bt bf u v).
    { intros u v. rewrite !isEdge_put. unfold swap.
      assert (AB : af <> bf) by (intros ->; congruence). assert (AT : at_ <> bt) by (intros ->; congruence).
      assert (PS : forall a b x y, pairb a b x y = pairb b a x y) by (intros; unfold pairb; apply orb_comm).
      rewrite (PS bt bf), (PS at_ bf).
      assert (P1 : pairb bf at_ u v = true -> pairb af at_ u v = false /\ pairb bf bt u v = false) by (unfold pairb; lia).
      assert (P2 : pairb af bt u v = true -> pairb af at_ u v = false /\ pairb bf bt u v = false) by (unfold pairb; lia).
      destruct (pairb bf at_ u v); [destruct P1 as (-> & ->); auto; rewrite orb_true_r; auto|].
      destruct (pairb af bt u v); [destruct P2 as (-> & ->); auto|]. destruct (pairb bf bt u v), (pairb af at_ u v); auto. }
    assert (SG : graphOn V (swap (isEdge M) af at_ bt bf)).
    { destruct (S2 _ _ EA) as (X1 & X2 & _). destruct (S2 _ _ EB) as (X3 & X4 & _). apply swap_graph; auto. }
    split.
    - destruct SG as (T1 & T2). split; [intros u v; rewrite !SW; auto|]. intros u v Q. rewrite SW in Q. auto.
    - intros k d K. rewrite (cnt_ext _ (swap (isEdge M) af at_ bt bf (Z.of_nat k))) by (intros; apply SW).
      rewrite (swap_degree V); auto; [apply zseq_NoDup|rewrite S1; auto|rewrite S1; auto].
  Qed.

  Lemma holds_edges : forall ds g d, holds E ds g -> In d ds -> 0 < d -> 0 < edgeCount g.
  Proof.
    intros ds g d (M & R & RZ) I PD. apply realizes_iff in RZ as (GG & D). apply In_nth_error in I as (k & K). specialize (D k d K).
    destruct (cnt_pos (isEdge M (Z.of_nat k)) (zseq 0 (length ds))) as (v & _ & Q); [lia|].
    destruct (rep_edges E false g M _ _ R) as (_ & _ & RE). unfold isEdge in Q. destruct (M (Z.of_nat k) v) as [e|] eqn:ME; [|discriminate].
    apply RE in ME as (x & y & I & _). unfold edgeCount, alen. unfold getEdges in I. destruct (edges g); [destruct I|cbn [length]; lia].
  Qed.
  Lemma flips_ok : forall ds d n g, holds E ds g -> In d ds -> 0 < d -> always (flips dflt n g) (returns (holds E ds)).
  Proof.
    intros ds d n. induction n as [|n IH]; intros g H I P; cbn [flips]; [apply returns_ret; auto|]. pose proof (holds_edges _ _ _ H I P) as EC.
    eapply returns_bind; [apply returns_rint; auto|]. intros i Hi. eapply returns_bind; [apply returns_rint; auto|]. intros j Hj.
    destruct (flip_ok ds g i j H Hi Hj) as (g' & -> & H'). unfold lift. cbn [rbind]. apply IH; auto.
  Qed.

  Lemma pos0_alen : forall ds, alen (pos0 ds) = alen ds.
  Proof. intros. unfold alen. rewrite map_length. auto. Qed.
  Lemma randomGraph_cases : forall ds av,
    (randomGraphDeg dflt ds av = RRet Throw /\ ~ graphical (pos0 ds)) \/
    (exists g, holds E (pos0 ds) g /\ randomGraphDeg dflt ds av =
      rbind (lift (chk (av * alen ds))) (fun b => flips dflt (Z.to_nat b) g)).
  Proof.
    intros ds av. unfold randomGraphDeg. destruct (new_rep E false 0 (alen ds)) as (g & Q & R); [unfold alen; lia|]. rewrite Q. unfold lift. cbn [rbind].
    destruct (DegProofs3.build_ok E dflt ds g Q R) as [(T & NG)|(g' & T & H)]; cbn zeta in T; rewrite T; cbn [rbind]; [left; auto|]. right. exists g'. split; auto.
    destruct H as (M & R' & _). apply rep_len in R' as (_ & _ & _ & NC). rewrite NC, pos0_alen. rewrite Z.sub_0_r. auto.
  Qed.
  Lemma randomGraph_degrees : forall ds av, is_i64 (av * alen ds) -> graphical (pos0 ds) -> av <= 0 \/ (exists d, In d ds /\ 0 < d) ->
    always (randomGraphDeg dflt ds av) (returns (holds E (pos0 ds))).
  Proof.
    intros ds av I G H. destruct (randomGraph_cases ds av) as [(_ & NG)|(g & HG & ->)]; [contradiction|]. rewrite chk_Ok by auto. unfold lift. cbn [rbind].
    destruct H as [A|(d & ID & P)].
    - assert (av * alen ds <= 0) by (unfold alen; nia). replace (Z.to_nat (av * alen ds)) with O by lia. cbn [flips]. apply returns_ret. auto.
    - apply (flips_ok (pos0 ds) d); auto. apply in_map_iff. exists d. split; auto. lia.
  Qed.
  Lemma randomGraph_rejects : forall ds av, ~ graphical (pos0 ds) -> randomGraphDeg dflt ds av = RRet Throw.
  Proof.
    intros ds av NG. destruct (randomGraph_cases ds av) as [(Q & _)|(g & (M & R & RZ) & _)]; auto. exfalso. apply NG. exists (isEdge M). auto.
  Qed.
  (* without edges there is nothing to draw from *)
  Lemma randomGraph_noEdges : forall ds av, ds <> [] -> Forall (fun d => d <= 0) ds -> 0 < av -> is_i64 (av * alen ds) ->
    randomGraphDeg dflt ds av = RRet Throw.
  Proof.
    intros ds av NE F A I. destruct (randomGraph_cases ds av) as [(Q & _)|(g & (M & R & RZ) & ->)]; auto.
    rewrite chk_Ok by auto. unfold lift. cbn [rbind]. assert (0 < alen ds) by (unfold alen; destruct ds; [congruence|cbn [length]; lia]).
    destruct (Z.to_nat (av * alen ds)) as [|k] eqn:K; [nia|]. cbn [flips]. replace (edgeCount g) with 0; [reflexivity|].
    symmetry. destruct (edges g) as [|e es] eqn:ES; [unfold edgeCount; rewrite ES; auto|]. exfalso.
    destruct (rep_edges E false g M _ _ R) as (_ & RE & _). destruct (RE (efrom e) (eto e) (edat e)) as (ME & U & V & _).
    { unfold getEdges. rewrite ES. left. auto. }
    apply realizes_iff in RZ as (GG & D). rewrite pos0_alen in U, V. rewrite map_length in D. set (k' := Z.to_nat (efrom e)). unfold alen in U, V.
    destruct (nth_error ds k') as [d|] eqn:KD; [|apply nth_error_None in KD; lia]. specialize (D k' (Z.max 0 d)). rewrite nth_error_map, KD in D. specialize (D eq_refl).
    assert (d <= 0) by (rewrite Forall_forall in F; apply F; eapply nth_error_In; eauto). replace (Z.max 0 d) with 0 in D by lia.
    pose proof (cnt_zero_inv _ _ (eto e) D ltac:(apply in_zseq; lia)) as X. unfold isEdge in X. replace (Z.of_nat k') with (efrom e) in X by lia. rewrite ME in X. discriminate.
  Qed.

  (* ---- from and to keep their roles ---- *)
  Definition oriented (P Q : Z -> Prop) (g : graph E) : Prop := forall u v d, In (u, v, d) (getEdges g) -> P u /\ Q v.
  Ltac unb H := match type of H with bind ?x _ = Ok _ => let Q := fresh "Q" in destruct x eqn:Q; cbn [bind] in H; try discriminate end.
  Lemma addInternal_edges : forall dir (g g' : graph E) i it, addInternal dir g i = Ok (g', it) -> edges g' = edges g.
  Proof.
    intros dir g g' i it H. unfold addInternal in H. unb H. unb H. unb H. unb H. destruct a2. unb H. inv H. auto.
  Qed.
  Lemma eraseAt_edges : forall (g g' : graph E) v k, eraseAt g v k = Ok g' -> edges g' = edges g.
  Proof. intros g g' v k H. unfold eraseAt in H. unb H. unb H. unb H. inv H. auto. Qed.
  Lemma in_upd : forall A (l : list A) i x y, In y (upd l i x) -> y = x \/ In y l.
  Proof. induction l as [|z l IH]; intros [|i] x y I; cbn [upd] in I; auto; destruct I as [->|I]; auto with datatypes. apply IH in I. destruct I; auto with datatypes. Qed.
  Lemma add_sub : forall dir (g g' : graph E) u v d, addEdge dir g u v d = Ok g' -> forall x y e, In (x, y, e) (getEdges g') ->
    (x = u /\ y = v) \/ exists e', In (x, y, e') (getEdges g).
  Proof.
    intros dir g g' u v d H x y e I. unfold addEdge in H. unb H. unb H. unb H. unb H. unfold getEdges in *. destruct a2 as [i|].
    - unb H. inv H. cbn [edges] in I. apply in_map_iff in I as (z & QQ & I). apply in_upd in I. destruct I as [->|I].
      + right. exists (edat a2). apply in_map_iff. exists a2. split.
        * unfold efrom in *. cbn [ekey eto edat] in QQ. congruence.
        * unfold deref in Q3. destruct (nth_error (edges g) i) eqn:N; inv Q3. eapply nth_error_In; eauto.
      + right. exists e. apply in_map_iff. eauto.
    - unb H. destruct a2 as [g1 it]. inv H. apply addInternal_edges in Q3. rewrite Q3 in I. unfold emplaceEdge in I. cbn [edges] in I. rewrite map_app in I.
      apply in_app_iff in I. destruct I as [I|[QQ|[]]]; [right; exists e; auto|]. left. unfold efrom in QQ. cbn [ekey eto edat] in QQ. inv QQ. split; auto.
      rewrite Z.lxor_assoc, Z.lxor_nilpotent, Z.lxor_0_r. auto.
  Qed.
  Lemma erase_sub : forall dir (g g' : graph E) u v b, eraseEdge dir g u v = Ok (g', b) -> forall p, In p (getEdges g') -> In p (getEdges g).
  Proof.
    intros dir g g' u v b H p I. unfold eraseEdge in H. unb H. unb H. unb H. destruct a1 as [i|]; [|inv H; auto]. unb H.
    unb H. apply eraseAt_edges in Q3. unb H. assert (EA : edges a3 = edges a2) by (destruct dir; [inv Q4; auto|eapply eraseAt_edges; eauto]).
    unb H. unb H. apply eraseAt_edges in Q6. unb H. assert (EB : edges a6 = edges a5) by (destruct dir; [inv Q7; auto|eapply eraseAt_edges; eauto]).
    assert (EE : edges a6 = edges g) by congruence. set (l := firstn (length (edges g) - 1) (upd (upd (edges a6) i a4) (length (edges g) - 1) a1)) in H.
    assert (SUB : forall z, In z l -> In z (edges g)).
    { intros z J. unfold l in J. assert (K : In z (upd (upd (edges a6) i a4) (length (edges g) - 1) a1)) by (rewrite <- (firstn_skipn (length (edges g) - 1)); apply in_app_iff; auto).
      assert (IA : In a1 (edges g)) by (unfold deref in Q2; destruct (nth_error (edges g) i) eqn:N; inv Q2; eapply nth_error_In; eauto).
      assert (IB : In a4 (edges g)) by (unfold deref in Q5; rewrite EA, Q3 in Q5; destruct (nth_error (edges g) (length (edges g) - 1)) eqn:N; inv Q5; eapply nth_error_In; eauto).
      apply in_upd in K. destruct K as [->|K]; auto. apply in_upd in K. destruct K as [->|K]; auto. rewrite <- EE. auto. }
    assert (EG : edges g' = l).
    { destruct (i =? length (edges g) - 1)%nat; [inv H; auto|]. unb H. destruct a7. inv H. apply addInternal_edges in Q8. auto. }
    unfold getEdges in *. rewrite EG in I. apply in_map_iff in I as (z & Q' & I). apply in_map_iff. exists z. split; auto.
  Qed.
  Lemma flip_oriented : forall P Q g i j g', oriented P Q g -> flip dflt g i j = Ok g' -> oriented P Q g'.
  Proof.
    intros P Q g i j g' O H. unfold flip in H. unb H. destruct a as [[af at_] da]. unb H. destruct a as [[bf bt] db].
    unb H. destruct a; [inv H; auto|]. unb H. destruct a; [inv H; auto|]. unb H. destruct a as [g1 b1]. unb H. destruct a as [g2 b2]. unb H.
    assert (IA : forall k x y d, getEdgeById g k = Ok (x, y, d) -> P x /\ Q y).
    { intros k x y d X. unfold getEdgeById in X. destruct (nth_error (edges g) k) as [e|] eqn:N; inv X. apply (O _ _ (edat e)). unfold getEdges. apply in_map_iff. exists e. split; auto. eapply nth_error_In; eauto. }
    apply IA in Q0 as (X1 & X2). apply IA in Q1 as (X3 & X4). intros x y d I.
    apply (add_sub _ _ _ _ _ _ H) in I. destruct I as [(-> & ->)|(e & I)]; auto. apply (add_sub _ _ _ _ _ _ Q6) in I. destruct I as [(-> & ->)|(e' & I)]; auto.
    apply (erase_sub _ _ _ _ _ _ Q5) in I. apply (erase_sub _ _ _ _ _ _ Q4) in I. eapply O; eauto.
  Qed.
  Lemma flips_oriented : forall P Q n g, oriented P Q g -> always (flips dflt n g) (fun o => match o with Ok g' => oriented P Q g' | _ => True end).
  Proof.
    intros P Q n. induction n as [|n IH]; intros g O; cbn [flips]; [exact O|]. apply always_bind. unfold rint at 1. destruct (0 <? edgeCount g); [|exact I].
    cbn [always ret]. intros i Hi. apply always_bind. unfold rint. destruct (0 <? edgeCount g); [|exact I]. cbn [always ret]. intros j Hj.
    destruct (flip dflt g i j) as [g'| | |] eqn:F; unfold lift; cbn [rbind]; try exact I. apply IH. eapply flip_oriented; eauto.
  Qed.
End Flips.

(* two graphs with all degrees 1 on four nodes, only one is reachable *)
Lemma never_matching : forall E (dflt : E) av, always (randomGraphDeg dflt [1; 1; 1; 1] av)
  (fun o => match o with Ok g => hasEdge g 1 3 = Ok false | _ => True end).
Proof.
  intros E dflt av.
  assert (X : exists g, oriented E (fun u => u = 1 \/ u = 3) (fun v => v = 0 \/ v = 2) g /\ holds E [1; 1; 1; 1] g /\ randomGraphDeg dflt [1; 1; 1; 1] av = rbind (lift (chk (av * 4))) (fun b => flips dflt (Z.to_nat b) g)).
  { destruct (new_rep E false 0 4) as (g & Q & R); [lia|].
    destruct (DegProofs3.build_ok E dflt [1; 1; 1; 1] g Q R) as [(T & _)|(g' & T & H)].
    - exfalso. cbn in Q. inv Q. vm_compute in T. discriminate.
    - exists g'. split.
      + cbn in Q. inv Q. vm_compute in T. inv T. intros u v d I. vm_compute in I. destruct I as [I|[I|[]]]; inv I; auto.
      + split; [exact H|]. unfold randomGraphDeg. rewrite (Q : newGraph 0 (alen [1; 1; 1; 1]) = Ok g). unfold lift. cbn [rbind]. rewrite T. cbn [rbind].
        destruct H as (M & R' & _). apply rep_len in R' as (_ & _ & _ & NC). rewrite NC. auto. }
  destruct X as (g & O & H & ->). destruct (chk (av * 4)) as [b| | |] eqn:C; unfold lift; cbn [rbind]; try exact I.
  assert (A1 := flips_ok E dflt [1; 1; 1; 1] 1 (Z.to_nat b) g H ltac:(left; auto) ltac:(lia)).
  assert (A2 := flips_oriented E dflt _ _ (Z.to_nat b) g O). revert A1 A2. generalize (flips dflt (Z.to_nat b) g). clear.
  induction r as [o|lo hi k IH]; cbn [always]; intros A1 A2; [|intros x Hx; apply IH; auto].
  destruct o as [g| | |]; auto. destruct A1 as (M & R & _). rewrite (has_rep E false g M 0 4) by (auto; lia). f_equal.
  destruct (isEdge M 1 3) eqn:Q; auto. exfalso. unfold isEdge in Q. destruct (M 1 3) as [d|] eqn:MD; [|discriminate].
  destruct (rep_edges E false g M _ _ R) as (_ & _ & RE). apply RE in MD as (x & y & I & [(-> & ->)|(_ & -> & ->)]); apply A2 in I; lia.
Qed.

Lemma holds_degree : forall E ds (g : graph E), holds E ds g -> forall k d, nth_error ds k = Some d -> degree g (Z.of_nat k) = Ok d.
Proof.
  intros E ds g (M & R & RZ) k d K. assert (L : (k < length ds)%nat) by (apply nth_error_Some; congruence). apply realizes_iff in RZ as (GG & D). rewrite <- (D k d K).
  destruct (rep_observe E false g _ _ _ [CDegree (Z.of_nat k)] R) as (g' & l & X & A). { constructor; auto. cbn. unfold alen. lia. }
  cbn [grun gstep] in X. destruct (degree g (Z.of_nat k)) as [b| | |]; try discriminate. cbn [bind] in X. inv X. inversion A as [| | | | |M' u nn cs l' NL AA E1 E2 E3| | |]. subst. f_equal.
  destruct NL as (SS & IFF). unfold alen, cnt. f_equal.
  assert (ND : NoDup (map fst nn)).
  { clear - SS. induction nn as [|[v e] nn IH]; cbn [map fst] in *; [constructor|]. inv SS. constructor; [|auto]. intro I. apply in_map_iff in I as ([v' e'] & Q & I). cbn [fst] in Q. subst v'.
    rewrite Forall_forall in H2. assert (X : Z.lxor (Z.of_nat k) v < Z.lxor (Z.of_nat k) v); [|lia]. apply H2. apply in_map_iff. exists (v, e'). auto. }
  rewrite <- (map_length fst nn). apply Permutation_length, NoDup_Permutation; [auto|apply NoDup_filter, zseq_NoDup|]. intro v. rewrite filter_In. split.
  - intro I. apply in_map_iff in I as ([v' e] & <- & I). cbn [fst]. apply IFF in I. assert (Q : isEdge M (Z.of_nat k) v' = true) by (unfold isEdge; rewrite I; auto).
    split; auto. apply GG in Q. tauto.
  - intros (_ & Q). unfold isEdge in Q. destruct (M (Z.of_nat k) v) as [e|] eqn:ME; [|discriminate]. apply IFF in ME. apply in_map_iff. exists (v, e). auto.
Qed.
Lemma randomGraph_main : forall E (dflt : E) ds av, is_i64 (av * alen ds) -> graphical (pos0 ds) -> av <= 0 \/ (exists d, In d ds /\ 0 < d) ->
  always (randomGraphDeg dflt ds av) (returns (fun g =>
    (exists M, represents false g 0 (alen ds) M /\ realizes (isEdge M) (pos0 ds)) /\
    forall k d, nth_error ds k = Some d -> degree g (Z.of_nat k) = Ok (Z.max 0 d))).
Proof.
  intros E dflt ds av I G H. eapply returns_mono; [|apply (randomGraph_degrees E dflt ds av I G H)]. intros g HG. split.
  - destruct HG as (M & R & RZ). rewrite pos0_alen in R. eauto.
  - intros k d K. apply (holds_degree E _ g HG). rewrite nth_error_map, K. auto.
Qed.
Lemma graphical_pair : forall ds G, realizes G ds -> graphical ds. Proof. intros ds G H. exists G. auto. Qed.
Lemma realizes_check : forall G ds, (forall u v, G u v = G v u) -> (forall u v, G u v = true -> 0 <= u < alen ds /\ 0 <= v < alen ds /\ u <> v) ->
  map (degreeIn G (alen ds)) (zseq 0 (length ds)) = ds -> realizes G ds.
Proof. intros. split; auto. split; auto. Qed.

(* ---- witnesses ---- *)
Definition edgeIn (l : list (Z * Z)) (u v : Z) : bool := existsb (fun p => pairb (fst p) (snd p) u v) l.
Lemma edgeIn_sym : forall l u v, edgeIn l u v = edgeIn l v u.
Proof.
  intros l u v. unfold edgeIn. induction l as [|p l IH]; cbn [existsb]; auto. rewrite IH. f_equal.
  unfold pairb. rewrite (andb_comm (v =? fst p)), (andb_comm (v =? snd p)), orb_comm. auto.
Qed.
Lemma edgeIn_realizes : forall l ds, forallb (fun p => (0 <=? fst p) && (fst p <? alen ds) && (0 <=? snd p) && (snd p <? alen ds) && negb (fst p =? snd p)) l = true ->
  map (degreeIn (edgeIn l) (alen ds)) (zseq 0 (length ds)) = ds -> realizes (edgeIn l) ds.
Proof.
  intros l ds F D. apply realizes_check; auto.
  - apply edgeIn_sym.
  - intros u v Q. unfold edgeIn in Q. apply existsb_exists in Q as ([a b] & I & Q). rewrite forallb_forall in F. specialize (F _ I). cbn [fst snd] in *. unfold pairb in Q. lia.
Qed.
Lemma ex_graphical : is_i64 (10 * alen [1; 3; 2; 1; 1; 0]) /\ graphical (map (Z.max 0) [1; 3; 2; 1; 1; 0]) /\ (exists d, In d [1; 3; 2; 1; 1; 0] /\ 0 < d).
Proof.
  split; [mach; cbn; lia|]. split; [|exists 1; split; [left; auto|lia]]. exists (edgeIn [(1, 0); (1, 2); (1, 3); (2, 4)]). apply edgeIn_realizes; reflexivity.
Qed.
Lemma not_graphical : forall ds, randomGraphDeg tt ds 0 = RRet Throw -> ~ graphical (pos0 ds).
Proof.
  intros ds T G. assert (A : always (randomGraphDeg tt ds 0) (returns (holds unit (pos0 ds)))) by (apply randomGraph_degrees; auto; [mach; lia|lia]).
  rewrite T in A. exact A.
Qed.
Lemma ex_notGraphical : ~ graphical (map (Z.max 0) [3; 3; 1; 1]) /\ ~ graphical (map (Z.max 0) [1; 1; 1]).
Proof. split; apply not_graphical; vm_compute; reflexivity. Qed.
Lemma noEdges_refuted : exists ds, graphical (map (Z.max 0) ds) /\ forall E (dflt : E), randomGraphDeg dflt ds 10 = RRet Throw.
Proof.
  exists [0]. split; [exists (edgeIn []); apply edgeIn_realizes; reflexivity|]. intros E dflt. apply randomGraph_noEdges; [congruence|repeat constructor; lia|lia|mach; cbn; lia].
Qed.
Lemma negative_refuted : exists ds, (forall G, ~ realizes G ds) /\ forall E (dflt : E), always (randomGraphDeg dflt ds 10) (returns (fun _ => True)).
Proof.
  exists [-3; 1; 1]. split.
  - intros G (_ & Q). cbn [map zseq length] in Q. injection Q as Q _ _. unfold degreeIn in Q. lia.
  - intros E dflt. eapply returns_mono; [|apply (randomGraph_degrees E dflt [-3; 1; 1] 10)]; auto.
    + mach; cbn; lia.
    + exists (edgeIn [(1, 2)]). apply edgeIn_realizes; reflexivity.
    + right. exists 1. split; [right; left; auto|lia].
Qed.
Lemma reach_refuted : exists ds G u v, realizes G ds /\ G u v = true /\ forall E (dflt : E) averageFlips,
  always (randomGraphDeg dflt ds averageFlips) (fun o => match o with Ok g => hasEdge g u v = Ok false | _ => True end).
Proof.
  exists [1; 1; 1; 1], (edgeIn [(0, 2); (1, 3)]), 1, 3. split; [apply edgeIn_realizes; reflexivity|]. split; [reflexivity|]. intros. apply never_matching.
Qed.
