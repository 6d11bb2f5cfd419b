(* Uniformity of subgraph and permutate. *)
From Verif Require Import Base Tac SeqModel SeqProofs RndModel RandSeqModel RandSpec RndLemmas ShuffleProofs SortLemmas DistinctProofs
  GenModel GenSpec GenProofs GenProofs2 GenOpsModel GenProofs3 GenOpsProofs GenOpsProofs2 GenRandProofs UniformProofs.
From Coq Require Import QArith Qfield Sorted Permutation.
Import ListNotations.
Open Scope Z_scope.

Lemma map_Some_inj : forall A (a b : list A), map Some a = map Some b -> a = b.
Proof.
  induction a as [| x a IH]; intros [| y b] H; try discriminate; auto. cbn [map] in H. injection H as -> H. f_equal. auto.
Qed.
Lemma perm_Some : forall A (a b : list A), Permutation (map Some a) (map Some b) -> Permutation a b.
Proof.
  intros A a b H. apply Permutation_map_inv in H. destruct H as (c & E & P). apply map_Some_inj in E. subst c.
  symmetry. exact P.
Qed.

Lemma sorted_strict : forall l : list Z, StronglySorted Z.le l -> NoDup l -> StronglySorted Z.lt l.
Proof.
  induction l as [| x l IH]; intros H N; constructor; inversion_clear H; inversion_clear N; auto.
  rewrite Forall_forall in *. intros y I. specialize (H1 y I). assert (x <> y) by (intros ->; contradiction). lia.
Qed.

Section GraphUniform.
  Variable E : Type.
  Variable dir : bool.

  Lemma edges_NoDup : forall (g : graph E) M lo hi, represents dir g lo hi M -> NoDup (getEdges g).
  Proof.
    intros g M lo hi R. apply rep_edges in R as (P & _). revert P. generalize (getEdges g) as l.
    induction l as [| p l IH]; intros H; constructor; inversion_clear H; auto.
    intros I. rewrite Forall_forall in H0. apply (H0 p I). left. auto.
  Qed.

  Lemma subgraph_uniform : forall (g : graph E) M lo hi m S ev, represents dir g lo hi M -> is_i64 (edgeCount g) ->
    NoDup S -> incl S (getEdges g) -> alen S = m -> m < edgeCount g ->
    (forall o, ev o = true <-> exists g', o = Ok g' /\ Permutation (getEdges g') S) ->
    (Pr (subgraph dir g m) ev ==
     inject_Z (zfact (Z.to_nat m)) * inject_Z (zfact (Z.to_nat (edgeCount g - m))) / inject_Z (zfact (Z.to_nat (edgeCount g))))%Q.
  Proof.
    intros g M lo hi m S ev R IE NS IS LS LM EV. destruct (rep_len _ _ _ _ _ _ R) as (ML & NC & H & N).
    pose proof (edges_NoDup g M lo hi R) as NG. pose proof (rep_edges _ _ _ _ _ _ R) as (P & RE & L).
    set (at_ := fun i => nth_error (getEdges g) (Z.to_nat i)).
    assert (LG : alen (getEdges g) = edgeCount g) by (unfold getEdges, edgeCount, alen; rewrite map_length; reflexivity).
    (* the positions of S *)
    assert (POS : forall l, incl l (getEdges g) -> exists ids, map at_ ids = map Some l /\ Forall (fun i => 0 <= i < edgeCount g) ids).
    { induction l as [| e l IH]; intros I; [exists []; split; [reflexivity | constructor] |].
      destruct IH as (ids & A & B); [intros x Hx; apply I; right; auto |].
      destruct (In_nth_error _ _ (I e (or_introl eq_refl))) as (k & K).
      exists (Z.of_nat k :: ids). cbn [map]. split.
      - rewrite A. f_equal. unfold at_. rewrite Nat2Z.id. exact K.
      - constructor; auto. assert (k < length (getEdges g))%nat by (apply nth_error_Some; congruence).
        unfold alen in LG. lia. }
    destruct (POS S IS) as (ids0 & A0 & B0).
    assert (NI : NoDup ids0).
    { apply (NoDup_map_inv at_). rewrite A0. apply FinFun.Injective_map_NoDup; auto. intros x y Q. congruence. }
    set (T := RandSeqModel.sort ids0). assert (PT : Permutation ids0 T) by apply SortLemmas.sort_perm.
    assert (LT : Z.of_nat (length T) = m).
    { rewrite <- (Permutation_length PT). apply (f_equal (@length _)) in A0. rewrite !map_length in A0. unfold alen in LS. lia. }
    set (G := fun ids => let! es := pick (edges g) ids in buildAdj dir (mkGraph (adj (clearAdj g)) es (minId g))).
    assert (EQ : (Pr (subgraph dir g m) ev == Pr (let? c := distinct m 0 (edgeCount g) in lift (G c)) ev)%Q).
    { unfold subgraph. replace (edgeCount g <=? m) with false by lia. unfold Pr. rewrite !expect_bind. apply expect_ext.
      intros [ids | | |]; try reflexivity. rewrite expect_bind. unfold G.
      destruct (pick (edges g) ids) as [es | | |]; reflexivity. }
    rewrite EQ. apply (codes_uniform _ G ev m (edgeCount g) T); auto.
    - unfold alen in LS. lia.
    - apply sorted_strict; [apply SortLemmas.sort_sorted | eapply Permutation_NoDup; eassumption].
    - eapply Permutation_Forall; [exact PT | exact B0].
    - apply not_true_is_false. intros C. apply EV in C. destruct C as (? & C & _). discriminate.
    - apply not_true_is_false. intros C. apply EV in C. destruct C as (? & C & _). discriminate.
    - apply not_true_is_false. intros C. apply EV in C. destruct C as (? & C & _). discriminate.
    - intros ids LI ND FI. unfold G.
      assert (FI' : Forall (fun i => 0 <= i < alen (edges g)) ids) by exact FI.
      destruct (pick_ok _ (edges g) ids FI') as (es & -> & F2). cbn [bind].
      assert (INE : forall e, In e es -> In e (edges g)). { intros e I. destruct (Forall2_In_r _ _ _ _ _ _ F2 I) as (i & _ & X). eapply nth_error_In; eauto. }
      assert (FP : ForallOrdPairs (diffPairs E dir) (map (pairOf E) es)).
      { rewrite FOP_map. eapply FOP_Forall2; [|exact F2|apply FOP_NoDup; exact ND]. intros i j e f I J NE N1 N2 SP. cbv beta in *.
        apply rep_elim in R as ((_ & D & _) & _). rewrite Forall_forall in FI. pose proof (FI i I). pose proof (FI j J).
        assert (Z.to_nat i = Z.to_nat j); [|lia]. apply (D _ _ e f); eauto using nth_valid. }
      destruct (build_pairs E dir (adj (clearAdj g)) es (minId g) (mapOf E dir (map (pairOf E) es)) lo hi) as (a' & Q & R').
      + apply clear_empty.
      + auto.
      + cbn [clearAdj adj]. rewrite clear_len. auto.
      + pose proof (rep_pairIn E dir _ _ _ _ R) as PI. rewrite Forall_forall in *. intros p I. apply PI. apply in_map_iff in I as (e & <- & I). apply in_map_iff. exists e. auto.
      + auto.
      + apply mapOf_lists. auto.
      + rewrite Q. rewrite EV.
        assert (GE : map at_ ids = map Some (getEdges (mkGraph a' es (minId g)))).
        { unfold getEdges. cbn [edges]. clear - F2. unfold at_, getEdges. induction F2; cbn [map]; auto. f_equal; auto.
          rewrite nth_error_map, H. reflexivity. }
        assert (AI : forall i j, 0 <= i < edgeCount g -> 0 <= j < edgeCount g -> at_ i = at_ j -> i = j).
        { intros i j I J Q2. unfold at_ in Q2. assert (Z.to_nat i = Z.to_nat j); [|lia].
          eapply NoDup_nth_error; [exact NG | unfold alen in LG; lia | exact Q2]. }
        assert (TR : Forall (fun i => 0 <= i < edgeCount g) T) by (eapply Permutation_Forall; [exact PT | exact B0]).
        rewrite Forall_forall in FI, TR. split.
        * intros (g' & Q2 & P2). injection Q2 as <-.
          assert (PM : Permutation (map at_ ids) (map at_ T)).
          { rewrite GE, <- (Permutation_map at_ PT), A0. apply Permutation_map. exact P2. }
          intros x. split; intros I.
          -- assert (In (at_ x) (map at_ T)) as I2 by (eapply Permutation_in; [exact PM | apply in_map; exact I]).
             apply in_map_iff in I2 as (y & Q3 & I3). apply AI in Q3; auto. subst y. exact I3.
          -- assert (In (at_ x) (map at_ ids)) as I2 by (eapply Permutation_in; [symmetry; exact PM | apply in_map; exact I]).
             apply in_map_iff in I2 as (y & Q3 & I3). apply AI in Q3; auto. subst y. exact I3.
        * intros X. eexists. split; [reflexivity|]. apply perm_Some. rewrite <- GE, <- A0, (Permutation_map at_ PT).
          apply Permutation_map. apply NoDup_Permutation; auto. eapply Permutation_NoDup; eassumption.
  Qed.

  (* ---- relabelled copies ---- *)
  Lemma proper_can : forall A (m : rnd A), proper m -> exists o, can m o.
  Proof.
    intros A m. induction m as [o | lo hi k IH]; cbn [proper can]; [eauto |]. intros (H & P).
    destruct (IH lo) as (o & C); [apply P; lia |]. exists o, lo. split; [lia | exact C].
  Qed.
  Lemma proper_flipAll : forall f (es : list (edge E)), proper (flipAll dir f es).
  Proof.
    intros f es. induction es as [| e es IH]; cbn [flipAll]; [exact I |].
    repeat (apply proper_bind; [| intros ?]); try apply proper_lift; auto; try exact I.
    destruct dir; [exact I |]. apply proper_bind; [apply proper_rint |]. intros; exact I.
  Qed.
  Lemma proper_permutateWith : forall (g : graph E) perm, proper (permutateWith dir g perm).
  Proof.
    intros g perm. unfold permutateWith. repeat (apply proper_bind; [| intros ?]); try apply proper_lift.
    - apply proper_shuffle.
    - apply proper_flipAll.
  Qed.

  Lemma constant_event : forall A (m : rnd A) (ev : outcome A -> bool), proper m ->
    (forall o o', can m o -> can m o' -> ev o = ev o') ->
    (exists o, can m o /\ (Pr m ev == if ev o then 1 else 0)%Q).
  Proof.
    intros A m ev P H. destruct (proper_can _ m P) as (o & C). exists o. split; [exact C |].
    unfold Pr. rewrite (expect_ext_always _ m _ (fun _ => (if ev o then 1 else 0) * 1)%Q).
    - rewrite (expect_scale _ m (if ev o then 1 else 0) (fun _ => 1%Q)). rewrite expect_one by exact P. ring.
    - apply always_can. intros o' C'. rewrite (H o' o C' C). ring.
  Qed.

  Lemma rep_unique : forall (g : graph E) M M' lo hi, represents dir g lo hi M -> represents dir g lo hi M' ->
    forall u v, M u v = M' u v.
  Proof.
    intros g M M' lo hi R R' u v. apply rep_edges in R as (_ & _ & L). apply rep_edges in R' as (_ & _ & L').
    destruct (M u v) as [d |] eqn:Q; [symmetry; apply L'; apply L; exact Q |].
    destruct (M' u v) as [d |] eqn:Q'; [| reflexivity]. rewrite <- Q. symmetry. symmetry. apply L. apply L'. exact Q'.
  Qed.

  (* every labelled copy of the graph is equally likely: M1 and M2 are copies of each other *)
  Lemma permutate_equal : forall (g : graph E) M lo hi M1 M2 q rho (ev1 ev2 : outcome (graph E) -> bool),
    represents dir g lo hi M -> is_i64 lo -> is_i64 hi -> hi - lo <= I64_MAX ->
    (forall u, lo <= u < hi -> lo <= q u < hi /\ rho (q u) = u) -> (forall u, lo <= u < hi -> lo <= rho u < hi /\ q (rho u) = u) ->
    (forall u v, lo <= u < hi -> lo <= v < hi -> M2 (q u) (q v) = M1 u v) ->
    (forall o, ev1 o = true <-> exists g' M', o = Ok g' /\ represents dir g' lo hi M' /\
       forall u v, lo <= u < hi -> lo <= v < hi -> M' u v = M1 u v) ->
    (forall o, ev2 o = true <-> exists g' M', o = Ok g' /\ represents dir g' lo hi M' /\
       forall u v, lo <= u < hi -> lo <= v < hi -> M' u v = M2 u v) ->
    (Pr (permutate dir g) ev1 == Pr (permutate dir g) ev2)%Q.
  Proof.
    intros g M lo hi M1 M2 q rho ev1 ev2 R IL IH SZ HQ HR HM E1 E2.
    destruct (rep_len _ _ _ _ _ _ R) as (ML & NC & H & N).
    unfold permutate. rewrite ML. replace (length (adj g)) with (Z.to_nat (hi - lo)) by (unfold alen in NC; lia).
    set (n := Z.to_nat (hi - lo)). set (l := zseq lo n).
    assert (RG : forall z, In z l <-> lo <= z < hi) by (intros z; unfold l, n; rewrite in_zseq; lia).
    assert (PQ : Permutation l (map q l)).
    { apply NoDup_Permutation; [apply zseq_NoDup | apply map_NoDup_in; [| apply zseq_NoDup] |].
      - intros x y X Y Q. apply RG in X, Y. rewrite <- (proj2 (HQ x X)), <- (proj2 (HQ y Y)), Q. reflexivity.
      - intros z. rewrite in_map_iff, RG. split.
        + intros Z0. exists (rho z). split; [apply HR; exact Z0 | apply RG; apply HR; exact Z0].
        + intros (x & <- & X). apply RG in X. apply HQ. exact X. }
    unfold Pr. rewrite !expect_bind. symmetry.
    etransitivity; [apply (shuffle_relabel Z.eq_dec l q rho) |].
    { apply zseq_NoDup. } { exact PQ. } { intros x X. apply HQ. apply RG. exact X. }
    symmetry. apply expect_ext_always. eapply always_mono; [| apply shuffle_always].
    intros [p | | |]; cbn [returns]; try contradiction. intros P.
    assert (P' : Permutation l (map q p)) by (rewrite PQ at 1; apply Permutation_map; exact P).
    change ((Pr (permutateWith dir g p) ev1 == Pr (permutateWith dir g (map q p)) ev2)%Q).
    (* what decides the event *)
    assert (DEC : forall p Mi (ev : outcome (graph E) -> bool), Permutation l p ->
      (forall o, ev o = true <-> exists g' M', o = Ok g' /\ represents dir g' lo hi M' /\
         forall u v, lo <= u < hi -> lo <= v < hi -> M' u v = Mi u v) ->
      forall o, can (permutateWith dir g p) o ->
      (ev o = true <-> forall u v, lo <= u < hi -> lo <= v < hi -> Mi (getz p (u - lo)) (getz p (v - lo)) = M u v)).
    { clear - R IL IH SZ RG H. intros p Mi ev P EV o C.
      pose proof (permutateWith_rep E dir g M lo hi p R P IL IH SZ) as A.
      pose proof (can_always _ _ _ _ C A) as O. destruct o as [g' | | |]; cbn [returns] in O; try contradiction.
      destruct O as (M' & R' & X). rewrite EV.
      assert (LP : length p = Z.to_nat (hi - lo)) by (rewrite <- (Permutation_length P); apply zseq_length).
      assert (PR : forall u, lo <= u < hi -> lo <= getz p (u - lo) < hi).
      { intros u U. apply RG. eapply Permutation_in; [symmetry; exact P |]. apply nth_In. lia. }
      split.
      - intros (g2 & M2 & Q & R2 & Y) u v U V. injection Q as <-. rewrite <- Y by auto.
        rewrite (rep_unique _ _ _ _ _ R2 R'). apply X; auto.
      - intros Y. exists g', M'. split; [reflexivity |]. split; [exact R' |]. intros u v U V.
        assert (SUR : forall u, lo <= u < hi -> exists x, lo <= x < hi /\ getz p (x - lo) = u).
        { clear - P RG LP H. intros u U. apply RG in U. apply (Permutation_in _ P) in U.
          apply (In_nth _ _ 0) in U. destruct U as (j & J & <-). exists (lo + Z.of_nat j). split; [lia |].
          unfold getz. f_equal. lia. }
        destruct (SUR u U) as (x & X1 & <-). destruct (SUR v V) as (y & Y1 & <-).
        rewrite X, Y by auto. reflexivity. }
    assert (SAME : forall p Mi (ev : outcome (graph E) -> bool), Permutation l p ->
      (forall o, ev o = true <-> exists g' M', o = Ok g' /\ represents dir g' lo hi M' /\
         forall u v, lo <= u < hi -> lo <= v < hi -> M' u v = Mi u v) ->
      exists o, can (permutateWith dir g p) o /\ (Pr (permutateWith dir g p) ev == if ev o then 1 else 0)%Q).
    { intros p0 Mi ev P0 EV. apply constant_event; [apply proper_permutateWith |].
      intros o o' C C'. pose proof (DEC p0 Mi ev P0 EV o C). pose proof (DEC p0 Mi ev P0 EV o' C').
      destruct (ev o), (ev o'); intuition congruence. }
    destruct (SAME p M1 ev1 P E1) as (o1 & C1 & ->). destruct (SAME (map q p) M2 ev2 P' E2) as (o2 & C2 & ->).
    pose proof (DEC p M1 ev1 P E1 o1 C1) as D1. pose proof (DEC (map q p) M2 ev2 P' E2 o2 C2) as D2.
    assert (LP : length p = Z.to_nat (hi - lo)) by (rewrite <- (Permutation_length P); apply zseq_length).
    assert (PR : forall u, lo <= u < hi -> lo <= getz p (u - lo) < hi).
    { intros u U. apply RG. eapply Permutation_in; [symmetry; exact P |]. apply nth_In. lia. }
    assert (GM : forall u, lo <= u < hi -> getz (map q p) (u - lo) = q (getz p (u - lo))).
    { intros u U. unfold getz. rewrite (nth_indep _ 0 (q 0)) by (rewrite map_length; lia). apply map_nth. }
    assert (EQ : ev1 o1 = true <-> ev2 o2 = true).
    { rewrite D1, D2. split; intros X u v U V; specialize (X u v U V).
      - rewrite !GM, HM by auto. exact X.
      - rewrite !GM, HM in X by auto. exact X. }
    destruct (ev1 o1), (ev2 o2); try reflexivity; exfalso; intuition congruence.
  Qed.
End GraphUniform.
