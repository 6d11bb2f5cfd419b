From Verif Require Import Tac RndModel RandSpec RndLemmas PassModel InputSpec InputModel OutSpec GenModel GenSpec GenMakeSpec GenRandSpec GenTreeSpec GenMakeModel
  GenProofs3 GenTreeProofs3 GenTreeProofs4 GenRandProofs2  PipeModel PipeSpec PipeProofs GraphSpec GraphClientSpec UnionFindProofs GraphProofs GraphProofs2 DiGraphProofs GraphClaims.
From Verif Require GraphModel.
From Coq Require Import Permutation.

(* ---- the two classes as clients of addAll ---- *)
Lemma addAll_graph : forall es g v, addAll GraphModel.addEdge g es = Ok v <->
  GraphModel.graphRun g (map (fun e => GraphModel.CallEdge (fst e) (snd e)) es) = Ok ([], v).
Proof.
  induction es as [|[a b] es IH]; intros g v; cbn [addAll map GraphModel.graphRun fst snd].
  - split; intro H; inversion H; auto.
  - destruct (GraphModel.addEdge g a b); cbn [bind]; [apply IH|split; discriminate..].
Qed.
Lemma addAll_arcs : forall es g, addAll GraphModel.addArc g es = GraphModel.arcsRun g es.
Proof. induction es as [|[a b] es IH]; intro g; cbn [addAll GraphModel.arcsRun]; auto. destruct (GraphModel.addArc g a b); cbn [bind]; auto. Qed.

Lemma edgesOf_calls : forall es, edgesOf (map (fun e => GraphModel.CallEdge (fst e) (snd e)) es) = es.
Proof. induction es as [|[a b] es IH]; [reflexivity|]. unfold edgesOf in *. cbn [map flat_map app fst snd]. rewrite IH. reflexivity. Qed.

Lemma graph_built : forall lo hi es, is_i64 lo -> is_i64 hi -> lo <= hi -> is_i64 (2 * (hi - lo)) -> edgesIn lo hi es -> alen es <= I64_MAX ->
  exists v, (let! g := GraphModel.newGraph lo hi in addAll GraphModel.addEdge g es) = Ok v /\ graphSays lo hi v es.
Proof.
  intros lo hi es L H LH D F A. destruct (graph_spec lo hi (map (fun e => GraphModel.CallEdge (fst e) (snd e)) es)) as (ans & v & Q & QA & S); auto.
  - unfold edgesIn in F. rewrite Forall_map. eapply Forall_impl; [|exact F]. intros e. auto.
  - rewrite edgesOf_calls. exact A.
  - rewrite edgesOf_calls in S. exists v. split; auto. destruct (GraphModel.newGraph lo hi) as [g| | |]; try discriminate. cbn [bind] in *.
    apply addAll_graph. rewrite Q. f_equal. f_equal.
    clear - QA. generalize dependent (@nil (Z * Z)). induction es as [|e es IH]; cbn; intros l H; auto. apply IH in H. exact H.
Qed.

(* a connected graph with one edge less than nodes has no cycle *)
Lemma tree_acyclic : forall lo hi es, is_i64 lo -> is_i64 hi -> lo <= hi -> is_i64 (hi - lo) -> edgesIn lo hi es -> alen es = hi - lo - 1 ->
  connectedGraph lo hi es -> acyclic es.
Proof.
  intros lo hi es L H LH D F A C. destruct (diGraph_program lo hi es) as (g & _ & I); auto.
  { unfold alen in A. mach. lia. }
  destruct (di_root _ _ _ _ I) as (_ & f & F1 & F2). destruct f; [apply F1; auto|]. exfalso. destruct F2 as (F2 & _).
  assert (NR : nroots (GraphModel.duf g) <= 1).
  { apply (nroots_conn _ _ (di_uf _ _ _ _ I)). rewrite (di_n _ _ _ _ I). apply connected_shift. replace (lo + (hi - lo)) with hi by lia. exact C. }
  unfold alen in A. lia.
Qed.

(* ---- the graph printed ---- *)
Section Printed.
  Context {E : Type}.
  Variable dir : bool.
  Variable g : graph E.
  Variable M : emap E.
  Variables lo hi : Z.
  Hypothesis R : represents dir g lo hi M.
  Definition arcsOf (g : graph E) : list (Z * Z) := map fst (getEdges g).

  Lemma arcs_len : alen (arcsOf g) = edgeCount g.
  Proof. unfold arcsOf, edgeCount, getEdges, alen. rewrite !map_length. auto. Qed.
  Lemma rep_nodes : nodeCount g = hi - lo.
  Proof. destruct R as (_ & H & _). unfold nodeCount. lia. Qed.
  Lemma arcs_range : edgesIn lo hi (arcsOf g).
  Proof.
    destruct (rep_edges E dir g M lo hi R) as (_ & R1 & _). apply Forall_forall. intros [u v] I. unfold arcsOf in I.
    apply in_map_iff in I as ([[x y] d] & Q & I). cbn in Q. inversion Q; subst. apply R1 in I. cbn. unfold node. tauto.
  Qed.
  Lemma arcs_noloop : forall x, ~ In (x, x) (arcsOf g).
  Proof.
    intros x I. destruct (rep_edges E dir g M lo hi R) as (_ & R1 & _). unfold arcsOf in I.
    apply in_map_iff in I as ([[a b] d] & Q & I). cbn in Q. inversion Q; subst. apply R1 in I. tauto.
  Qed.
  Lemma arcs_in : forall u v, (exists x y, In (x, y) (arcsOf g) /\ samePair dir x y u v) <-> isEdge M u v = true.
  Proof.
    intros u v. destruct (rep_edges E dir g M lo hi R) as (_ & R1 & R2). unfold isEdge, arcsOf. split.
    - intros (x & y & I & SP). apply in_map_iff in I as ([[a b] d] & Q & I). cbn in Q. inversion Q; subst.
      destruct (M u v) eqn:X; auto. assert (M u v = Some d) by (apply R2; eauto). congruence.
    - destruct (M u v) as [d|] eqn:X; [|discriminate]. intros _. apply R2 in X as (x & y & I & SP). exists x, y. split; auto.
      apply in_map_iff. exists (x, y, d). auto.
  Qed.
  Lemma FOP_nth : forall A (P : A -> A -> Prop) l i j a b, ForallOrdPairs P l -> (i < j)%nat -> nth_error l i = Some a -> nth_error l j = Some b -> P a b.
  Proof.
    intros A P l i j a b H. revert i j. induction H as [|x l F H IH]; intros i j L I J; [destruct i; discriminate|].
    destruct j; [lia|]. destruct i; cbn in *.
    - inversion I; subst. rewrite Forall_forall in F. apply F. eapply nth_error_In; eauto.
    - apply (IH i j); auto; lia.
  Qed.
  Lemma arcs_distinct : forall (S : Z * Z -> Z * Z -> Prop), (forall a b c d, S (a, b) (c, d) -> samePair dir a b c d) ->
    forall f, ~ repeated S (arcsOf g) f.
  Proof.
    intros S HS f (i & j & e & L & I & J & Sef). destruct (rep_edges E dir g M lo hi R) as (FO & _). unfold arcsOf in I, J.
    rewrite nth_error_map in I, J. destruct (nth_error (getEdges g) i) as [[[a b] c]|] eqn:X; [|discriminate]. destruct (nth_error (getEdges g) j) as [[[a' b'] c']|] eqn:Y; [|discriminate].
    cbn in I, J. inversion I; inversion J; subst. apply HS in Sef. eapply (FOP_nth _ _ _ _ _ _ _ FO L X Y). exact Sef.
  Qed.
  Lemma obs_has : forall a b, lo <= a < hi -> lo <= b < hi -> hasEdge g a b = Ok (isEdge M a b).
  Proof.
    intros a b A B. destruct (rep_observe E dir g M lo hi [CHas a b] R) as (g' & l & X & Y); [constructor; cbn; auto|].
    cbn [grun gstep] in X. destruct (hasEdge g a b) as [h| | |]; try discriminate. cbn [bind] in X. inversion X; subst. inversion Y; subst. auto.
  Qed.
  Lemma obs_degree : forall a d, lo <= a < hi -> cardinality (fun b => isEdge M a b = true) d -> degree g a = Ok d.
  Proof.
    intros a d A (l & ND & IN & LE). destruct (rep_observe E dir g M lo hi [CDegree a] R) as (g' & l' & X & Y); [constructor; cbn; auto|].
    cbn [grun gstep] in X. destruct (degree g a) as [k| | |]; try discriminate. cbn [bind] in X. inversion X; subst. inversion Y as [| | | | |M' u nb cs r NB Y'| | |]; subst.
    f_equal. destruct NB as (SS & NB). unfold alen. f_equal. rewrite <- (map_length fst nb).
    apply Permutation_length. apply NoDup_Permutation; auto.
    - clear - SS. induction nb as [|[a' b] nb IH]; cbn [map fst] in *; constructor.
      + inversion SS as [|x y S F]; subst. rewrite Forall_forall in F. intro I. apply in_map_iff in I as ([c d] & Q & I). cbn [fst] in Q. subst c. specialize (F (Z.lxor a a')). assert (Z.lxor a a' < Z.lxor a a'); [|lia]. apply F. apply in_map_iff. exists (a', d). auto.
      + inversion SS; auto.
    - intro x. rewrite IN, in_map_iff. unfold isEdge. split.
      + intros ([c d] & <- & I). apply NB in I. cbn [fst]. rewrite I. auto.
      + destruct (M a x) as [d|] eqn:Q; [|discriminate]. intros _. exists (x, d). split; auto. apply NB. auto.
  Qed.
End Printed.

Lemma card_ext : forall P Q n, (forall x, P x <-> Q x) -> cardinality P n -> cardinality Q n.
Proof. intros P Q n H (l & A & B & C). exists l. split; auto. split; auto. intro x. rewrite B. apply H. Qed.

(* what the validator's Graph says about the graph printed *)
Lemma printed_read : forall E (g : graph E) (numbers : E -> list Z) lo hi M G make add st nLo nHi mHi data dir v,
  represents dir g lo hi M -> spaceSensitive st = true -> nLo <= hi - lo < nHi -> edgeCount g < mHi -> edgeCount g <= I64_MAX ->
  is_i64 lo -> is_i64 (lo + nLo) -> is_i64 (lo + nHi - 1) -> is_i64 (hi - lo) ->
  Forall (fun e => within data (numbers (snd e))) (getEdges g) ->
  (let! w := make lo hi in addAll add w (arcsOf g)) = Ok v ->
  readGraph G make add st nLo nHi mHi lo data (showGraph numbers g ++ [10]) = Ret (v, map (fun e => numbers (snd e)) (getEdges g)) [].
Proof.
  intros E g numbers lo hi M G make add st nLo nHi mHi data dir v R SS N Me Mi I1 I2 I3 I4 D A.
  rewrite showGraph_file. apply readGraph_iff; auto. exists (hi - lo), (arcsOf g). rewrite (rep_nodes dir g M lo hi R).
  replace (lo + (hi - lo)) with hi by lia. rewrite arcs_len. split; auto. split; auto. split; auto. split; auto.
  split; [unfold alen, edgeCount, getEdges, alen; rewrite !map_length; auto|]. split; [eapply arcs_range; eauto|].
  split; [rewrite Forall_map; exact D|]. auto.
Qed.

Lemma graph_back : forall E (g : graph E) (numbers : E -> list Z) lo hi M st nLo nHi mHi data,
  represents false g lo hi M -> spaceSensitive st = true -> nLo <= hi - lo < nHi -> edgeCount g < mHi -> edgeCount g <= I64_MAX ->
  is_i64 lo -> is_i64 (lo + nLo) -> is_i64 (lo + nHi - 1) -> is_i64 (2 * (hi - lo)) ->
  Forall (fun e => within data (numbers (snd e))) (getEdges g) ->
  exists v, readUndirected st nLo nHi mHi lo data (showGraph numbers g ++ [10]) = Ret (v, map (fun e => numbers (snd e)) (getEdges g)) [] /\
    GraphModel.nodeCount (GraphModel.base v) = nodeCount g /\ GraphModel.edgeCount (GraphModel.base v) = edgeCount g /\
    GraphModel.hasSelfloop (GraphModel.base v) = None /\ GraphModel.hasMultiedge (GraphModel.base v) = None /\
    (forall a b, node lo hi a -> node lo hi b -> GraphModel.hasEdge (GraphModel.base v) a b = hasEdge g a b) /\
    (forall a, node lo hi a -> GraphModel.degree (GraphModel.base v) a = degree g a) /\
    (GraphModel.isConnected v = true <-> connectedGraph lo hi (map fst (getEdges g))) /\
    (GraphModel.isForest v = true <-> acyclic (map fst (getEdges g))) /\
    (GraphModel.isTree v = true <-> connectedGraph lo hi (map fst (getEdges g)) /\ acyclic (map fst (getEdges g))) /\
    (GraphModel.isBipartite v = true <-> twoColourable (map fst (getEdges g))).
Proof.
  intros E g numbers lo hi M st nLo nHi mHi data R SS N Me Mi I1 I2 I3 I4 D.
  assert (LH : lo <= hi) by (destruct R as (_ & H & _); unfold alen in H; lia).
  assert (H2 : is_i64 (hi - lo)) by (mach; lia). assert (H3 : is_i64 hi) by (mach; lia).
  destruct (graph_built lo hi (arcsOf g)) as (v & B & S); auto; [eapply arcs_range; eauto|rewrite arcs_len; auto|].
  exists v. split; [eapply printed_read; eauto|]. destruct S as [S1 S2 S3 S4 S5 S6 S7 S8 S9 S10].
  assert (NE : forall a b, near (arcsOf g) a b <-> isEdge M a b = true).
  { intros a b. rewrite <- (arcs_in false g M lo hi R). unfold near. split.
    - intros [H|H]; [exists a, b|exists b, a]; unfold samePair; auto.
    - intros (x & y & I & [(<- & <-)|(_ & <- & <-)]); auto. }
  split; [rewrite S5; symmetry; eapply rep_nodes; eauto|]. split; [rewrite S6; apply arcs_len|].
  split. { destruct (GraphModel.hasSelfloop (GraphModel.base v)); auto. exfalso. eapply (arcs_noloop false); eauto. }
  split. { destruct (GraphModel.hasMultiedge (GraphModel.base v)); auto. exfalso. eapply (arcs_distinct false); [exact R| |exact S8].
    intros a b c d [Q|Q]; inversion Q; subst; unfold samePair; auto. }
  split. { intros a b A B'. destruct (S9 a b A) as (h & -> & Hh). rewrite (obs_has false g M lo hi R) by (unfold node in *; lia). f_equal.
    rewrite NE in Hh. destruct h, (isEdge M a b); intuition congruence. }
  split. { intros a A. destruct (S10 a A) as (d & -> & Hd). symmetry. eapply (obs_degree false); [exact R|exact A|]. eapply card_ext; [|exact Hd]. intro; apply NE. }
  auto.
Qed.

Lemma digraph_back : forall E (g : graph E) (numbers : E -> list Z) lo hi M st nLo nHi mHi data,
  represents true g lo hi M -> spaceSensitive st = true -> nLo <= hi - lo < nHi -> edgeCount g < mHi -> edgeCount g <= I64_MAX ->
  is_i64 lo -> is_i64 (lo + nLo) -> is_i64 (lo + nHi - 1) -> is_i64 (hi - lo) ->
  Forall (fun e => within data (numbers (snd e))) (getEdges g) ->
  exists v, readDirected st nLo nHi mHi lo data (showGraph numbers g ++ [10]) = Ret (v, map (fun e => numbers (snd e)) (getEdges g)) [] /\
    GraphModel.nodeCount (GraphModel.dbase v) = nodeCount g /\ GraphModel.edgeCount (GraphModel.dbase v) = edgeCount g /\
    GraphModel.hasSelfloop (GraphModel.dbase v) = None /\ GraphModel.hasMultiedge (GraphModel.dbase v) = None /\
    (forall a b, node lo hi a -> node lo hi b -> GraphModel.hasEdge (GraphModel.dbase v) a b = hasEdge g a b) /\
    (forall a b, node lo hi a -> node lo hi b -> GraphModel.hasReverse v a b = hasEdge g b a) /\
    (forall a, node lo hi a -> GraphModel.degree (GraphModel.dbase v) a = degree g a) /\
    (forall x, node lo hi x -> (GraphModel.diIsTree v = Some x <-> arborescence lo hi (map fst (getEdges g)) x)).
Proof.
  intros E g numbers lo hi M st nLo nHi mHi data R SS N Me Mi I1 I2 I3 H2 D.
  assert (LH : lo <= hi) by (destruct R as (_ & H & _); unfold alen in H; lia). assert (H3 : is_i64 hi) by (mach; lia).
  assert (RA : edgesIn lo hi (arcsOf g)) by (eapply arcs_range; eauto).
  assert (LA : Z.of_nat (length (arcsOf g)) <= I64_MAX) by (change (alen (arcsOf g) <= I64_MAX); rewrite arcs_len; auto).
  destruct (claim35d lo hi (arcsOf g)) as (v & B & S5 & S6 & S7 & S8 & S9 & S9r & S10 & _); auto.
  destruct (di_tree lo hi (arcsOf g)) as (v' & B' & T & _); auto. rewrite B in B'. inversion B'; subst v'. clear B'.
  exists v. split. { eapply printed_read; eauto. rewrite <- B. destruct (GraphModel.newDiGraph lo hi); cbn [bind]; auto. apply addAll_arcs. }
  assert (NE : forall a b, In (a, b) (arcsOf g) <-> isEdge M a b = true).
  { intros a b. rewrite <- (arcs_in true g M lo hi R). split.
    - intros H; exists a, b; unfold samePair; auto.
    - intros (x & y & I & [(<- & <-)|(H & _)]); auto. discriminate. }
  split; [rewrite S5; symmetry; eapply rep_nodes; eauto|]. split; [rewrite S6; apply arcs_len|].
  split. { destruct (GraphModel.hasSelfloop (GraphModel.dbase v)); auto. exfalso. eapply (arcs_noloop true); eauto. }
  split. { destruct (GraphModel.hasMultiedge (GraphModel.dbase v)); auto. exfalso. eapply (arcs_distinct true); [exact R| |exact S8].
    intros a b c d Q; inversion Q; subst; unfold samePair; auto. }
  split. { intros a b A B'. destruct (S9 a b A) as (h & -> & Hh). rewrite (obs_has true g M lo hi R) by (unfold node in *; lia). f_equal.
    rewrite NE in Hh. destruct h, (isEdge M a b); intuition congruence. }
  split. { intros a b A B'. destruct (S9r a b A) as (h & -> & Hh). rewrite (obs_has true g M lo hi R) by (unfold node in *; lia). f_equal.
    rewrite NE in Hh. destruct h, (isEdge M b a); intuition congruence. }
  split. { intros a A. destruct (S10 a A) as (d & -> & Hd). symmetry. eapply (obs_degree true); [exact R|exact A|]. eapply card_ext; [|exact Hd]. intro; apply NE. }
  exact T.
Qed.

(* ---- accepted files ---- *)
Lemma graph_accepted : forall st nLo nHi mHi lo data file, spaceSensitive st = true -> 0 <= nLo ->
  is_i64 lo -> is_i64 (lo + nLo) -> is_i64 (lo + nHi - 1) -> is_i64 (2 * (nHi - 1)) ->
  ((exists v ds rest, readUndirected st nLo nHi mHi lo data file = Ret (v, ds) rest) <->
   exists n es ds, nLo <= n < nHi /\ is_i64 n /\ alen es < mHi /\ alen es <= I64_MAX /\ alen ds = alen es /\ edgesIn lo (lo + n) es /\
     Forall (within data) ds /\ file = graphFile n es ds).
Proof.
  intros st nLo nHi mHi lo data file SS N0 I1 I2 I3 I4. split.
  - intros (v & ds & rest & H). apply readGraph_iff in H as (n & es & A1 & A2 & A3 & A4 & A5 & A6 & A7 & A8 & _); auto. exists n, es, ds. auto 10.
  - intros (n & es & ds & A1 & A2 & A3 & A4 & A5 & A6 & A7 & A8).
    destruct (graph_built lo (lo + n) es) as (v & B & _); auto; try (mach; lia).
    exists v, ds, []. apply readGraph_iff; auto. exists n, es. auto 12.
Qed.
Lemma graph_meaning : forall st nLo nHi mHi lo data file v ds rest, spaceSensitive st = true -> 0 <= nLo ->
  is_i64 lo -> is_i64 (lo + nLo) -> is_i64 (lo + nHi - 1) -> is_i64 (2 * (nHi - 1)) ->
  readUndirected st nLo nHi mHi lo data file = Ret (v, ds) rest -> rest = [] /\ exists n es, file = graphFile n es ds /\ edgesIn lo (lo + n) es /\
    GraphModel.nodeCount (GraphModel.base v) = n /\ GraphModel.edgeCount (GraphModel.base v) = alen es /\
    (GraphModel.hasSelfloop (GraphModel.base v) = None <-> forall x, ~ In (x, x) es) /\
    (GraphModel.hasMultiedge (GraphModel.base v) = None <-> forall f, ~ repeated sameEdge es f) /\
    (GraphModel.isConnected v = true <-> connectedGraph lo (lo + n) es) /\
    (GraphModel.isForest v = true <-> acyclic es) /\
    (GraphModel.isTree v = true <-> connectedGraph lo (lo + n) es /\ acyclic es) /\
    (GraphModel.isBipartite v = true <-> twoColourable es).
Proof.
  intros st nLo nHi mHi lo data file v ds rest SS N0 I1 I2 I3 I4 H.
  apply readGraph_iff in H as (n & es & A1 & A2 & A3 & A4 & A5 & A6 & A7 & A8 & A9 & A10); auto. split; auto. exists n, es. split; auto. split; auto.
  destruct (graph_built lo (lo + n) es) as (v' & B & S); auto; try (mach; lia). rewrite B in A10. inversion A10; subst v'.
  destruct S as [S1 S2 S3 S4 S5 S6 S7 S8 S9 S10]. split; [lia|]. split; auto.
  split. { destruct (GraphModel.hasSelfloop (GraphModel.base v)); [|tauto]. split; [discriminate|]. intro K. exfalso. eapply K; eauto. }
  split. { destruct (GraphModel.hasMultiedge (GraphModel.base v)); [|tauto]. split; [discriminate|]. intro K. exfalso. eapply K; eauto. }
  auto.
Qed.

(* ---- generators and validators together ---- *)
Lemma noData_within : forall E (g : graph E), Forall (fun e => within [] (@noData E (snd e))) (getEdges g).
Proof. intros. apply Forall_forall. intros. constructor. Qed.

Lemma rep_joined : forall E (dflt : E) g n P, represents false g 0 n (edgesBy dflt P) -> forall u v, joined (pairsOf n P) u v -> joined (arcsOf g) u v.
Proof.
  intros E dflt g n P R u v J. assert (X : isEdge (edgesBy dflt P) u v = true \/ isEdge (edgesBy dflt P) v u = true).
  { unfold isEdge, edgesBy. unfold pairsOf, joined in J. rewrite !filter_In in J. cbn [fst snd] in J. destruct J as [(_ & ->)|(_ & ->)]; auto. }
  destruct X as [X|X]; apply (arcs_in false g _ 0 n R) in X as (x & y & I & [(<- & <-)|(_ & <- & <-)]); unfold joined; auto.
Qed.

Lemma tree_pipe : forall E (dflt : E) n st nHi mHi, 1 <= n < nHi -> n <= mHi -> is_i64 (nHi - 1) -> is_i64 (2 * n) -> spaceSensitive st = true ->
  always (randomTree dflt n) (returns (fun g => exists v ds,
    readUndirected st 1 nHi mHi 0 [] (showGraph noData g ++ [10]) = Ret (v, ds) [] /\
    GraphModel.nodeCount (GraphModel.base v) = n /\ GraphModel.isTree v = true)).
Proof.
  intros E dflt n st nHi mHi N Me I1 I2 SS. eapply returns_mono; [|apply randomTree_always; lia]. cbn beta. intros g (P & R & (C & L) & EC).
  destruct (graph_back E g noData 0 n _ st 1 nHi mHi [] R) as (v & Q & S1 & S2 & S3 & S4 & S5 & S6 & S7 & S8 & S9 & S10); auto; try (mach; lia); [apply noData_within|].
  exists v. eexists. split; [exact Q|]. split; [rewrite S1; rewrite (rep_nodes false g _ 0 n R); lia|]. apply S9.
  assert (CG : connectedGraph 0 n (arcsOf g)).
  { intros x y X Y. apply (GenTreeProofs3.conn_mono (pairsOf n P)); auto. eapply rep_joined; eauto. }
  split; auto. apply (tree_acyclic 0 n); auto; try (mach; lia); [eapply arcs_range; eauto|]. change (alen (arcsOf g) = n - 0 - 1). rewrite arcs_len. lia.
Qed.
Lemma arbo_len : forall l r E x, edgesIn l r E -> arborescence l r E x -> alen E = r - l - 1.
Proof.
  intros o r E x IE (Hx & HR & HD). remember (r - o) as n eqn:En. replace r with (o + n) in * by lia. unfold alen.
  assert (P : Permutation (map snd E) (others o (Z.to_nat n) x)).
  { apply NoDup_Permutation; [| apply others_NoDup |].
    - apply (NoDup_count_occ Z.eq_dec). intros y.
      destruct (in_dec Z.eq_dec y (map snd E)) as [Hin | Hni].
      + assert (Hy : node o (o + n) y).
        { apply in_map_iff in Hin. destruct Hin as ([a b] & Hb & Hab). simpl in Hb. subst b.
          unfold edgesIn in IE. rewrite Forall_forall in IE. apply (IE _ Hab). }
        specialize (HD y Hy). rewrite heads_count in HD. destruct (y =? x); lia.
      + apply (count_occ_not_In Z.eq_dec) in Hni. lia.
    - intros y. rewrite others_In. split.
      + intros Hin. pose proof Hin as Hin'. apply in_map_iff in Hin'. destruct Hin' as ([a b] & Hb & Hab). simpl in Hb. subst b.
        assert (Hy : node o (o + n) y) by (unfold edgesIn in IE; rewrite Forall_forall in IE; apply (IE _ Hab)).
        specialize (HD y Hy). rewrite heads_count in HD. apply (count_occ_In Z.eq_dec) in Hin.
        unfold node in Hy. destruct (y =? x) eqn:Ey; lia.
      + intros [Hy1 Hy2]. specialize (HD y ltac:(unfold node; lia)). rewrite heads_count in HD.
        replace (y =? x) with false in HD by lia. apply (count_occ_In Z.eq_dec). lia. }
  unfold node in Hx. apply Permutation_length in P. rewrite map_length, others_length in P by lia. lia.
Qed.
Lemma arborescence_pipe : forall E (dflt : E) n st nHi mHi, 1 <= n < nHi -> n <= mHi -> is_i64 (nHi - 1) -> spaceSensitive st = true ->
  always (randomTreeDir dflt n) (returns (fun g => exists v ds,
    readDirected st 1 nHi mHi 0 [] (showGraph noData g ++ [10]) = Ret (v, ds) [] /\
    GraphModel.nodeCount (GraphModel.dbase v) = n /\ GraphModel.diIsTree v = Some 0)).
Proof.
  intros E dflt n st nHi mHi N Me I1 SS. eapply returns_mono; [|apply randomTreeDir_always; lia]. cbn beta. intros g (M & R & _ & A & T).
  assert (EC : edgeCount g = n - 1).
  { rewrite <- arcs_len. rewrite (arbo_len 0 n (arcsOf g) 0); [lia|eapply arcs_range; eauto|exact A]. }
  destruct (digraph_back E g noData 0 n _ st 1 nHi mHi [] R) as (v & Q & S1 & _ & _ & _ & _ & _ & _ & S9); auto; try (mach; lia); [apply noData_within|].
  exists v. eexists. split; [exact Q|]. split; [rewrite S1; rewrite (rep_nodes true g _ 0 n R); lia|]. apply S9; auto. unfold node. lia.
Qed.
Lemma random_pipe : forall E (dflt : E) n m st nLo nHi mHi, 0 <= nLo <= n -> n < nHi -> 0 <= m <= n * (n - 1) / 2 -> m < mHi -> is_i64 (nHi - 1) -> is_i64 (n * (n - 1)) -> is_i64 (2 * n) ->
  spaceSensitive st = true ->
  always (randomGraph dflt false n m) (returns (fun g => exists v ds,
    readUndirected st nLo nHi mHi 0 [] (showGraph noData g ++ [10]) = Ret (v, ds) [] /\
    GraphModel.nodeCount (GraphModel.base v) = n /\ GraphModel.edgeCount (GraphModel.base v) = m /\
    GraphModel.hasSelfloop (GraphModel.base v) = None /\ GraphModel.hasMultiedge (GraphModel.base v) = None)).
Proof.
  intros E dflt n m st nLo nHi mHi N NH Mr Me I1 I2 I3 SS. eapply returns_mono; [|apply randomGraph_always; auto; lia]. cbn beta. intros g (P & R & EC).
  assert (MM : m <= I64_MAX) by (pose proof (Z.div_le_upper_bound (n * (n - 1)) 2 I64_MAX); mach; lia).
  destruct (graph_back E g noData 0 n _ st nLo nHi mHi [] R) as (v & Q & S1 & S2 & S3 & S4 & S5 & S6 & S7 & S8 & S9 & S10); auto; try (mach; lia); [apply noData_within|].
  exists v. eexists. split; [exact Q|]. split; [rewrite S1; rewrite (rep_nodes false g _ 0 n R); lia|]. split; [lia|]. auto.
Qed.
Lemma bipartite_pipe : forall E (dflt : E) n m k st nLo nHi mHi, 0 <= n -> 0 <= m -> 0 <= nLo <= n + m -> n + m < nHi -> 0 <= k <= n * m -> k < mHi ->
  is_i64 (nHi - 1) -> is_i64 (n * m * 2) -> is_i64 (2 * (n + m)) -> spaceSensitive st = true ->
  always (randomBipartite dflt false n m k) (returns (fun g => exists v ds,
    readUndirected st nLo nHi mHi 0 [] (showGraph noData g ++ [10]) = Ret (v, ds) [] /\
    GraphModel.nodeCount (GraphModel.base v) = n + m /\ GraphModel.edgeCount (GraphModel.base v) = k /\
    GraphModel.hasMultiedge (GraphModel.base v) = None /\ GraphModel.isBipartite v = true)).
Proof.
  intros E dflt n m k st nLo nHi mHi N0 M0 N NH Mr Me I1 I2 I3 SS. eapply returns_mono; [|apply randomBipartite_always; auto; mach; lia]. cbn beta. intros g (P & R & EC & BP).
  destruct (graph_back E g noData 0 (n + m) _ st nLo nHi mHi [] R) as (v & Q & S1 & S2 & S3 & S4 & S5 & S6 & S7 & S8 & S9 & S10); auto; try (mach; lia); [apply noData_within|].
  exists v. eexists. split; [exact Q|]. split; [rewrite S1; rewrite (rep_nodes false g _ 0 (n + m) R); lia|]. split; [lia|]. split; auto.
  apply S10. exists (fun x => x <? n). intros a b I. assert (X : isEdge (edgesBy dflt P) a b = true).
  { apply (arcs_in false g _ 0 (n + m) R). exists a, b. unfold samePair. auto. }
  unfold isEdge, edgesBy in X. destruct (P a b) eqn:PA; [|discriminate]. apply BP in PA. intro K. lia.
Qed.
