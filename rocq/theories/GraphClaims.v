(* The parts of graph_spec and di_spec in the form of the property theorems. *)
From Verif Require Import Tac GraphModel GraphSpec GraphClientSpec GraphProofs2 DiGraphProofs.

Lemma claim33 : forall l r cs, is_i64 l -> is_i64 r -> l <= r -> is_i64 (2 * (r - l)) ->
  Forall (gcallIn l r) cs -> Z.of_nat (length (edgesOf cs)) <= I64_MAX ->
  exists ans g, (let! g := newGraph l r in graphRun g cs) = Ok (ans, g) /\ queryAnswers [] cs ans /\
    (isConnected g = true <-> connectedGraph l r (edgesOf cs)) /\
    (isForest g = true <-> acyclic (edgesOf cs)) /\
    (isTree g = true <-> connectedGraph l r (edgesOf cs) /\ acyclic (edgesOf cs)).
Proof.
  intros l r cs Hl Hr Hlr H2 HF HL. destruct (graph_spec l r cs Hl Hr Hlr H2 HF HL) as (ans & g & G1 & G2 & []).
  exists ans, g. auto 6.
Qed.
Lemma claim34 : forall l r cs, is_i64 l -> is_i64 r -> l <= r -> is_i64 (2 * (r - l)) ->
  Forall (gcallIn l r) cs -> Z.of_nat (length (edgesOf cs)) <= I64_MAX ->
  exists ans g, (let! g := newGraph l r in graphRun g cs) = Ok (ans, g) /\
    (isBipartite g = true <-> twoColourable (edgesOf cs)).
Proof.
  intros l r cs Hl Hr Hlr H2 HF HL. destruct (graph_spec l r cs Hl Hr Hlr H2 HF HL) as (ans & g & G1 & G2 & []).
  exists ans, g. auto.
Qed.
Lemma claim35 : forall l r cs, is_i64 l -> is_i64 r -> l <= r -> is_i64 (2 * (r - l)) ->
  Forall (gcallIn l r) cs -> Z.of_nat (length (edgesOf cs)) <= I64_MAX ->
  exists ans g, (let! g := newGraph l r in graphRun g cs) = Ok (ans, g) /\
    nodeCount (base g) = r - l /\ edgeCount (base g) = Z.of_nat (length (edgesOf cs)) /\
    match hasSelfloop (base g) with
    | Some x => In (x, x) (edgesOf cs) | None => forall x, ~ In (x, x) (edgesOf cs) end /\
    match hasMultiedge (base g) with
    | Some f => repeated sameEdge (edgesOf cs) f | None => forall f, ~ repeated sameEdge (edgesOf cs) f end /\
    (forall a b, node l r a -> exists h, hasEdge (base g) a b = Ok h /\ (h = true <-> near (edgesOf cs) a b)) /\
    (forall a, node l r a -> exists d, degree (base g) a = Ok d /\ cardinality (near (edgesOf cs) a) d).
Proof.
  intros l r cs Hl Hr Hlr H2 HF HL. destruct (graph_spec l r cs Hl Hr Hlr H2 HF HL) as (ans & g & G1 & G2 & []).
  exists ans, g. auto 8.
Qed.
Lemma claim35d : forall l r es, is_i64 l -> is_i64 r -> l <= r -> is_i64 (r - l) ->
  edgesIn l r es -> Z.of_nat (length es) <= I64_MAX ->
  exists g, (let! g := newDiGraph l r in arcsRun g es) = Ok g /\
    nodeCount (dbase g) = r - l /\ edgeCount (dbase g) = Z.of_nat (length es) /\
    match hasSelfloop (dbase g) with Some x => In (x, x) es | None => forall x, ~ In (x, x) es end /\
    match hasMultiedge (dbase g) with Some f => repeated eq es f | None => forall f, ~ repeated eq es f end /\
    (forall a b, node l r a -> exists h, hasEdge (dbase g) a b = Ok h /\ (h = true <-> In (a, b) es)) /\
    (forall a b, node l r a -> exists h, hasReverse g a b = Ok h /\ (h = true <-> In (b, a) es)) /\
    (forall a, node l r a -> exists d, degree (dbase g) a = Ok d /\ cardinality (fun b => In (a, b) es) d) /\
    (forall a, node l r a -> exists d, inDegree g a = Ok d /\ cardinality (fun b => In (b, a) es) d).
Proof.
  intros l r es Hl Hr Hlr H2 HE HL. destruct (di_spec l r es Hl Hr Hlr H2 HE HL) as (g & G1 & []).
  exists g. auto 10.
Qed.
