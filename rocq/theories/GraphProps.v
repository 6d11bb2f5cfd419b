(* Properties of graph_val.h. *)
From Verif Require Import Base GraphModel GraphSpec GraphClientSpec.
From Verif Require Import UnionFindProofs GraphProofs GraphProofs2 DiGraphProofs GraphWitness GraphClaims.
Open Scope Z_scope.

(* ---- C32 ---- *)
(* any sequence of calls on a fresh UnionFind(n) runs without undefined behaviour and every
   answer is the one given by connectivity in the graph of the united pairs *)
Theorem C32_unionFind : forall n cs, 0 <= n <= I64_MAX -> Forall (callIn n) cs ->
  exists r, (let! u := ufInit n in ufRun u cs) = Ok r /\ ufAnswers n [] cs r.
Proof. exact uf_program. Qed.
Print Assumptions C32_unionFind.
Example C32_ex : (let! u := ufInit 5 in
    ufRun u [CallUnion 0 1; CallUnion 2 3; CallConnected 1 2; CallUnion 3 0; CallConnected 1 2; CallUnion 2 1; CallFind 0])
  = Ok [AnsBool true; AnsBool true; AnsBool false; AnsBool true; AnsBool true; AnsBool false; AnsNode 1].
Proof. vm_compute. reflexivity. Qed.

(* ---- C33 ---- *)
Theorem C33_graph : forall l r cs, is_i64 l -> is_i64 r -> l <= r -> is_i64 (2 * (r - l)) ->
  Forall (gcallIn l r) cs -> Z.of_nat (length (edgesOf cs)) <= I64_MAX ->
  exists ans g, (let! g := newGraph l r in graphRun g cs) = Ok (ans, g) /\ queryAnswers [] cs ans /\
    (isConnected g = true <-> connectedGraph l r (edgesOf cs)) /\
    (isForest g = true <-> acyclic (edgesOf cs)) /\
    (isTree g = true <-> connectedGraph l r (edgesOf cs) /\ acyclic (edgesOf cs)).
Proof. exact claim33. Qed.
Print Assumptions C33_graph.
Example C33_ex :
  (let! g := newGraph 1 5 in
   let! (a, g) := graphRun g [CallEdge 1 2; CallEdge 4 3; CallQuery 2 3; CallEdge 3 1; CallQuery 2 3] in
   Ok (a, isConnected g, isForest g, isTree g)) = Ok ([false; true], true, true, true) /\
  (let! g := newGraph 1 5 in
   let! (a, g) := graphRun g [CallEdge 1 2; CallEdge 2 3; CallEdge 3 1] in
   Ok (a, isConnected g, isForest g, isTree g)) = Ok ([], false, false, false).
Proof. vm_compute. split; reflexivity. Qed.

(* ---- C34 ---- *)
Theorem C34_bipartite : forall l r cs, is_i64 l -> is_i64 r -> l <= r -> is_i64 (2 * (r - l)) ->
  Forall (gcallIn l r) cs -> Z.of_nat (length (edgesOf cs)) <= I64_MAX ->
  exists ans g, (let! g := newGraph l r in graphRun g cs) = Ok (ans, g) /\
    (isBipartite g = true <-> twoColourable (edgesOf cs)).
Proof. exact claim34. Qed.
Print Assumptions C34_bipartite.
Example C34_ex :
  (let! g := newGraph 0 4 in let! (_, g) := graphRun g [CallEdge 0 1; CallEdge 1 2; CallEdge 2 3; CallEdge 3 0] in Ok (isBipartite g)) = Ok true /\
  (let! g := newGraph 0 4 in let! (_, g) := graphRun g [CallEdge 0 1; CallEdge 1 2; CallEdge 2 3; CallEdge 2 0] in Ok (isBipartite g)) = Ok false.
Proof. vm_compute. split; reflexivity. Qed.

(* ---- C35 ---- *)
Theorem C35_graph_edges : forall l r cs, is_i64 l -> is_i64 r -> l <= r -> is_i64 (2 * (r - l)) ->
  Forall (gcallIn l r) cs -> Z.of_nat (length (edgesOf cs)) <= I64_MAX ->
  exists ans g, (let! g := newGraph l r in graphRun g cs) = Ok (ans, g) /\
    nodeCount (base g) = r - l /\ edgeCount (base g) = Z.of_nat (length (edgesOf cs)) /\
    match hasSelfloop (base g) with
    | Some x => In (x, x) (edgesOf cs) | None => forall x, ~ In (x, x) (edgesOf cs) end /\
    match hasMultiedge (base g) with
    | Some f => repeated sameEdge (edgesOf cs) f | None => forall f, ~ repeated sameEdge (edgesOf cs) f end /\
    (forall a b, node l r a -> exists h, hasEdge (base g) a b = Ok h /\ (h = true <-> near (edgesOf cs) a b)) /\
    (forall a, node l r a -> exists d, degree (base g) a = Ok d /\ cardinality (near (edgesOf cs) a) d).
Proof. exact claim35. Qed.
Print Assumptions C35_graph_edges.
Theorem C35_diGraph_edges : forall l r es, is_i64 l -> is_i64 r -> l <= r -> is_i64 (r - l) ->
  edgesIn l r es -> Z.of_nat (length es) <= I64_MAX ->
  exists g, (let! g := newDiGraph l r in arcsRun g es) = Ok g /\
    nodeCount (dbase g) = r - l /\ edgeCount (dbase g) = Z.of_nat (length es) /\
    match hasSelfloop (dbase g) with Some x => In (x, x) es | None => forall x, ~ In (x, x) es end /\
    match hasMultiedge (dbase g) with Some f => repeated eq es f | None => forall f, ~ repeated eq es f end /\
    (forall a b, node l r a -> exists h, hasEdge (dbase g) a b = Ok h /\ (h = true <-> In (a, b) es)) /\
    (forall a b, node l r a -> exists h, hasReverse g a b = Ok h /\ (h = true <-> In (b, a) es)) /\
    (forall a, node l r a -> exists d, degree (dbase g) a = Ok d /\ cardinality (fun b => In (a, b) es) d) /\
    (forall a, node l r a -> exists d, inDegree g a = Ok d /\ cardinality (fun b => In (b, a) es) d).
Proof. exact claim35d. Qed.
Print Assumptions C35_diGraph_edges.
Example C35_ex :
  (let! g := newGraph 1 5 in
   let! (_, g) := graphRun g [CallEdge 1 2; CallEdge 2 1; CallEdge 3 3] in
   let! d := degree (base g) 1 in
   Ok (hasSelfloop (base g), hasMultiedge (base g), d)) = Ok (Some 3, Some (2, 1), 1) /\
  (let! g := newDiGraph 1 5 in let! g := arcsRun g [(1, 2); (2, 1)] in Ok (hasMultiedge (dbase g))) = Ok None.
Proof. vm_compute. split; reflexivity. Qed.

(* ---- C36 ---- *)
(* a returned node is the root of an arborescence and conversely; the only other value that
   can be returned is r, one past the last node *)
Theorem C36_diGraph_isTree : forall l r es, is_i64 l -> is_i64 r -> l <= r -> is_i64 (r - l) ->
  edgesIn l r es -> Z.of_nat (length es) <= I64_MAX ->
  exists g, (let! g := newDiGraph l r in arcsRun g es) = Ok g /\
    (forall x, node l r x -> (diIsTree g = Some x <-> arborescence l r es x)) /\
    (forall x, diIsTree g = Some x -> node l r x \/ x = r).
Proof. exact di_tree. Qed.
Print Assumptions C36_diGraph_isTree.
Example C36_ex : (let! g := newDiGraph 1 5 in let! g := arcsRun g [(3, 1); (3, 4); (4, 2)] in Ok (diIsTree g)) = Ok (Some 3) /\
  (let! g := newDiGraph 1 5 in let! g := arcsRun g [(3, 1); (3, 4); (4, 1)] in Ok (diIsTree g)) = Ok None.
Proof. vm_compute. split; reflexivity. Qed.
Theorem C36_isTree_refuted : exists l r es g x, edgesIn l r es /\
  (let! g := newDiGraph l r in arcsRun g es) = Ok g /\ diIsTree g = Some x /\ ~ node l r x /\
  forall y, ~ arborescence l r es y.
Proof. exact isTree_wrong. Qed.
Print Assumptions C36_isTree_refuted.

(* ---- C37 ---- *)
(* isDAG finds an order exactly for graphs without edges *)
Theorem C37_isDAG : forall l r es, is_i64 l -> is_i64 r -> l <= r -> is_i64 (r - l) ->
  edgesIn l r es -> Z.of_nat (length es) <= I64_MAX ->
  exists g res, (let! g := newDiGraph l r in arcsRun g es) = Ok g /\ isDAG g = Ok res /\ (res <> None <-> es = []).
Proof. exact di_dag. Qed.
Print Assumptions C37_isDAG.
Example C37_ex : (let! g := newDiGraph 1 4 in isDAG g) = Ok (Some [3; 2; 1]) /\
  (let! g := newDiGraph 1 4 in let! g := arcsRun g [(1, 2); (2, 3)] in isDAG g) = Ok None.
Proof. vm_compute. split; reflexivity. Qed.
Theorem C37_isDAG_refuted : exists l r es g, edgesIn l r es /\
  (let! g := newDiGraph l r in arcsRun g es) = Ok g /\ isDAG g = Ok None /\
  forall x y, reaches es x y -> reaches es y x -> x = y.
Proof. exact isDAG_wrong. Qed.
Print Assumptions C37_isDAG_refuted.
