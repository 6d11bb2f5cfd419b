(* What a generator prints, a validator reads, accepts and judges as intended. *)
From Verif Require Import Base RndModel RandSpec InputSpec InputModel InputClient OutSpec GenModel GenSpec GraphSpec GenMakeModel PipeModel PipeSpec PipeProofs PipeProofs2.
From Verif Require GraphModel.

(* ---- C73 ---- *)
(* the files the validator accepts, for every limit *)
Theorem C73_accepts : forall st nLo nHi mHi lo data file, spaceSensitive st = true -> 0 <= nLo ->
  is_i64 lo -> is_i64 (lo + nLo) -> is_i64 (lo + nHi - 1) -> is_i64 (2 * (nHi - 1)) ->
  ((exists v ds rest, readUndirected st nLo nHi mHi lo data file = Ret (v, ds) rest) <->
   exists n es ds, nLo <= n < nHi /\ is_i64 n /\ alen es < mHi /\ alen es <= I64_MAX /\ alen ds = alen es /\ edgesIn lo (lo + n) es /\
     Forall (within data) ds /\ file = graphFile n es ds).
Proof. exact graph_accepted. Qed.
Print Assumptions C73_accepts.
(* and what it then knows about them *)
Theorem C73_meaning : forall st nLo nHi mHi lo data file v ds rest, spaceSensitive st = true -> 0 <= nLo ->
  is_i64 lo -> is_i64 (lo + nLo) -> is_i64 (lo + nHi - 1) -> is_i64 (2 * (nHi - 1)) ->
  readUndirected st nLo nHi mHi lo data file = Ret (v, ds) rest -> rest = [] /\ exists n es, file = graphFile n es ds /\ edgesIn lo (lo + n) es /\
    GraphModel.nodeCount (GraphModel.base v) = n /\ GraphModel.edgeCount (GraphModel.base v) = alen es /\
    (GraphModel.hasSelfloop (GraphModel.base v) = None <-> forall x, ~ In (x, x) es) /\
    (GraphModel.hasMultiedge (GraphModel.base v) = None <-> forall f, ~ repeated sameEdge es f) /\
    (GraphModel.isConnected v = true <-> connectedGraph lo (lo + n) es) /\
    (GraphModel.isForest v = true <-> acyclic es) /\
    (GraphModel.isTree v = true <-> connectedGraph lo (lo + n) es /\ acyclic es) /\
    (GraphModel.isBipartite v = true <-> twoColourable es).
Proof. exact graph_meaning. Qed.
Print Assumptions C73_meaning.
(* a printed undirected graph is accepted and the validator sees the graph printed *)
Theorem C73_graph_back : forall E (g : graph E) (numbers : E -> list Z) lo hi M st nLo nHi mHi data,
  represents false g lo hi M -> spaceSensitive st = true -> nLo <= hi - lo < nHi -> edgeCount g < mHi -> edgeCount g <= I64_MAX ->
  is_i64 lo -> is_i64 (lo + nLo) -> is_i64 (lo + nHi - 1) -> is_i64 (2 * (hi - lo)) ->
  Forall (fun e => within data (numbers (snd e))) (getEdges g) ->
  exists v, readUndirected st nLo nHi mHi lo data (showGraph numbers g ++ [10]) = Ret (v, map (fun e => numbers (snd e)) (getEdges g)) [] /\
    GraphModel.nodeCount (GraphModel.base v) = nodeCount g /\ GraphModel.edgeCount (GraphModel.base v) = edgeCount g /\
    GraphModel.hasSelfloop (GraphModel.base v) = None /\ GraphModel.hasMultiedge (GraphModel.base v) = None /\
    (forall a b, node lo hi a -> node lo hi b -> GraphModel.hasEdge (GraphModel.base v) a b = hasEdge g a b) /\
    (forall a, node lo hi a -> GraphModel.degree (GraphModel.base v) a = degree g a) /\
    (GraphModel.isConnected v = true <-> connectedGraph lo hi (map fst (getEdges g))) /\
    (GraphModel.isForest v = true <-> acyclic (map fst (getEdges g))) /\
    (GraphModel.isTree v = true <-> connectedGraph lo hi (map fst (getEdges g)) /\ acyclic (map fst (getEdges g))) /\
    (GraphModel.isBipartite v = true <-> twoColourable (map fst (getEdges g))).
Proof. exact graph_back. Qed.
Print Assumptions C73_graph_back.
(* the same for directed graphs *)
Theorem C73_digraph_back : forall E (g : graph E) (numbers : E -> list Z) lo hi M st nLo nHi mHi data,
  represents true g lo hi M -> spaceSensitive st = true -> nLo <= hi - lo < nHi -> edgeCount g < mHi -> edgeCount g <= I64_MAX ->
  is_i64 lo -> is_i64 (lo + nLo) -> is_i64 (lo + nHi - 1) -> is_i64 (hi - lo) ->
  Forall (fun e => within data (numbers (snd e))) (getEdges g) ->
  exists v, readDirected st nLo nHi mHi lo data (showGraph numbers g ++ [10]) = Ret (v, map (fun e => numbers (snd e)) (getEdges g)) [] /\
    GraphModel.nodeCount (GraphModel.dbase v) = nodeCount g /\ GraphModel.edgeCount (GraphModel.dbase v) = edgeCount g /\
    GraphModel.hasSelfloop (GraphModel.dbase v) = None /\ GraphModel.hasMultiedge (GraphModel.dbase v) = None /\
    (forall a b, node lo hi a -> node lo hi b -> GraphModel.hasEdge (GraphModel.dbase v) a b = hasEdge g a b) /\
    (forall a b, node lo hi a -> node lo hi b -> GraphModel.hasReverse v a b = hasEdge g b a) /\
    (forall a, node lo hi a -> GraphModel.degree (GraphModel.dbase v) a = degree g a) /\
    (forall x, node lo hi x -> (GraphModel.diIsTree v = Some x <-> arborescence lo hi (map fst (getEdges g)) x)).
Proof. exact digraph_back. Qed.
Print Assumptions C73_digraph_back.
(* whatever is drawn, the validator agrees with the generator *)
Theorem C73_randomTree : forall E (dflt : E) n st nHi mHi, 1 <= n < nHi -> n <= mHi -> is_i64 (nHi - 1) -> is_i64 (2 * n) -> spaceSensitive st = true ->
  always (randomTree dflt n) (returns (fun g => exists v ds,
    readUndirected st 1 nHi mHi 0 [] (showGraph noData g ++ [10]) = Ret (v, ds) [] /\
    GraphModel.nodeCount (GraphModel.base v) = n /\ GraphModel.isTree v = true)).
Proof. exact tree_pipe. Qed.
Print Assumptions C73_randomTree.
Theorem C73_randomTreeDir : forall E (dflt : E) n st nHi mHi, 1 <= n < nHi -> n <= mHi -> is_i64 (nHi - 1) -> spaceSensitive st = true ->
  always (randomTreeDir dflt n) (returns (fun g => exists v ds,
    readDirected st 1 nHi mHi 0 [] (showGraph noData g ++ [10]) = Ret (v, ds) [] /\
    GraphModel.nodeCount (GraphModel.dbase v) = n /\ GraphModel.diIsTree v = Some 0)).
Proof. exact arborescence_pipe. Qed.
Print Assumptions C73_randomTreeDir.
Theorem C73_randomGraph : forall E (dflt : E) n m st nLo nHi mHi, 0 <= nLo <= n -> n < nHi -> 0 <= m <= n * (n - 1) / 2 -> m < mHi -> is_i64 (nHi - 1) -> is_i64 (n * (n - 1)) -> is_i64 (2 * n) ->
  spaceSensitive st = true ->
  always (randomGraph dflt false n m) (returns (fun g => exists v ds,
    readUndirected st nLo nHi mHi 0 [] (showGraph noData g ++ [10]) = Ret (v, ds) [] /\
    GraphModel.nodeCount (GraphModel.base v) = n /\ GraphModel.edgeCount (GraphModel.base v) = m /\
    GraphModel.hasSelfloop (GraphModel.base v) = None /\ GraphModel.hasMultiedge (GraphModel.base v) = None)).
Proof. exact random_pipe. Qed.
Print Assumptions C73_randomGraph.
Theorem C73_randomBipartite : forall E (dflt : E) n m k st nLo nHi mHi, 0 <= n -> 0 <= m -> 0 <= nLo <= n + m -> n + m < nHi -> 0 <= k <= n * m -> k < mHi ->
  is_i64 (nHi - 1) -> is_i64 (n * m * 2) -> is_i64 (2 * (n + m)) -> spaceSensitive st = true ->
  always (randomBipartite dflt false n m k) (returns (fun g => exists v ds,
    readUndirected st nLo nHi mHi 0 [] (showGraph noData g ++ [10]) = Ret (v, ds) [] /\
    GraphModel.nodeCount (GraphModel.base v) = n + m /\ GraphModel.edgeCount (GraphModel.base v) = k /\
    GraphModel.hasMultiedge (GraphModel.base v) = None /\ GraphModel.isBipartite v = true)).
Proof. exact bipartite_pipe. Qed.
Print Assumptions C73_randomBipartite.

Example C73_ex :
  let text := (let! g := play (randomTree tt 5) [3; 3; 1] in Ok (showGraph noData g ++ [10])) in
  text = Ok [53; 32; 52; 10; 51; 32; 48; 10; 51; 32; 50; 10; 49; 32; 51; 10; 49; 32; 52; 10] /\
  match text with
  | Ok t => match readUndirected exCfg 1 10 10 0 [] t with
            | Ret (v, _) rest => (GraphModel.isTree v, GraphModel.nodeCount (GraphModel.base v), rest) = (true, 5, [])
            | _ => False
            end
  | _ => False
  end.
Proof. vm_compute. auto. Qed.
(* weighted edges, nodes from 1 *)
Example C73_ex_weighted :
  let g := (let! g := newGraph 1 4 in let! g := addEdge false g 1 3 (-7) in addEdge false g 3 2 20) in
  match g with
  | Ok g => match readUndirected exCfg 1 10 10 1 [(-10, 30)] (showGraph intData g ++ [10]) with
            | Ret (v, ds) rest => (GraphModel.hasEdge (GraphModel.base v) 2 3, GraphModel.isTree v, ds, rest) = (Ok true, true, [[-7]; [20]], [])
            | _ => False
            end
  | _ => False
  end.
Proof. vm_compute. auto. Qed.
Example C73_ex_rejects :
  readUndirected exCfg 1 10 10 0 [] [50; 32; 49; 10; 48; 32; 50; 10] = Exit 43 /\        (* node 2 of [0, 2) *)
  readUndirected exCfg 1 10 10 0 [] [50; 32; 49; 10; 48; 32; 49] = Exit 43 /\            (* no newline at the end *)
  readUndirected exCfg 1 10 10 0 [] [50; 32; 48; 10; 10] = Exit 43.                      (* an additional line *)
Proof. vm_compute. auto. Qed.
