(* Properties of the operations on generated graphs. *)
From Verif Require Import Base RndModel RandSeqModel RandSpec GenModel GenSpec GenOpsModel GenOpsSpec GenProofs3 GenOpsProofs GenOpsProofs2 GenOpsProofs3 GenOpsProofs4 GenOpsProofs5.
From Coq Require Import Permutation.
Open Scope Z_scope.

(* ---- C55 ---- *)
Theorem C55_copy : forall E dir (g : graph E) M lo hi, represents dir g lo hi M ->
  exists g', copy dir g = Ok g' /\ represents dir g' lo hi M /\ getEdges g' = getEdges g.
Proof. exact copy_rep. Qed.
Print Assumptions C55_copy.
Theorem C55_setMinId : forall E dir (g : graph E) M lo hi n, represents dir g lo hi M ->
  exists g', setMinId dir g n = Ok g' /\ represents dir g' n (n + (hi - lo)) (fun u v => M (u - n + lo) (v - n + lo)).
Proof. exact setMinId_rep. Qed.
Print Assumptions C55_setMinId.
Theorem C55_normalize : forall E dir (g : graph E) M lo hi, represents dir g lo hi M ->
  exists g', normalize dir g = Ok g' /\ represents dir g' 0 (hi - lo) (fun u v => M (u + lo) (v + lo)).
Proof. exact normalize_rep. Qed.
Print Assumptions C55_normalize.
Theorem C55_reverse : forall E (g : graph E) M lo hi, represents true g lo hi M ->
  exists g', reverse g = Ok g' /\ represents true g' lo hi (fun u v => M v u).
Proof. exact reverse_rep. Qed.
Print Assumptions C55_reverse.
Theorem C55_undirected : forall E (g : graph E) M lo hi, represents true g lo hi M ->
  exists g' M', undirected g = Ok g' /\ represents false g' lo hi M' /\
    (forall u v, isEdge M' u v = isEdge M u v || isEdge M v u) /\
    (forall u v d, M' u v = Some d -> M u v = Some d \/ M v u = Some d).
Proof. exact undirected_rep. Qed.
Print Assumptions C55_undirected.
Theorem C55_directed : forall E (p : Z -> Z -> E -> bool) (g : graph E) M lo hi, represents false g lo hi M ->
  exists g', directed p g = Ok g' /\
    represents true g' lo hi (fun u v => match M u v with Some d => if p u v d then Some d else None | None => None end).
Proof. exact directed_rep. Qed.
Print Assumptions C55_directed.
Theorem C55_complement : forall E dir (dflt : E) g M lo hi, represents dir g lo hi M ->
  exists g', complement dflt dir g = Ok g' /\
    represents dir g' lo hi (fun u v =>
      if (lo <=? u) && (u <? hi) && (lo <=? v) && (v <? hi) && negb (u =? v) && negb (isEdge M u v) then Some dflt else None).
Proof. exact complement_rep. Qed.
Print Assumptions C55_complement.
(* range is right for graphs whose nodes start at 0, and only for those *)
Theorem C55_range : forall E dir (g : graph E) M hi from to, represents dir g 0 hi M -> from <= to ->
  exists g', range dir g from to = Ok g' /\
    represents dir g' from to (fun u v => if (from <=? u) && (u <? to) && (from <=? v) && (v <? to) then M u v else None).
Proof. exact range_rep. Qed.
Print Assumptions C55_range.
Theorem C55_range_throws : forall E dir (g : graph E) from to, to < from -> range dir g from to = Throw.
Proof. exact range_throws. Qed.
Print Assumptions C55_range_throws.
(* nodes 5..14: [5, 10) loses its edges, [13, 15) throws *)
Theorem C55_range_shifted_refuted :
  (let! g := shifted in let! r := range false g 5 10 in Ok (getEdges g, getEdges r)) = Ok ([(5, 6, tt); (8, 9, tt)], []) /\
  (let! g := shifted in range false g 13 15) = Throw.
Proof. exact range_shifted. Qed.
Print Assumptions C55_range_shifted_refuted.

Definition exGraph (dir : bool) (lo : Z) : outcome (graph Z) :=
  let! g := newGraph lo (lo + 4) in addEdges dir g [(lo, lo + 1, 7); (lo + 1, lo, 8); (lo + 1, lo + 2, 9); (lo + 3, lo + 2, 5)].
Example C55_ex_shift : (let! g := exGraph false 5 in let! h := setMinId false g 100 in Ok (getEdges h, adj h)) =
  Ok ([(100, 101, 8); (101, 102, 9); (103, 102, 5)], [[0]; [0; 1]; [2; 1]; [2]]%nat).
Proof. vm_compute. reflexivity. Qed.
Example C55_ex_directed : (let! g := exGraph true 5 in let! h := reverse g in let! u := undirected h in let! d := directed (fun u v _ => u <? v) u in Ok (getEdges h, getEdges u, getEdges d)) =
  Ok ([(6, 5, 7); (5, 6, 8); (7, 6, 9); (7, 8, 5)], [(6, 5, 8); (7, 6, 9); (7, 8, 5)], [(5, 6, 8); (6, 7, 9); (7, 8, 5)]).
Proof. vm_compute. reflexivity. Qed.
Example C55_ex_complement : (let! g := exGraph false 5 in let! h := complement 0 false g in Ok (getEdges h, adj h)) =
  Ok ([(7, 5, 0); (8, 5, 0); (8, 6, 0)], [[0; 1]; [2]; [0]; [1; 2]]%nat).
Proof. vm_compute. reflexivity. Qed.
Example C55_ex_range : (let! g := exGraph false 0 in let! h := range false g 1 9 in Ok (getEdges h, nodeCount h)) = Ok ([(1, 2, 9); (3, 2, 5)], 8).
Proof. vm_compute. reflexivity. Qed.

(* ---- C56 ---- *)
(* the union on the hull of the node ranges; entries of the second graph win *)
Theorem C56_combine : forall E dir (g : graph E) M lo hi o O lo' hi', represents dir g lo hi M -> represents dir o lo' hi' O ->
  exists g', combine dir g o = Ok g' /\
    represents dir g' (Z.min lo lo') (Z.max hi hi') (fun u v => match O u v with Some d => Some d | None => M u v end).
Proof. exact combine_rep. Qed.
Print Assumptions C56_combine.
(* the disjoint union, the second graph behind the first *)
Theorem C56_append : forall E dir (g : graph E) M lo hi o O lo' hi', represents dir g lo hi M -> represents dir o lo' hi' O ->
  exists g', append dir g o = Ok g' /\
    represents dir g' lo (hi + (hi' - lo')) (fun u v => match O (u - hi + lo') (v - hi + lo') with Some d => Some d | None => M u v end).
Proof. exact append_rep. Qed.
Print Assumptions C56_append.
Example C56_ex : (let! g := exGraph false 5 in let! o := exGraph false 3 in let! c := combine false g o in let! a := append false g o in
  Ok (getEdges c, minId c, nodeCount c, getEdges a, minId a, nodeCount a)) =
  Ok ([(5, 6, 5); (6, 7, 9); (8, 7, 5); (3, 4, 8); (4, 5, 9)], 3, 6,
      [(5, 6, 8); (6, 7, 9); (8, 7, 5); (9, 10, 8); (10, 11, 9); (12, 11, 5)], 5, 8).
Proof. vm_compute. reflexivity. Qed.

(* ---- C57 ---- *)
(* tensor product; the pair (a, c) has the number (c - lo') * (hi - lo) + (a - lo) *)
Theorem C57_product : forall E (dflt : E) g o M O lo hi lo' hi', represents false g lo hi M -> represents false o lo' hi' O ->
  exists g' M', product dflt false g o = Ok g' /\ represents false g' 0 ((hi - lo) * (hi' - lo')) M' /\
    forall a b c d, lo <= a < hi -> lo <= b < hi -> lo' <= c < hi' -> lo' <= d < hi' ->
      M' ((c - lo') * (hi - lo) + (a - lo)) ((d - lo') * (hi - lo) + (b - lo)) = if isEdge M a b && isEdge O c d then Some dflt else None.
Proof. exact product_rep. Qed.
Print Assumptions C57_product.
Theorem C57_cartesian : forall E (dflt : E) dir g o M O lo hi lo' hi', represents dir g lo hi M -> represents dir o lo' hi' O ->
  exists g' M', cartesian dflt dir g o = Ok g' /\ represents dir g' 0 ((hi - lo) * (hi' - lo')) M' /\
    forall a b c d, lo <= a < hi -> lo <= b < hi -> lo' <= c < hi' -> lo' <= d < hi' ->
      M' ((c - lo') * (hi - lo) + (a - lo)) ((d - lo') * (hi - lo) + (b - lo)) =
      if (a =? b) && isEdge O c d || isEdge M a b && (c =? d) then Some dflt else None.
Proof. exact cartesian_rep. Qed.
Print Assumptions C57_cartesian.
(* the strong product numbers the pairs the other way round *)
Theorem C57_strongProduct : forall E (dflt : E) g o M O lo hi lo' hi', represents false g lo hi M -> represents false o lo' hi' O ->
  exists g' M', strongProduct dflt false g o = Ok g' /\ represents false g' 0 ((hi' - lo') * (hi - lo)) M' /\
    forall a b c d, lo <= a < hi -> lo <= b < hi -> lo' <= c < hi' -> lo' <= d < hi' ->
      M' ((a - lo) * (hi' - lo') + (c - lo')) ((b - lo) * (hi' - lo') + (d - lo')) =
      if ((a =? b) && isEdge O c d) || (isEdge M a b && (c =? d)) || (isEdge M a b && isEdge O c d) then Some dflt else None.
Proof. exact strongProduct_rep. Qed.
Print Assumptions C57_strongProduct.
(* node i of the line graph is the i-th edge *)
Theorem C57_lineGraph : forall dir (g : graph Z) M lo hi, represents dir g lo hi M ->
  exists g' M', lineGraph dir g = Ok g' /\ represents dir g' 0 (alen (getEdges g)) M' /\
    (forall i j, isEdge M' i j = true <-> i <> j /\ exists u v x u' v' y,
      aget (getEdges g) i = Ok (u, v, x) /\ aget (getEdges g) j = Ok (u', v', y) /\ follows dir (u, v) (u', v')) /\
    (forall i j d, M' i j = Some d -> d = 0).
Proof. exact lineGraph_rep. Qed.
Print Assumptions C57_lineGraph.
Definition exEdge (lo : Z) : outcome (graph unit) := let! g := newGraph lo (lo + 2) in addEdges false g [(lo, lo + 1, tt)].
Definition exPath (lo : Z) : outcome (graph unit) := let! g := newGraph lo (lo + 3) in addEdges false g [(lo, lo + 1, tt); (lo + 2, lo + 1, tt)].
Example C57_ex_product : (let! g := exEdge 1 in let! o := exPath 4 in let! p := product tt false g o in let! c := cartesian tt false g o in let! s := strongProduct tt false g o in
  Ok (map fst (getEdges p), map fst (getEdges c), map fst (getEdges s))) =
  Ok ([(0, 3); (2, 1); (4, 3); (2, 5)], [(0, 2); (1, 3); (4, 2); (5, 3); (0, 1); (2, 3); (4, 5)],
      [(0, 3); (1, 4); (2, 5); (0, 1); (3, 4); (2, 1); (5, 4); (0, 4); (3, 1); (2, 4); (5, 1)]).
Proof. vm_compute. reflexivity. Qed.
Example C57_ex_line : (let! g := exGraph true 5 in let! l := lineGraph true g in let! h := exGraph false 5 in let! m := lineGraph false h in
  Ok (map fst (getEdges l), map fst (getEdges m))) = Ok ([(0, 2); (0, 1); (1, 0)], [(0, 1); (1, 2)]).
Proof. vm_compute. reflexivity. Qed.

(* ---- C58 ---- *)
(* directed: u -> v iff there is a walk of at most k edges from u to another node v *)
Theorem C58_power : forall E (dflt : E) g M lo hi k, represents true g lo hi M ->
  exists g' M', power dflt true g k = Ok g' /\ represents true g' lo hi M' /\
    (forall u v, isEdge M' u v = true <-> lo <= u < hi /\ u <> v /\ within M k u v) /\
    (forall u v d, M' u v = Some d -> d = dflt).
Proof. exact power_rep. Qed.
Print Assumptions C58_power.
(* undirected: the edge list holds both directions, and erasing an edge does not remove it *)
Theorem C58_power_undirected_refuted :
  (let! g := newGraph 0 2 in let! g := addEdge false g 0 1 tt in let! p := power tt false g 1 in
   let! (q, b) := eraseEdge false p 0 1 in let! h := hasEdge q 0 1 in Ok (getEdges p, b, getEdges q, h)) =
  Ok ([(0, 1, tt); (1, 0, tt)], true, [(1, 0, tt)], true).
Proof. exact power_twice. Qed.
Print Assumptions C58_power_undirected_refuted.
(* 5 <-> 6 -> 7 <- 8 *)
Example C58_ex : (let! g := exGraph true 5 in let! p := power 0 true g 2 in Ok (map fst (getEdges p))) = Ok [(5, 6); (5, 7); (6, 7); (6, 5); (8, 7)].
Proof. vm_compute. reflexivity. Qed.

(* ---- C59 ---- *)
(* the edge order and the stored direction may change, the graph does not *)
Theorem C59_permutateEdges : forall E dir (g : graph E) M lo hi, represents dir g lo hi M ->
  always (permutateEdges dir g) (returns (fun g' => represents dir g' lo hi M)).
Proof. exact permutateEdges_rep. Qed.
Print Assumptions C59_permutateEdges.
Theorem C59_permutateWith : forall E dir (g : graph E) M lo hi perm, represents dir g lo hi M ->
  Permutation (zseq lo (Z.to_nat (hi - lo))) perm -> is_i64 lo -> is_i64 hi -> hi - lo <= I64_MAX ->
  always (permutateWith dir g perm) (returns (fun g' => exists M', represents dir g' lo hi M' /\
    forall u v, lo <= u < hi -> lo <= v < hi -> M' (getz perm (u - lo)) (getz perm (v - lo)) = M u v)).
Proof. exact permutateWith_rep. Qed.
Print Assumptions C59_permutateWith.
Theorem C59_permutate : forall E dir (g : graph E) M lo hi, represents dir g lo hi M -> is_i64 lo -> is_i64 hi -> hi - lo <= I64_MAX ->
  always (permutate dir g) (returns (fun g' => exists perm M', Permutation (zseq lo (Z.to_nat (hi - lo))) perm /\ represents dir g' lo hi M' /\
    forall u v, lo <= u < hi -> lo <= v < hi -> M' (getz perm (u - lo)) (getz perm (v - lo)) = M u v)).
Proof. exact permutate_rep. Qed.
Print Assumptions C59_permutate.
(* min(m, edgeCount) of the edges *)
Theorem C59_subgraph : forall E dir (g : graph E) M lo hi m, represents dir g lo hi M -> 0 <= m -> is_i64 (edgeCount g) ->
  always (subgraph dir g m) (returns (fun g' => exists M', represents dir g' lo hi M' /\
    (forall u v d, M' u v = Some d -> M u v = Some d) /\ edgeCount g' = Z.min m (edgeCount g))).
Proof. exact subgraph_rep. Qed.
Print Assumptions C59_subgraph.
Theorem C59_subgraph_throws : forall E dir (g : graph E) m, m < 0 -> is_i64 m -> is_i64 (edgeCount g) -> subgraph dir g m = RRet Throw.
Proof. exact subgraph_throws. Qed.
Print Assumptions C59_subgraph_throws.
(* a permutation of the wrong length is accepted and read or written out of bounds *)
Theorem C59_permutate_length_refuted :
  (let! g := newGraph 0 2 in let! g := addEdge false g 0 1 tt in play (permutateWith false g [0]) [0; 0]) = UB /\
  (let! g := newGraph 0 2 in let! g := addEdge false g 0 1 tt in play (permutateWith false g [0; 2; 1]) [0; 0]) = UB.
Proof. exact permutate_short. Qed.
Print Assumptions C59_permutate_length_refuted.
Example C59_ex_permutate : (let! g := exGraph false 5 in let! h := play (permutateWith false g [7; 5; 8; 6]) [0; 0; 1; 0; 1; 0] in Ok (getEdges h)) =
  Ok [(8, 5, 9); (6, 8, 5); (5, 7, 8)].
Proof. vm_compute. reflexivity. Qed.
Example C59_ex_subgraph : (let! g := exGraph false 5 in let! h := play (subgraph false g 2) [2; 0] in Ok (getEdges h, adj h)) =
  Ok ([(8, 7, 5); (5, 6, 8)], [[1]; [1]; [0]; [0]]%nat).
Proof. vm_compute. reflexivity. Qed.
