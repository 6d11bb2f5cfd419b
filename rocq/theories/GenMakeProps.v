(* Properties of the graph generators. *)
From Verif Require Import Base RndModel GenModel GenSpec GenOpsModel GenMakeModel GenMakeSpec GenMakeProofs GenMakeProofs2 GenMakeProofs3 GenMakeProofs4 GenMakeProofs5.
Open Scope Z_scope.

(* ---- C39 ---- *)
Theorem C39_independent : forall E dir (dflt : E) n, 0 <= n ->
  exists g, independent n = Ok g /\ represents dir g 0 n (edgesBy dflt (fun _ _ => false)).
Proof. exact independent_rep. Qed.
Print Assumptions C39_independent.
Theorem C39_clique : forall E dir (dflt : E) n, 0 <= n -> exists g, clique dflt dir n = Ok g /\
  represents dir g 0 n (edgesBy dflt (fun u v => inside 0 n u && inside 0 n v && (if dir then u <? v else negb (u =? v)))).
Proof. exact clique_rep. Qed.
Print Assumptions C39_clique.
Theorem C39_bipartite : forall E dir (dflt : E) n m, 0 <= n -> 0 <= m -> exists g, bipartite dflt dir n m = Ok g /\
  represents dir g 0 (n + m) (edgesBy dflt (sym dir (fun u v => inside 0 n u && inside n (n + m) v))).
Proof. exact bipartite_rep. Qed.
Print Assumptions C39_bipartite.
Theorem C39_star : forall E dir (dflt : E) n, 0 <= n -> exists g, star dflt dir n = Ok g /\
  represents dir g 0 (n + 1) (edgesBy dflt (sym dir (fun u v => (u =? 0) && inside 1 (n + 1) v))).
Proof. exact star_rep. Qed.
Print Assumptions C39_star.
Theorem C39_path : forall E dir (dflt : E) n, 0 <= n + 1 -> exists g, path dflt dir n = Ok g /\
  represents dir g 0 (n + 1) (edgesBy dflt (sym dir (fun u v => inside 0 n u && (v =? u + 1)))).
Proof. exact path_rep. Qed.
Print Assumptions C39_path.
Theorem C39_cycle : forall E (dflt : E) n, 2 <= n -> exists g, cycle dflt n = Ok g /\
  represents false g 0 n (edgesBy dflt (sym false (fun u v => inside 0 n u && (v =? (u + 1) mod n)))).
Proof. exact cycle_rep. Qed.
Print Assumptions C39_cycle.
Theorem C39_cycle_throws : forall E (dflt : E) n, n <= 1 -> cycle dflt n = Throw.
Proof. exact cycle_throws. Qed.
Print Assumptions C39_cycle_throws.
Theorem C39_lolly : forall E (dflt : E) p c, 0 <= p -> 0 <= c -> exists g, lolly dflt p c = Ok g /\
  represents false g 0 (p + Z.max 1 c) (edgesBy dflt (fun u v => sym false (fun u v => inside 0 p u && (v =? u + 1)) u v ||
    inside p (p + c) u && inside p (p + c) v && negb (u =? v))).
Proof. exact lolly_rep. Qed.
Print Assumptions C39_lolly.
Theorem C39_broom : forall E (dflt : E) p c, 0 <= p -> 0 <= c -> exists g, broom dflt p c = Ok g /\
  represents false g 0 (p + c + 1) (edgesBy dflt (sym false (fun u v => inside 0 p u && (v =? u + 1) || (u =? p) && inside (p + 1) (p + c + 1) v))).
Proof. exact broom_rep. Qed.
Print Assumptions C39_broom.
(* node y * n + x is the point (x, y) *)
Theorem C39_grid : forall E (dflt : E) n m, 0 <= n -> 0 <= m -> exists g M, grid dflt n m = Ok g /\ represents false g 0 (n * m) M /\
  forall x y x' y', 0 <= x < n -> 0 <= x' < n -> 0 <= y < m -> 0 <= y' < m ->
    M (y * n + x) (y' * n + x') = if Z.abs (x - x') + Z.abs (y - y') =? 1 then Some dflt else None.
Proof. exact grid_rep. Qed.
Print Assumptions C39_grid.
Theorem C39_hypercube : forall E (dflt : E) d, 0 <= d -> exists g M, hypercube dflt d = Ok g /\ represents false g 0 (2 ^ d) M /\
  (forall u v, 0 <= u < 2 ^ d -> 0 <= v < 2 ^ d -> (isEdge M u v = true <-> exists k, 0 <= k < d /\ Z.lxor u v = 2 ^ k)) /\
  (forall u v x, M u v = Some x -> x = dflt).
Proof. exact hypercube_rep. Qed.
Print Assumptions C39_hypercube.
(* arcs go from a set to the set without one of its elements *)
Theorem C39_booleanLattice : forall E dir (dflt : E) level, 0 <= level < 31 -> exists g P, booleanLattice dflt dir level = Ok g /\
  represents dir g 0 (2 ^ level) (edgesBy dflt (sym dir P)) /\
  forall u v, P u v = true <-> 0 <= u < 2 ^ level /\ exists c, 0 <= c /\ Z.testbit u c = true /\ v = u - 2 ^ c.
Proof. exact lattice_rep. Qed.
Print Assumptions C39_booleanLattice.
(* the bits of u, except when u has only one *)
Theorem C39_rado : forall E dir (dflt : E) n, 0 <= n <= 2 ^ 30 + 1 -> exists g P, rado dflt dir n = Ok g /\
  represents dir g 0 n (edgesBy dflt (sym dir P)) /\
  forall u v, P u v = true <-> 0 <= u < n /\ 0 <= v /\ Z.testbit u v = true /\ 2 ^ v < u.
Proof. exact rado_rep. Qed.
Print Assumptions C39_rado.
(* of depth level - 1, but at least 1 *)
Theorem C39_completeTree : forall E dir (dflt : E) c, 0 <= c -> forall level, exists g M, completeTree dflt dir level c = Ok g /\
  represents dir g 0 (treeSize c (Z.to_nat (Z.max 1 (level - 1)))) M /\
  (forall u v, isEdge M u v = true <-> treeEdge c (Z.to_nat (Z.max 1 (level - 1))) u v \/ dir = false /\ treeEdge c (Z.to_nat (Z.max 1 (level - 1))) v u) /\
  (forall u v d, M u v = Some d -> d = dflt).
Proof. exact completeTree_rep. Qed.
Print Assumptions C39_completeTree.
(* wheel(n) has n + 2 nodes, the last one not joined to the hub, and no rim edge between 1 and n *)
Theorem C39_wheel_refuted : forall E (dflt : E) n, 0 <= n ->
  exists g, wheel dflt n = Ok g /\ nodeCount g = n + 2 /\ hasEdge g 0 (n + 1) = Ok false /\ hasEdge g 1 n = Ok (n =? 2).
Proof. exact wheel_size. Qed.
Print Assumptions C39_wheel_refuted.
(* documented: (2^3 - 1) / (2 - 1) = 7 nodes and 1 node *)
Theorem C39_completeTree_refuted :
  (let! g := completeTree tt false 2 2 in Ok (nodeCount g, map fst (getEdges g))) = Ok (3, [(0, 1); (0, 2)]) /\
  (let! g := completeTree tt false 0 2 in Ok (nodeCount g)) = Ok 3.
Proof. exact completeTree_level2. Qed.
Print Assumptions C39_completeTree_refuted.
(* documented: also (1, 0), (2, 1), (4, 2) *)
Theorem C39_rado_refuted : (let! g := rado tt false 5 in Ok (map fst (getEdges g))) = Ok [(3, 0); (3, 1)].
Proof. exact rado_powers. Qed.
Print Assumptions C39_rado_refuted.
(* documented: i -> j iff i | j = j, such as 0 -> 1 and 0 -> 3 *)
Theorem C39_booleanLattice_refuted : (let! g := booleanLattice tt true 2 in Ok (map fst (getEdges g))) = Ok [(1, 0); (2, 0); (3, 2); (3, 1)].
Proof. exact lattice_down. Qed.
Print Assumptions C39_booleanLattice_refuted.
Definition pairsOf (o : outcome (graph unit)) : outcome (Z * list (Z * Z)) := let! g := o in Ok (nodeCount g, map fst (getEdges g)).
Example C39_ex : pairsOf (clique tt true 4) = Ok (4, [(0, 1); (0, 2); (1, 2); (0, 3); (1, 3); (2, 3)]) /\
  pairsOf (bipartite tt false 2 3) = Ok (5, [(0, 2); (0, 3); (0, 4); (1, 2); (1, 3); (1, 4)]) /\
  pairsOf (star tt true 3) = Ok (4, [(0, 1); (0, 2); (0, 3)]) /\ pairsOf (path tt true 2) = Ok (3, [(0, 1); (1, 2)]) /\
  pairsOf (cycle tt 4) = Ok (4, [(0, 1); (1, 2); (2, 3); (3, 0)]) /\ pairsOf (cycle tt 2) = Ok (2, [(0, 1)]).
Proof. vm_compute. repeat split. Qed.
Example C39_ex2 : pairsOf (lolly tt 2 3) = Ok (5, [(0, 1); (1, 2); (2, 3); (2, 4); (3, 4)]) /\
  pairsOf (broom tt 1 2) = Ok (4, [(0, 1); (1, 2); (1, 3)]) /\
  pairsOf (grid tt 3 2) = Ok (6, [(0, 3); (1, 4); (2, 5); (0, 1); (3, 4); (1, 2); (4, 5)]) /\
  pairsOf (hypercube tt 2) = Ok (4, [(0, 2); (1, 3); (0, 1); (2, 3)]) /\
  pairsOf (rado tt true 8) = Ok (8, [(3, 0); (3, 1); (5, 0); (5, 2); (6, 1); (6, 2); (7, 0); (7, 1); (7, 2)]) /\
  pairsOf (completeTree tt true 3 2) = Ok (7, [(1, 2); (1, 3); (0, 1); (4, 5); (4, 6); (0, 4)]).
Proof. vm_compute. repeat split. Qed.
