(* What a graph with data on its edges is: a partial map from pairs of nodes to data. *)
From Verif Require Import Base GenModel.
From Coq Require Import Sorted.

(* the same pair, up to order when undirected *)
Definition samePair (dir : bool) (u v x y : Z) : Prop :=
  (u = x /\ v = y) \/ (dir = false /\ u = y /\ v = x).
Definition samePairb (dir : bool) (u v x y : Z) : bool :=
  (u =? x) && (v =? y) || negb dir && (u =? y) && (v =? x).
Definition emap (E : Type) := Z -> Z -> option E.
Definition put {E} (dir : bool) (M : emap E) (u v : Z) (d : option E) : emap E :=
  fun x y => if samePairb dir u v x y then d else M x y.
Definition isEdge {E} (M : emap E) (u v : Z) : bool := match M u v with Some _ => true | None => false end.

(* the nodes behind u with their data, increasing in u ^ neighbour *)
Definition neighbourList {E} (M : emap E) (u : Z) (l : list (Z * E)) : Prop :=
  StronglySorted Z.lt (map (fun p => Z.lxor u (fst p)) l) /\
  (forall v d, In (v, d) l <-> M u v = Some d).
(* every edge exactly once *)
Definition edgeList {E} (dir : bool) (M : emap E) (l : list (Z * Z * E)) : Prop :=
  (forall u v d, In (u, v, d) l -> M u v = Some d) /\
  (forall u v d, M u v = Some d -> exists x y, In (x, y, d) l /\ samePair dir x y u v) /\
  (forall l1 x y d l2 u v f l3, l = l1 ++ (x, y, d) :: l2 ++ (u, v, f) :: l3 -> ~ samePair dir x y u v).

(* the answers a map gives *)
Inductive ganswers {E} (dir : bool) : emap E -> list (gcall E) -> list (ganswer E) -> Prop :=
| ga_nil : forall M, ganswers dir M [] []
| ga_add : forall M u v d cs l, ganswers dir (put dir M u v (Some d)) cs l ->
    ganswers dir M (CAdd u v d :: cs) (AUnit :: l)
| ga_erase : forall M u v cs l, ganswers dir (put dir M u v None) cs l ->
    ganswers dir M (CErase u v :: cs) (ABool (isEdge M u v) :: l)
| ga_has : forall M u v cs l, ganswers dir M cs l -> ganswers dir M (CHas u v :: cs) (ABool (isEdge M u v) :: l)
| ga_find : forall M u v cs l, ganswers dir M cs l -> ganswers dir M (CFind u v :: cs) (AData (M u v) :: l)
| ga_degree : forall M u n cs l, neighbourList M u n -> ganswers dir M cs l ->
    ganswers dir M (CDegree u :: cs) (AInt (alen n) :: l)
| ga_neighbours : forall M u n cs l, neighbourList M u n -> ganswers dir M cs l ->
    ganswers dir M (CNeighbours u :: cs) (ANeighbours n :: l)
| ga_count : forall M n cs l, edgeList dir M n -> ganswers dir M cs l ->
    ganswers dir M (CCount :: cs) (AInt (alen n) :: l)
| ga_edges : forall M n cs l, edgeList dir M n -> ganswers dir M cs l ->
    ganswers dir M (CEdges :: cs) (AEdges n :: l).
(* calls with nodes of [lo, hi) and no loops added *)
Definition gcallOk {E} (lo hi : Z) (c : gcall E) : Prop :=
  match c with
  | CAdd u v _ => lo <= u < hi /\ lo <= v < hi /\ u <> v
  | CErase u v | CHas u v | CFind u v => lo <= u < hi /\ lo <= v < hi
  | CDegree u | CNeighbours u => lo <= u < hi
  | CCount | CEdges => True
  end.

(* g holds the graph M on the nodes [lo, hi): its edge list lists M without repetition, and
   the set of each node has exactly the edges at this node, in increasing order of u ^ v *)
Definition represents {E} (dir : bool) (g : graph E) (lo hi : Z) (M : emap E) : Prop :=
  minId g = lo /\ lo + alen (adj g) = hi /\
  (dir = false -> forall u v, M u v = M v u) /\
  edgeList dir M (map (fun e => (Z.lxor (ekey e) (eto e), eto e, edat e)) (edges g)) /\
  (forall u v, isEdge M u v = true -> lo <= u < hi /\ lo <= v < hi /\ u <> v) /\
  (forall u, lo <= u < hi -> exists s, aget (adj g) (u - lo) = Ok s /\
    StronglySorted (fun i j => forall e f, nth_error (edges g) i = Some e -> nth_error (edges g) j = Some f -> ekey e < ekey f) s /\
    forall i, In i s <-> exists e, nth_error (edges g) i = Some e /\
      (Z.lxor (ekey e) (eto e) = u \/ (dir = false /\ eto e = u))).
