(* Model of /repo/src/graph_val.h: union-find, Graph, DiGraph. *)
From Verif Require Import Base RndModel RandSeqModel.

(* ---- graph_val.h:17-45  UnionFind; unions[x] < 0 marks a root ---- *)

(* graph_val.h:32-35  findSet with path compression; the recursion depth is bounded by fuel.
   Returns the root and the updated vector (mutable). *)
Fixpoint findSet (fuel : nat) (u : list Z) (x : Z) : outcome (Z * list Z) :=
  match fuel with
  | O => Fuel
  | S f =>
    let! p := aget u x in
    if p <? 0 then Ok (x, u)
    else
      let! (r, u) := findSet f u p in
      let! u := aset u x r in
      Ok (r, u)
  end.
(* a chain of parents visits no node twice (proved) *)
Definition find (u : list Z) (x : Z) : outcome (Z * list Z) := findSet (length u) u x.

(* graph_val.h:20-26  linkSets *)
Definition linkSets (u : list Z) (a b : Z) : outcome (list Z) :=
  let! x := aget u a in
  let! y := aget u b in
  if y <? x then aset u a b
  else if x <? y then aset u b a
  else
    let! u := aset u a b in
    let! v := aget u b in
    let! v := chk (v - 1) in
    aset u b v.

(* graph_val.h:29 *)
Definition ufInit (n : Z) : outcome (list Z) :=
  if n <? 0 then Throw else Ok (repeat (-1) (Z.to_nat n)).

(* graph_val.h:37-39  connected; the two calls are evaluated left to right *)
Definition ufConnected (u : list Z) (a b : Z) : outcome (bool * list Z) :=
  let! (x, u) := find u a in
  let! (y, u) := find u b in
  Ok (x =? y, u).

(* graph_val.h:41-45  unionSets *)
Definition unionSets (u : list Z) (a b : Z) : outcome (bool * list Z) :=
  let! (c, u) := ufConnected u a b in
  if c : bool then Ok (false, u)
  else
    let! (x, u) := find u a in
    let! (y, u) := find u b in
    let! u := linkSets u x y in
    Ok (true, u).

(* ---- graph_val.h:51-98  BaseGraph ---- *)

(* std::set<Integer>: sorted list without repetition *)
Definition smem (x : Z) (s : list Z) : bool := existsb (Z.eqb x) s.
Definition sinsert (x : Z) (s : list Z) : list Z := if smem x s then s else insert x s.

Record baseGraph := mkBase {
  offset : Z;
  edges : Z;
  adj : list (list Z);
  selfloop : option Z;
  multiedge : option (Z * Z)
}.
(* graph_val.h:61  vector(u-l): a negative size throws *)
Definition mkBaseGraph (l u : Z) : outcome baseGraph :=
  let! n := chk (u - l) in
  if n <? 0 then Throw else Ok (mkBase l 0 (repeat [] (Z.to_nat n)) None None).
(* graph_val.h:64-71  addEdge_ *)
Definition addEdge_ (g : baseGraph) (a b : Z) : outcome baseGraph :=
  let sl := if a =? b then Some a else selfloop g in
  let! i := chk (a - offset g) in
  let! s := aget (adj g) i in
  let me := if smem b s then Some (a, b) else multiedge g in
  let! ad := aset (adj g) i (sinsert b s) in
  let! e := chk (edges g + 1) in
  Ok (mkBase (offset g) e ad sl me).
(* graph_val.h:85-87, 90-92, 95-97 *)
Definition nodeCount (g : baseGraph) : Z := alen (adj g).
Definition edgeCount (g : baseGraph) : Z := edges g.
Definition hasEdge (g : baseGraph) (a b : Z) : outcome bool :=
  let! i := chk (a - offset g) in
  let! s := aget (adj g) i in
  Ok (smem b s).
(* graph_val.h:73-74 *)
Definition hasSelfloop (g : baseGraph) : option Z := selfloop g.
Definition hasMultiedge (g : baseGraph) : option (Z * Z) := multiedge g.
(* graph_val.h:76-78, 132-134  operator[] and degree (DiGraph: outDegree, 178-180) *)
Definition neighboursOf (g : baseGraph) (id : Z) : outcome (list Z) :=
  let! i := chk (id - offset g) in aget (adj g) i.
Definition degree (g : baseGraph) (id : Z) : outcome Z :=
  let! s := neighboursOf g id in Ok (alen s).

(* ---- graph_val.h:101-142  Graph ---- *)
Record graph := mkGraph {
  base : baseGraph;
  uf : list Z;
  buf : list Z;
  components : Z;
  forest : bool;
  bipartite : bool
}.
(* graph_val.h:107-108 *)
Definition newGraph (l r : Z) : outcome graph :=
  let! b := mkBaseGraph l r in
  let! n := chk (r - l) in
  let! u := ufInit n in
  let! n2 := chk (2 * n) in
  let! bu := ufInit n2 in
  Ok (mkGraph b u bu n true true).
(* graph_val.h:118-130  addEdge *)
Definition addEdge (g : graph) (a b : Z) : outcome graph :=
  let! bs := addEdge_ (base g) a b in
  let! b := chk (b - offset bs) in
  let! s := aget (adj bs) b in
  let! ad := aset (adj bs) b (sinsert a s) in
  let bs := mkBase (offset bs) (edges bs) ad (selfloop bs) (multiedge bs) in
  let! a := chk (a - offset bs) in
  let! (j, u) := unionSets (uf g) a b in
  let! c := if j : bool then chk (components g - 1) else Ok (components g) in
  let f := if j then forest g else false in
  let! a := chk (a * 2) in
  let! b := chk (b * 2) in
  let! (_, bu) := unionSets (buf g) a (Z.lxor b 1) in
  let! (_, bu) := unionSets bu (Z.lxor a 1) b in
  let! (con, bu) := ufConnected bu a (Z.lxor a 1) in
  Ok (mkGraph bs u bu c f (bipartite g && negb con)).
(* graph_val.h:136-140 *)
Definition isConnected (g : graph) : bool := components g <=? 1.
Definition isForest (g : graph) : bool := forest g.
Definition isTree (g : graph) : bool := (components g <=? 1) && forest g.
Definition isBipartite (g : graph) : bool := bipartite g.
(* graph_val.h:141  areConnected compresses paths *)
Definition areConnected (g : graph) (a b : Z) : outcome (bool * graph) :=
  let! a := chk (a - offset (base g)) in
  let! b := chk (b - offset (base g)) in
  let! (r, u) := ufConnected (uf g) a b in
  Ok (r, mkGraph (base g) u (buf g) (components g) (forest g) (bipartite g)).

(* ---- graph_val.h:144-216  DiGraph ---- *)
Record diGraph := mkDi {
  dbase : baseGraph;
  rev_ : list (list Z);
  duf : list Z;
  root : Z;
  rootCount : Z
}.
(* graph_val.h:149-150 *)
Definition newDiGraph (l r : Z) : outcome diGraph :=
  let! b := mkBaseGraph l r in
  let! n := chk (r - l) in
  let! u := ufInit n in
  Ok (mkDi b (repeat [] (Z.to_nat n)) u 0 n).
(* graph_val.h:160-168  addEdge; the last loop advances root to a node without in-edges *)
Fixpoint advanceRoot (fuel : nat) (rv : list (list Z)) (n root : Z) : outcome Z :=
  if root <? n then
    let! s := aget rv root in
    match s with
    | [] => Ok root
    | _ => match fuel with O => Fuel | S f => advanceRoot f rv n (root + 1) end
    end
  else Ok root.
Definition addArc (g : diGraph) (a b : Z) : outcome diGraph :=
  let! bs := addEdge_ (dbase g) a b in
  let! b := chk (b - offset bs) in
  let! s := aget (rev_ g) b in
  let! rc := match s with [] => chk (rootCount g - 1) | _ => Ok (rootCount g) end in
  let! rv := aset (rev_ g) b (sinsert a s) in
  let! a := chk (a - offset bs) in
  let! (j, u) := unionSets (duf g) a b in
  let root := if j : bool then root g else nodeCount bs in
  let! root := advanceRoot (length rv) rv (nodeCount bs) root in
  Ok (mkDi bs rv u root rc).
(* graph_val.h:182-184, 186-188 *)
Definition inDegree (g : diGraph) (id : Z) : outcome Z :=
  let! i := chk (id - offset (dbase g)) in
  let! s := aget (rev_ g) i in Ok (alen s).
Definition hasReverse (g : diGraph) (a b : Z) : outcome bool :=
  let! i := chk (a - offset (dbase g)) in
  let! s := aget (rev_ g) i in Ok (smem b s).
(* graph_val.h:211-214 *)
Definition diIsTree (g : diGraph) : option Z :=
  if (rootCount g =? 1) && (edgeCount (dbase g) + 1 =? nodeCount (dbase g))
  then Some (root g + offset (dbase g)) else None.

(* graph_val.h:200-204  one node: lower the counters of its out-neighbours; deg is size_t *)
Fixpoint relax (ys : list Z) (off : Z) (deg : list Z) (todo : list Z) : outcome (list Z * list Z) :=
  match ys with
  | [] => Ok (deg, todo)
  | y :: ys' =>
    let! y := chk (y - off) in
    let! d := aget deg y in
    let d := u64 (d - 1) in
    let! deg := aset deg y d in
    relax ys' off deg (if d =? 0 then y :: todo else todo)
  end.
(* graph_val.h:197-205; todo is a stack with its top first, order is built reversed. Every
   round removes one node from todo; the fuel of isDAG is justified for the reachable
   states (proved). *)
Fixpoint dagLoop (fuel : nat) (g : diGraph) (deg order todo : list Z) : outcome (list Z) :=
  match todo with
  | [] => Ok (rev order)
  | x :: todo' =>
    match fuel with
    | O => Fuel
    | S f =>
      let! ys := aget (adj (dbase g)) x in
      let! (deg, todo') := relax ys (offset (dbase g)) deg todo' in
      dagLoop f g deg (x :: order) todo'
    end
  end.
(* graph_val.h:190-209 *)
Definition isDAG (g : diGraph) : outcome (option (list Z)) :=
  let deg := map alen (adj (dbase g)) in
  let todo := rev (filter (fun i => nth (Z.to_nat i) deg 0 =? 0) (zseq 0 (length deg))) in
  let! order := dagLoop (length deg) g deg [] todo in
  Ok (if alen order =? alen deg then Some (map (fun x => x + offset (dbase g)) order) else None).

(* ---- client programs: sequences of calls on one object, with the answers they see ---- *)
Inductive ufCall := CallUnion (a b : Z) | CallConnected (a b : Z) | CallFind (a : Z).
Inductive answer := AnsBool (b : bool) | AnsNode (x : Z).
Fixpoint ufRun (u : list Z) (cs : list ufCall) : outcome (list answer) :=
  match cs with
  | [] => Ok []
  | CallUnion a b :: cs =>
    let! (j, u) := unionSets u a b in let! r := ufRun u cs in Ok (AnsBool j :: r)
  | CallConnected a b :: cs =>
    let! (c, u) := ufConnected u a b in let! r := ufRun u cs in Ok (AnsBool c :: r)
  | CallFind a :: cs =>
    let! (x, u) := find u a in let! r := ufRun u cs in Ok (AnsNode x :: r)
  end.

Inductive graphCall := CallEdge (a b : Z) | CallQuery (a b : Z).
Fixpoint graphRun (g : graph) (cs : list graphCall) : outcome (list bool * graph) :=
  match cs with
  | [] => Ok ([], g)
  | CallEdge a b :: cs => let! g := addEdge g a b in graphRun g cs
  | CallQuery a b :: cs =>
    let! (c, g) := areConnected g a b in
    let! (r, g) := graphRun g cs in Ok (c :: r, g)
  end.
Fixpoint arcsRun (g : diGraph) (es : list (Z * Z)) : outcome diGraph :=
  match es with
  | [] => Ok g
  | (a, b) :: es => let! g := addArc g a b in arcsRun g es
  end.
