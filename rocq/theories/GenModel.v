(* Model of the edge store of /repo/src/graph_gen.h:84-614 (GraphType<E, DIR>).
   Pointers into the deque `edges` are indices: push_back and pop_back of a deque keep them
   valid. A std::set of pointers is the list of its elements in increasing order; searching
   it is linear here. Node numbers are mathematical integers: the only arithmetic on them is
   shifting by minId, and ^ is the bitwise exclusive or of two's complement numbers. *)
From Verif Require Import Base RndModel RandSeqModel SeqModel.

Section Store.
  Variable E : Type.

  (* 84-96  EdgeType: fromXorTo, to, data *)
  Record edge : Type := mkEdge { ekey : Z; eto : Z; edat : E }.
  Definition efrom (e : edge) : Z := Z.lxor (ekey e) (eto e).
  (* 116-128 *)
  Record graph : Type := mkGraph { adj : list (list nat); edges : list edge; minId : Z }.

  (* dereference of a pointer into edges *)
  Definition deref (es : list edge) (i : nat) : outcome edge :=
    match nth_error es i with Some e => Ok e | None => UB end.
  (* 99-111  std::set<InternalEdge*, EdgePointerCompair>: find, emplace, erase by key *)
  Fixpoint setFind (es : list edge) (k : Z) (s : list nat) : outcome (option nat) :=
    match s with
    | [] => Ok None
    | i :: s' =>
      let! e := deref es i in
      if ekey e =? k then Ok (Some i) else setFind es k s'
    end.
  (* the set with i, and the element found at its place *)
  Fixpoint setEmplace (es : list edge) (k : Z) (i : nat) (s : list nat) : outcome (list nat * nat) :=
    match s with
    | [] => Ok ([i], i)
    | j :: s' =>
      let! e := deref es j in
      if k =? ekey e then Ok (s, j)
      else if k <? ekey e then Ok (i :: s, i)
      else let! (r, x) := setEmplace es k i s' in Ok (j :: r, x)
    end.
  Fixpoint setErase (es : list edge) (k : Z) (s : list nat) : outcome (list nat) :=
    match s with
    | [] => Ok []
    | j :: s' =>
      let! e := deref es j in
      if ekey e =? k then Ok s'
      else let! r := setErase es k s' in Ok (j :: r)
    end.

  (* 181-187 *)
  Definition nodeCount (g : graph) : Z := alen (adj g).
  Definition edgeCount (g : graph) : Z := alen (edges g).
  (* 129-133 *)
  Definition assertNode (g : graph) (id : Z) : outcome unit :=
    judgeAssert (negb ((id <? minId g) || (minId g + nodeCount g <=? id))).

  (* 135-140  addEdge of a pointer: the element of adj[from] *)
  Definition addInternal (dir : bool) (g : graph) (i : nat) : outcome (graph * nat) :=
    let! e := deref (edges g) i in
    let from := efrom e in
    let to := eto e in
    let! a :=
      if negb dir && negb (from =? to) then
        let! s := aget (adj g) (to - minId g) in
        let! (s, _) := setEmplace (edges g) (ekey e) i s in
        aset (adj g) (to - minId g) s
      else Ok (adj g) in
    let! s := aget a (from - minId g) in
    let! (s, it) := setEmplace (edges g) (ekey e) i s in
    let! a := aset a (from - minId g) s in
    Ok (mkGraph a (edges g) (minId g), it).
  (* 142-144  emplaceEdge *)
  Definition emplaceEdge (g : graph) (from to : Z) (d : E) : graph :=
    mkGraph (adj g) (edges g ++ [mkEdge (Z.lxor from to) to d]) (minId g).
  (* 146-148 *)
  Fixpoint buildFrom (dir : bool) (g : graph) (i n : nat) : outcome graph :=
    match n with
    | O => Ok g
    | S n' => let! (g, _) := addInternal dir g i in buildFrom dir g (S i) n'
    end.
  Definition buildAdj (dir : bool) (g : graph) : outcome graph := buildFrom dir g 0 (length (edges g)).

  (* 151-158; to - from < 0 would first fail to allocate, which throws as well *)
  Definition newGraph (from to : Z) : outcome graph :=
    let! _ := judgeAssert (from <=? to) in
    Ok (mkGraph (repeat [] (Z.to_nat (to - from))) [] from).
  (* for (auto& n : adj) n.clear() *)
  Definition clearAdj (g : graph) : graph := mkGraph (map (fun _ => []) (adj g)) (edges g) (minId g).
  (* 161-166, 168-176  copy *)
  Definition copy (dir : bool) (g : graph) : outcome graph := buildAdj dir (clearAdj g).

  (* 189-192 *)
  Definition degree (g : graph) (id : Z) : outcome Z :=
    let! _ := assertNode g id in
    let! s := aget (adj g) (id - minId g) in
    Ok (alen s).

  (* 240-260  findEdge: the data of the edge *)
  Definition lookupKey (g : graph) (from to : Z) : outcome (option nat) :=
    let! s := aget (adj g) (from - minId g) in
    setFind (edges g) (Z.lxor from to) s.
  Definition findEdge (g : graph) (from to : Z) : outcome (option E) :=
    let! _ := assertNode g from in
    let! _ := assertNode g to in
    let! it := lookupKey g from to in
    match it with
    | Some i => let! e := deref (edges g) i in Ok (Some (edat e))
    | None => Ok None
    end.
  (* 263-275  getEdgeById *)
  Definition getEdgeById (g : graph) (id : nat) : outcome (Z * Z * E) :=
    match nth_error (edges g) id with
    | None => Throw
    | Some e => Ok (efrom e, eto e, edat e)
    end.
  (* 277-281 *)
  Definition hasEdge (g : graph) (from to : Z) : outcome bool :=
    let! _ := assertNode g from in
    let! _ := assertNode g to in
    let! it := lookupKey g from to in
    Ok (match it with Some _ => true | None => false end).

  (* 283-295  addEdge *)
  Definition addEdge (dir : bool) (g : graph) (from to : Z) (d : E) : outcome graph :=
    let! _ := assertNode g from in
    let! _ := assertNode g to in
    let! _ := judgeAssert (negb (from =? to)) in
    let! it := lookupKey g from to in
    match it with
    | None =>
      let g := emplaceEdge g from to d in
      let! (g, it) := addInternal dir g (length (edges g) - 1) in
      Ok g
    | Some i =>
      let! e := deref (edges g) i in
      Ok (mkGraph (adj g) (upd (edges g) i (mkEdge (ekey e) (eto e) d)) (minId g))
    end.

  (* adj[v - minId].erase(i) *)
  Definition eraseAt (g : graph) (v : Z) (k : Z) : outcome graph :=
    let! s := aget (adj g) (v - minId g) in
    let! s := setErase (edges g) k s in
    let! a := aset (adj g) (v - minId g) s in
    Ok (mkGraph a (edges g) (minId g)).
  (* 297-318  eraseEdge *)
  Definition eraseEdge (dir : bool) (g : graph) (from to : Z) : outcome (graph * bool) :=
    let! _ := assertNode g from in
    let! _ := assertNode g to in
    let! it := lookupKey g from to in
    match it with
    | None => Ok (g, false)
    | Some a =>
      let b := (length (edges g) - 1)%nat in
      let! ea := deref (edges g) a in
      let! g := eraseAt g from (ekey ea) in
      let! g := if dir then Ok g else eraseAt g to (ekey ea) in
      let! eb := deref (edges g) b in
      let from := efrom eb in
      let to := eto eb in
      let! g := eraseAt g from (ekey eb) in
      let! g := if dir then Ok g else eraseAt g to (ekey eb) in
      let g := mkGraph (adj g) (firstn b (upd (upd (edges g) a eb) b ea)) (minId g) in
      if (a =? b)%nat then Ok (g, true)
      else let! (g, _) := addInternal dir g a in Ok (g, true)
    end.

  (* 324-335  getEdges *)
  Definition getEdges (g : graph) : list (Z * Z * E) := map (fun e => (efrom e, eto e, edat e)) (edges g).
  (* 337-351  operator[]: (neighbour, data) in set order *)
  Fixpoint view (es : list edge) (id : Z) (s : list nat) : outcome (list (Z * E)) :=
    match s with
    | [] => Ok []
    | i :: s' =>
      let! e := deref es i in
      let! r := view es id s' in
      Ok ((Z.lxor (ekey e) id, edat e) :: r)
    end.
  Definition neighbours (g : graph) (id : Z) : outcome (list (Z * E)) :=
    let! _ := assertNode g id in
    let! s := aget (adj g) (id - minId g) in
    view (edges g) id s.
  (* 353-358 *)
  Definition getDegrees (g : graph) : list Z := map alen (adj g).
End Store.
Arguments mkEdge {E}. Arguments ekey {E}. Arguments eto {E}. Arguments edat {E}. Arguments efrom {E}.
Arguments mkGraph {E}. Arguments adj {E}. Arguments edges {E}. Arguments minId {E}.
Arguments deref {E}. Arguments setFind {E}. Arguments setEmplace {E}. Arguments setErase {E}.
Arguments nodeCount {E}. Arguments edgeCount {E}. Arguments assertNode {E}. Arguments addInternal {E}.
Arguments emplaceEdge {E}. Arguments buildFrom {E}. Arguments buildAdj {E}. Arguments newGraph {E}.
Arguments clearAdj {E}. Arguments copy {E}. Arguments degree {E}. Arguments lookupKey {E}.
Arguments findEdge {E}. Arguments getEdgeById {E}. Arguments hasEdge {E}. Arguments addEdge {E}.
Arguments eraseAt {E}. Arguments eraseEdge {E}. Arguments getEdges {E}. Arguments view {E}.
Arguments neighbours {E}. Arguments getDegrees {E}.

(* a client: calls on one graph and their answers *)
Inductive gcall (E : Type) : Type :=
| CAdd (u v : Z) (d : E)
| CErase (u v : Z)
| CHas (u v : Z)
| CFind (u v : Z)
| CDegree (u : Z)
| CNeighbours (u : Z)
| CCount
| CEdges.
Arguments CAdd {E}. Arguments CErase {E}. Arguments CHas {E}. Arguments CFind {E}.
Arguments CDegree {E}. Arguments CNeighbours {E}. Arguments CCount {E}. Arguments CEdges {E}.
Inductive ganswer (E : Type) : Type :=
| AUnit
| ABool (b : bool)
| AData (d : option E)
| AInt (n : Z)
| ANeighbours (l : list (Z * E))
| AEdges (l : list (Z * Z * E)).
Arguments AUnit {E}. Arguments ABool {E}. Arguments AData {E}. Arguments AInt {E}.
Arguments ANeighbours {E}. Arguments AEdges {E}.
Definition gstep {E} (dir : bool) (g : graph E) (c : gcall E) : outcome (graph E * ganswer E) :=
  match c with
  | CAdd u v d => let! g := addEdge dir g u v d in Ok (g, AUnit)
  | CErase u v => let! (g, b) := eraseEdge dir g u v in Ok (g, ABool b)
  | CHas u v => let! b := hasEdge g u v in Ok (g, ABool b)
  | CFind u v => let! d := findEdge g u v in Ok (g, AData d)
  | CDegree u => let! n := degree g u in Ok (g, AInt n)
  | CNeighbours u => let! l := neighbours g u in Ok (g, ANeighbours l)
  | CCount => Ok (g, AInt (edgeCount g))
  | CEdges => Ok (g, AEdges (getEdges g))
  end.
Fixpoint grun {E} (dir : bool) (g : graph E) (cs : list (gcall E)) : outcome (graph E * list (ganswer E)) :=
  match cs with
  | [] => Ok (g, [])
  | c :: cs' =>
    let! (g, a) := gstep dir g c in
    let! (g, r) := grun dir g cs' in
    Ok (g, a :: r)
  end.
