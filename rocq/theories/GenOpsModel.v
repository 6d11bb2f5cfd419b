(* Model of the graph operations of /repo/src/graph_gen.h:203-237, 361-602 on the edge store
   of GenModel. Loops over index ranges are written over lists. *)
From Verif Require Import Base RndModel RandSeqModel SeqModel GenModel.

Section Ops.
  Variable E : Type.
  Variable dflt : E.   (* the default argument {} of data *)
  Variable dir : bool. (* the template parameter DIR *)

  Definition mapEdges (h : edge E -> edge E) (g : graph E) : graph E :=
    mkGraph (adj g) (map h (edges g)) (minId g).

  (* 203-216  setMinId *)
  Definition shiftEdge (m n : Z) (e : edge E) : edge E :=
    let from := efrom e - m + n in
    let to := eto e - m + n in
    mkEdge (Z.lxor from to) to (edat e).
  Definition setMinId (g : graph E) (n : Z) : outcome (graph E) :=
    let g := mapEdges (shiftEdge (minId g) n) (clearAdj g) in
    buildAdj dir (mkGraph (adj g) (edges g) n).
  (* 222-224  normalize *)
  Definition normalize (g : graph E) : outcome (graph E) := setMinId g 0.

  (* addEdge for a list of edges *)
  Fixpoint addEdges (g : graph E) (l : list (Z * Z * E)) : outcome (graph E) :=
    match l with
    | [] => Ok g
    | (u, v, d) :: l' => let! g := addEdge dir g u v d in addEdges g l'
    end.
  (* emplaceEdge for a list of edges *)
  Definition emplaceEdges (g : graph E) (l : list (Z * Z * E)) : graph E :=
    fold_left (fun g p => emplaceEdge g (fst (fst p)) (snd (fst p)) (snd p)) l g.

  (* 226-237  range *)
  Definition range (g : graph E) (from to : Z) : outcome (graph E) :=
    let! _ := judgeAssert (from <=? to) in
    let! res := newGraph from to in
    let lo := Z.max 0 (from - minId g) in
    let hi := Z.min (nodeCount g) (to - minId g) in
    addEdges res (filter (fun e => let '(u, v, _) := e in
      (lo <=? u) && (u <? hi) && (lo <=? v) && (v <? hi)) (getEdges g)).

  (* 361-375  combine with another object: the loops prepend and append empty sets *)
  Definition combine (g o : graph E) : outcome (graph E) :=
    let front := Z.to_nat (minId g - minId o) in
    let g := mkGraph (repeat [] front ++ adj g) (edges g) (Z.min (minId g) (minId o)) in
    let back := Z.to_nat (minId o + nodeCount o - (minId g + nodeCount g)) in
    let g := mkGraph (adj g ++ repeat [] back) (edges g) (minId g) in
    addEdges g (getEdges o).
  (* 377-387  append *)
  Definition append (g o : graph E) : outcome (graph E) :=
    let diff := nodeCount g + minId g - minId o in
    let g := mkGraph (adj g ++ repeat [] (length (adj o))) (edges g) (minId g) in
    addEdges g (map (fun e => let '(u, v, d) := e in (u + diff, v + diff, d)) (getEdges o)).

  (* Random::bit (validate.h:1346-1348), unbiased by C49 *)
  Definition rbit : rnd bool := let? x := rint 0 2 in ret (x =? 1).
  (* e.to ^= e.fromXorTo *)
  Definition flipEdge (e : edge E) : edge E := mkEdge (ekey e) (efrom e) (edat e).
  (* 392-398, 407-411  the direction of undirected edges is redrawn; h is done behind it *)
  Fixpoint flipAll (h : edge E -> outcome (edge E)) (l : list (edge E)) : rnd (list (edge E)) :=
    match l with
    | [] => ret []
    | e :: l' =>
      let? b := if dir then ret false else rbit in
      let? e := lift (h (if b then flipEdge e else e)) in
      let? r := flipAll h l' in
      ret (e :: r)
    end.
  (* 389-401  permutateEdges *)
  Definition permutateEdges (g : graph E) : rnd (graph E) :=
    let? es := shuffle (edges g) in
    let? es := flipAll (fun e => Ok e) es in
    lift (buildAdj dir (mkGraph (adj (clearAdj g)) es (minId g))).
  (* 412-415  relabel one edge *)
  Definition relabel (perm : list Z) (m : Z) (e : edge E) : outcome (edge E) :=
    let! from := aget perm (efrom e - m) in
    let! to := aget perm (eto e - m) in
    Ok (mkEdge (Z.lxor from to) to (edat e)).
  (* 403-420  permutate *)
  Definition permutateWith (g : graph E) (perm : list Z) : rnd (graph E) :=
    let? b := lift (isPerm perm (minId g)) in
    let? _ := lift (judgeAssert (fst b)) in
    let? es := shuffle (edges g) in
    let? es := flipAll (relabel perm (minId g)) es in
    lift (buildAdj dir (mkGraph (adj (clearAdj g)) es (minId g))).
  (* 422-427 *)
  Definition permutate (g : graph E) : rnd (graph E) :=
    let? perm := shuffle (zseq (minId g) (length (adj g))) in
    permutateWith g perm.

  (* 429-436  subgraph *)
  Fixpoint pick {A} (l : list A) (ids : list Z) : outcome (list A) :=
    match ids with
    | [] => Ok []
    | i :: ids' =>
      let! x := aget l i in
      let! r := pick l ids' in
      Ok (x :: r)
    end.
  Definition subgraph (g : graph E) (m : Z) : rnd (graph E) :=
    if edgeCount g <=? m then lift (copy dir g)
    else
      let? ids := distinct m 0 (edgeCount g) in
      let? es := lift (pick (edges g) ids) in
      lift (buildAdj dir (mkGraph (adj (clearAdj g)) es (minId g))).

  (* 438-446  reverse, directed graphs only *)
  Definition reverse (g : graph E) : outcome (graph E) := buildAdj true (mapEdges flipEdge (clearAdj g)).

  (* 481-497  complement *)
  Fixpoint hasNot (g : graph E) (l : list (Z * Z)) : outcome (list (Z * Z * E)) :=
    match l with
    | [] => Ok []
    | (u, v) :: l' =>
      let! b := hasEdge g u v in
      let! r := hasNot g l' in
      Ok (if b then r else (u, v, dflt) :: r)
    end.
  (* the pairs tested, in order *)
  Definition complementPairs (m : Z) (n : nat) : list (Z * Z) :=
    flat_map (fun i => flat_map (fun j =>
      (i + m, j + m) :: (if dir then [(j + m, i + m)] else [])) (zseq 0 (Z.to_nat i))) (zseq 0 n).
  Definition complement (g : graph E) : outcome (graph E) :=
    let! res := newGraph (minId g) (minId g + nodeCount g) in
    let! l := hasNot g (complementPairs (minId g) (length (adj g))) in
    buildAdj dir (emplaceEdges res l).

  (* 530-544  product, undirected graphs only; node (a, b) has the number b * n + a *)
  Definition newId (g o : graph E) (a b : Z) : Z := (b - minId o) * nodeCount g + (a - minId g).
  Definition product (g o : graph E) : outcome (graph E) :=
    let! res := newGraph 0 (nodeCount g * nodeCount o) in
    buildAdj dir (emplaceEdges res
      (flat_map (fun e1 => let '(a, b, _) := e1 in
        flat_map (fun e2 => let '(c, d, _) := e2 in
          [(newId g o a c, newId g o b d, dflt); (newId g o a d, newId g o b c, dflt)])
        (getEdges o)) (getEdges g))).
  (* 546-567  cartesian *)
  Definition cartesian (g o : graph E) : outcome (graph E) :=
    let! res := newGraph 0 (nodeCount g * nodeCount o) in
    buildAdj dir (emplaceEdges res
      (flat_map (fun e => let '(u, v, _) := e in
         map (fun i => (newId g o (i + minId g) u, newId g o (i + minId g) v, dflt)) (zseq 0 (length (adj g)))) (getEdges o) ++
       flat_map (fun e => let '(u, v, _) := e in
         map (fun i => (newId g o u (i + minId o), newId g o v (i + minId o), dflt)) (zseq 0 (length (adj o)))) (getEdges g))).
  (* 569-572  strongProduct *)
  Definition strongProduct (g o : graph E) : outcome (graph E) :=
    let! c := cartesian o g in
    let! p := product o g in
    combine c p.

  (* 500-524  power: breadth first search; the queue holds (node index, distance) *)
  Fixpoint visit (m d : Z) (l : list (Z * E)) (seen : list bool) (queue : list (Z * Z)) : outcome (list bool * list (Z * Z)) :=
    match l with
    | [] => Ok (seen, queue)
    | (v, _) :: l' =>
      let! b := aget seen (v - m) in
      if b then visit m d l' seen queue
      else
        let! seen := aset seen (v - m) true in
        visit m d l' seen (queue ++ [(v - m, d + 1)])
    end.
  (* j-th round of the loop over the growing queue *)
  Definition bfsStep (g : graph E) (k : Z) (j : nat) (seen : list bool) (queue : list (Z * Z)) : outcome (list bool * list (Z * Z)) :=
    match nth_error queue j with
    | None => UB
    | Some (c, d) =>
      if d <? k then
        let! l := neighbours g (c + minId g) in
        visit (minId g) d l seen queue
      else Ok (seen, queue)
    end.
  Fixpoint bfs (fuel : nat) (g : graph E) (k : Z) (j : nat) (seen : list bool) (queue : list (Z * Z)) : outcome (list bool * list (Z * Z)) :=
    if (j <? length queue)%nat then
      match fuel with
      | O => Fuel
      | S f =>
        let! (seen, queue) := bfsStep g k j seen queue in
        bfs f g k (S j) seen queue
      end
    else Ok (seen, queue).
  Fixpoint unsee (seen : list bool) (queue : list (Z * Z)) : outcome (list bool) :=
    match queue with
    | [] => Ok seen
    | (c, _) :: q => let! seen := aset seen c false in unsee seen q
    end.
  Fixpoint powerLoop (g : graph E) (k : Z) (is : list Z) (seen : list bool) : outcome (list (Z * Z * E)) :=
    match is with
    | [] => Ok []
    | i :: is' =>
      let! (seen, queue) := bfs (length (adj g) + 2) g k 0 seen [(i, 0)] in
      let! seen := unsee seen queue in
      let! r := powerLoop g k is' seen in
      Ok (map (fun p => (i + minId g, fst p + minId g, dflt)) (filter (fun p => negb (i =? fst p)) queue) ++ r)
    end.
  Definition power (g : graph E) (k : Z) : outcome (graph E) :=
    let! res := newGraph (minId g) (minId g + nodeCount g) in
    let! l := powerLoop g k (zseq 0 (length (adj g))) (repeat false (length (adj g))) in
    buildAdj dir (emplaceEdges res l).
End Ops.
Arguments mapEdges {E}. Arguments shiftEdge {E}. Arguments setMinId {E}. Arguments normalize {E}.
Arguments addEdges {E}. Arguments emplaceEdges {E}. Arguments range {E}. Arguments combine {E}.
Arguments append {E}. Arguments flipEdge {E}. Arguments flipAll {E}. Arguments permutateEdges {E}.
Arguments relabel {E}. Arguments permutateWith {E}. Arguments permutate {E}. Arguments subgraph {E}.
Arguments reverse {E}. Arguments hasNot {E}. Arguments complement {E}. Arguments newId {E}.
Arguments product {E}. Arguments cartesian {E}. Arguments strongProduct {E}. Arguments visit {E}.
Arguments bfsStep {E}. Arguments bfs {E}. Arguments powerLoop {E}. Arguments power {E}.

(* 448-455  undirected, of a directed graph *)
Definition undirected {E} (g : graph E) : outcome (graph E) :=
  let! res := newGraph (minId g) (minId g + nodeCount g) in
  addEdges false res (getEdges g).
(* 457-474  directed(pred), of an undirected graph; the predicate sees the data *)
Definition directed {E} (p : Z -> Z -> E -> bool) (g : graph E) : outcome (graph E) :=
  let! res := newGraph (minId g) (minId g + nodeCount g) in
  buildAdj true (emplaceEdges res
    (flat_map (fun e => let '(u, v, d) := e in
      (if p u v d then [(u, v, d)] else []) ++ (if p v u d then [(v, u, d)] else [])) (getEdges g))).

(* 574-602  lineGraph, for graphs with Integer data; tmp carries the index of each edge *)
Fixpoint number (l : list (Z * Z * Z)) (i : Z) : list (Z * Z * Z) :=
  match l with [] => [] | (u, v, _) :: l' => (u, v, i) :: number l' (i + 1) end.
Fixpoint lineLoop (dir : bool) (tmp : graph Z) (l : list (Z * Z * Z)) : outcome (list (Z * Z * Z)) :=
  match l with
  | [] => Ok []
  | (u, v, i) :: l' =>
    let! a := neighbours tmp v in
    let! b := if dir then Ok [] else neighbours tmp u in
    let! r := lineLoop dir tmp l' in
    if dir then Ok (map (fun p => (i, snd p, 0)) a ++ r)
    else Ok (map (fun p => (i, snd p, 0)) (filter (fun p => i <? snd p) (a ++ b)) ++ r)
  end.
Definition lineGraph (dir : bool) (g : graph Z) : outcome (graph Z) :=
  let! tmp := newGraph (minId g) (minId g + nodeCount g) in
  let! tmp := buildAdj dir (emplaceEdges tmp (number (getEdges g) 0)) in
  let! res := newGraph 0 (edgeCount g) in
  let! l := lineLoop dir tmp (getEdges tmp) in
  buildAdj dir (emplaceEdges res l).
