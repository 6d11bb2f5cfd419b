(* Model of randomGraph for a degree sequence (/repo/src/graph_gen.h:902-942). The priority queue
   is the list of its elements in the order in which they are popped; degrees, node numbers and
   the loop counter are mathematical integers, the bound averageFlips*nodeCount is checked. *)
From Verif Require Import Base RndModel GenModel.

(* a < b for std::pair<Integer, Integer> *)
Definition pairLess (a b : Z * Z) : bool := (fst a <? fst b) || (fst a =? fst b) && (snd a <? snd b).
(* std::priority_queue::push: the largest element is the first *)
Fixpoint pqPush (e : Z * Z) (q : list (Z * Z)) : list (Z * Z) :=
  match q with
  | [] => [e]
  | x :: q' => if pairLess e x then x :: pqPush e q' else e :: q
  end.
(* 928  for (e : todo) pq.push(e) *)
Definition pqPushAll (todo q : list (Z * Z)) : list (Z * Z) := fold_left (fun q e => pqPush e q) todo q.

(* 908-913: (degree[i], i) for the positive degrees, i counts from the given number *)
Fixpoint pqInit (i : Z) (degree : list Z) (q : list (Z * Z)) : list (Z * Z) :=
  match degree with
  | [] => q
  | d :: r => pqInit (i + 1) r (if 0 <? d then pqPush (d, i) q else q)
  end.

Section Deg.
  Variable E : Type.
  Variable dflt : E. (* the default argument {} of data *)

  (* 920-927: the k largest of q become neighbours of c; pq.top() on an empty queue is undefined *)
  Fixpoint connect (g : graph E) (c : Z) (k : nat) (q todo : list (Z * Z)) : outcome (graph E * list (Z * Z) * list (Z * Z)) :=
    match k with
    | O => Ok (g, q, todo)
    | S k' =>
      match q with
      | [] => UB
      | (dd, cc) :: q' =>
        let! g := addEdge false g c cc dflt in
        connect g c k' q' (if 0 <? dd - 1 then todo ++ [(dd - 1, cc)] else todo)
      end
    end.
  (* 914-929 *)
  Fixpoint havelHakimi (fuel : nat) (g : graph E) (q : list (Z * Z)) : outcome (graph E) :=
    match fuel with
    | O => Fuel
    | S fuel' =>
      match q with
      | [] => Ok g
      | (d, c) :: q' =>
        if (alen q' <? d) || (d <? 0) then Throw
        else
          let! (g, q', todo) := connect g c (Z.to_nat d) q' [] in
          havelHakimi fuel' g (pqPushAll todo q')
      end
    end.
  (* 932-939: one flip for the edges with numbers i and j *)
  Definition flip (g : graph E) (i j : Z) : outcome (graph E) :=
    let! (af, at_, _) := getEdgeById g (Z.to_nat i) in
    let! (bf, bt, _) := getEdgeById g (Z.to_nat j) in
    let! skip := (if af =? bt then Ok true else hasEdge g af bt) in
    if skip then Ok g else
    let! skip := (if bf =? at_ then Ok true else hasEdge g bf at_) in
    if skip then Ok g else
    let! (g, _) := eraseEdge false g af at_ in
    let! (g, _) := eraseEdge false g bf bt in
    let! g := addEdge false g af bt dflt in
    addEdge false g bf at_ dflt.
  (* 931-940 *)
  Fixpoint flips (n : nat) (g : graph E) : rnd (graph E) :=
    match n with
    | O => ret g
    | S n' =>
      let? i := rint 0 (edgeCount g) in
      let? j := rint 0 (edgeCount g) in
      let? g := lift (flip g i j) in
      flips n' g
    end.
  (* 905-942; the queue loses an element in every round *)
  Definition randomGraphDeg (degree : list Z) (averageFlips : Z) : rnd (graph E) :=
    let? res := lift (newGraph 0 (alen degree)) in
    let q := pqInit 0 degree [] in
    let? res := lift (havelHakimi (S (length q)) res q) in
    let? bound := lift (chk (averageFlips * nodeCount res)) in
    flips (Z.to_nat bound) res.
End Deg.
Arguments connect {E}. Arguments havelHakimi {E}. Arguments flip {E}. Arguments flips {E}. Arguments randomGraphDeg {E}.
