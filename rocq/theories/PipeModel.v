(* Model of the printing of graphs, /repo/src/graph_gen.h:42-83 and 602-612. *)
From Verif Require Import Base PassModel GenModel.

(* 42-83  operator<< of EdgeWrapper: from, to and, unless E is NoData, the data. The data is
   modelled for NoData (no number behind the edge) and Integer (one number): numbers is
   noData or intData. *)
Definition noData {E} (_ : E) : list Z := [].
Definition intData (w : Z) : list Z := [w].
Definition showEdge {E} (numbers : E -> list Z) (e : Z * Z * E) : list Z :=
  let '(from, to, d) := e in
  showInteger from ++ [32] ++ showInteger to ++ flat_map (fun w => [32] ++ showInteger w) (numbers d).
(* 602-612  operator<< of Graph: no newline after the last edge *)
Definition showGraph {E} (numbers : E -> list Z) (g : graph E) : list Z :=
  showInteger (nodeCount g) ++ [32] ++ showInteger (edgeCount g) ++
  flat_map (fun e => [10] ++ showEdge numbers e) (getEdges g).
