(* Model of GraphType::transitiveClosure, /repo/src/graph_gen.h:527-529. It is declared to return a reference, which a call
   of power cannot be bound to, so a program that uses it does not compile; this is the graph it would return. *)
From Verif Require Import Base GenModel GenOpsModel.
Definition transitiveClosure {E} (dflt : E) (dir : bool) (g : graph E) : outcome (graph E) := power dflt dir g (nodeCount g).
