(* Vocabulary for the generated graphs. *)
From Verif Require Import Base GenModel GenSpec.

(* the graph with the given adjacency, all edges with the same data *)
Definition edgesBy {E} (d : E) (P : Z -> Z -> bool) : emap E := fun u v => if P u v then Some d else None.
(* a relation, or its symmetric closure when undirected *)
Definition sym (dir : bool) (P : Z -> Z -> bool) (u v : Z) : bool := P u v || negb dir && P v u.
Definition inside (lo hi x : Z) : bool := (lo <=? x) && (x <? hi).

(* c children everywhere, all leaves at depth h: the number of nodes, and the pairs of parent
   and child when the nodes are numbered in preorder *)
Fixpoint treeSize (c : Z) (h : nat) : Z := match h with O => 1 | S h' => 1 + c * treeSize c h' end.
Inductive treeEdge (c : Z) : nat -> Z -> Z -> Prop :=
| te_root : forall h k, 0 <= k < c -> treeEdge c (S h) 0 (1 + k * treeSize c h)
| te_sub : forall h k u v, 0 <= k < c -> treeEdge c h u v ->
    treeEdge c (S h) (1 + k * treeSize c h + u) (1 + k * treeSize c h + v).
