(* Specification vocabulary for graphs given as lists of edges. *)
From Verif Require Import Base.

(* connected by a path of edges used in any direction *)
Inductive conn (E : list (Z * Z)) : Z -> Z -> Prop :=
| conn_refl : forall x, conn E x x
| conn_edge : forall a b, In (a, b) E -> conn E a b
| conn_sym : forall x y, conn E x y -> conn E y x
| conn_trans : forall x y z, conn E x y -> conn E y z -> conn E x z.

(* connected by a path of edges used forwards *)
Inductive reaches (E : list (Z * Z)) : Z -> Z -> Prop :=
| reaches_refl : forall x, reaches E x x
| reaches_step : forall x a b, reaches E x a -> In (a, b) E -> reaches E x b.

Definition node (lo hi x : Z) : Prop := lo <= x < hi.
Definition edgesIn (lo hi : Z) (E : list (Z * Z)) : Prop :=
  Forall (fun e => node lo hi (fst e) /\ node lo hi (snd e)) E.
Definition connectedGraph (lo hi : Z) (E : list (Z * Z)) : Prop :=
  forall x y, node lo hi x -> node lo hi y -> conn E x y.
(* no edge closes a cycle: without it its ends are not connected *)
Definition acyclic (E : list (Z * Z)) : Prop :=
  forall E1 a b E2, E = E1 ++ (a, b) :: E2 -> ~ conn (E1 ++ E2) a b.
Definition twoColourable (E : list (Z * Z)) : Prop :=
  exists c : Z -> bool, forall a b, In (a, b) E -> c a <> c b.
(* same edge up to direction *)
Definition sameEdge (e f : Z * Z) : Prop := e = f \/ e = (snd f, fst f).
(* every node is reached from r, r has no in-edge, all other nodes have exactly one *)
Definition arborescence (lo hi : Z) (E : list (Z * Z)) (r : Z) : Prop :=
  node lo hi r /\ (forall x, node lo hi x -> reaches E r x) /\
  (forall x, node lo hi x -> length (filter (fun e => snd e =? x) E) = if x =? r then 0%nat else 1%nat).
(* two positions of E hold related edges *)
Definition repeated (R : Z * Z -> Z * Z -> Prop) (E : list (Z * Z)) (f : Z * Z) : Prop :=
  exists i j e, (i < j)%nat /\ nth_error E i = Some e /\ nth_error E j = Some f /\ R e f.
(* n is the number of values satisfying P *)
Definition cardinality (P : Z -> Prop) (n : Z) : Prop :=
  exists l, NoDup l /\ (forall x, In x l <-> P x) /\ Z.of_nat (length l) = n.
