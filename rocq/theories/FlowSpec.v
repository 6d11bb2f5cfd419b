(* Flows in a network on the nodes [0, N) with capacities. *)
From Verif Require Import Base RndModel RandSpec GenSpec.

(* the sum of f over [lo, lo + n) *)
Definition total (lo : Z) (n : Z) (f : Z -> Z) : Z := zsum (map f (zseq lo (Z.to_nat n))).
Definition outflow (N : Z) (f : Z -> Z -> Z) (u : Z) : Z := total 0 N (fun v => f u v) - total 0 N (fun v => f v u).
Definition isFlow (N : Z) (cap : Z -> Z -> Z) (s t : Z) (f : Z -> Z -> Z) : Prop :=
  (forall u v, 0 <= u < N -> 0 <= v < N -> 0 <= f u v <= cap u v) /\
  (forall u, 0 <= u < N -> u <> s -> u <> t -> outflow N f u = 0).
(* F is the largest amount that can leave s *)
Definition maxFlow (N : Z) (cap : Z -> Z -> Z) (s t F : Z) : Prop :=
  (exists f, isFlow N cap s t f /\ outflow N f s = F) /\
  (forall f, isFlow N cap s t f -> outflow N f s <= F).
Definition flowCost (N : Z) (cost : Z -> Z -> Z) (f : Z -> Z -> Z) : Z :=
  total 0 N (fun u => total 0 N (fun v => f u v * cost u v)).
(* capacities and costs of a graph; missing edges have capacity 0 *)
Definition capOf (M : emap Z) (u v : Z) : Z := match M u v with Some c => c | None => 0 end.
Definition cap2Of (M : emap (Z * Z)) (u v : Z) : Z := match M u v with Some (c, _) => c | None => 0 end.
Definition cost2Of (M : emap (Z * Z)) (u v : Z) : Z := match M u v with Some (_, w) => w | None => 0 end.
