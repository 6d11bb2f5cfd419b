(* What the example generators print. *)
From Coq Require Import String.
From Verif Require Import Base InputSpec GraphSpec InitSpec ArgsSpec ArgsClient.
From Verif Require PassModel.
Open Scope Z_scope.

(* the argument of --n *)
Definition argumentN (args : list (list Z)) (n : Z) : Prop :=
  exists s ps, groupOf args (text "--n") (s :: ps) /\ integerArg s n.
(* n and a line with n distinct digits *)
Definition numbersText (xs : list Z) : list Z :=
  PassModel.showInteger (alen xs) ++ 10 :: joined 32 (map PassModel.showInteger xs) ++ [10].
Definition digits (n : Z) (xs : list Z) : Prop := alen xs = n /\ NoDup xs /\ Forall (fun x => 0 <= x < 10) xs.

(* two cubes and a triangle, three corners of each cube joined to the triangle: 19 nodes *)
Definition cubeEdges (o : Z) : list (Z * Z) :=
  map (fun e => (o + fst e, o + snd e)) [(0, 1); (2, 3); (4, 5); (6, 7); (0, 2); (1, 3); (4, 6); (5, 7); (0, 4); (1, 5); (2, 6); (3, 7)].
Definition blueprint : list (Z * Z) :=
  cubeEdges 0 ++ cubeEdges 8 ++ [(16, 17); (17, 18); (18, 16); (16, 0); (17, 1); (18, 2); (16, 8); (17, 9); (18, 10)].
(* an edge between a and b, in whatever direction *)
Definition adjacent (es : list (Z * Z)) (a b : Z) : Prop := In (a, b) es \/ In (b, a) es.
(* the lines "n m" and "a b" *)
Definition graphText (n : Z) (es : list (Z * Z)) : list Z :=
  joined 10 (map (fun e => PassModel.showInteger (fst e) ++ 32 :: PassModel.showInteger (snd e)) ((n, alen es) :: es)) ++ [10].
(* es is the blueprint with renamed nodes and directed edges, without directed cycles *)
Definition dagOf (lo : Z) (plan es : list (Z * Z)) (n : Z) : Prop :=
  alen es = alen plan /\ edgesIn lo (lo + n) es /\
  (exists pi : Z -> Z, (forall u, node 0 n u -> node lo (lo + n) (pi u)) /\ (forall u v, node 0 n u -> node 0 n v -> pi u = pi v -> u = v) /\
     forall u v, node 0 n u -> node 0 n v -> (adjacent es (pi u) (pi v) <-> adjacent plan u v)) /\
  exists rank : Z -> Z, forall a b, In (a, b) es -> rank a < rank b.
