(* Vocabulary for labelled trees. *)
From Verif Require Import Base RndModel GenModel GenSpec GraphSpec GenRandSpec.

(* u and v are joined *)
Definition joined (E : list (Z * Z)) (u v : Z) : Prop := In (u, v) E \/ In (v, u) E.
(* the pairs of [0, n) that P joins *)
Definition pairsOf (n : Z) (P : Z -> Z -> bool) : list (Z * Z) :=
  filter (fun p => P (fst p) (snd p)) (allPairs false n).
(* P is a tree on [0, n) *)
Definition isTree (n : Z) (P : Z -> Z -> bool) : Prop :=
  connectedGraph 0 n (pairsOf n P) /\ alen (pairsOf n P) = n - 1.
(* how often v occurs *)
Definition occurrences (v : Z) (l : list Z) : Z := alen (filter (fun x => x =? v) l).

(* The code of a tree as Pruefer defined it: remove the smallest leaf and write down the node
   it hung on, until two nodes are left. V lists the nodes that are left. *)
Inductive prueferCode : list Z -> list (Z * Z) -> list Z -> Prop :=
| pc_last : forall V x y, NoDup V -> length V = 2%nat -> In x V -> In y V -> x <> y -> prueferCode V [(x, y)] []
| pc_step : forall V E code x y,
    In x V -> In y V -> x <> y ->
    (forall u v, joined E u v -> u <> y /\ v <> y) ->                                   (* y is a leaf of (x, y) :: E *)
    (forall v, In v V -> (exists a, forall b, joined ((x, y) :: E) v b <-> a = b) -> y <= v) ->   (* the smallest *)
    prueferCode (remove Z.eq_dec y V) E code ->
    prueferCode V ((x, y) :: E) (x :: code).
(* P are the pairs joined in some direction *)
Definition underlyingIs {E} (pairs : list (Z * Z)) (P : Z -> Z -> bool) (o : outcome (graph E)) : bool :=
  match o with
  | Ok g => forallb (fun p => match hasEdge g (fst p) (snd p), hasEdge g (snd p) (fst p) with
                              | Ok a, Ok b => Bool.eqb (a || b) (P (fst p) (snd p)) | _, _ => false end) pairs
  | _ => false
  end.
