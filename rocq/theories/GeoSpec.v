(* Vocabulary for the statements about polygons. *)
From Coq Require Import ZArith List Lia.
Import ListNotations.
Open Scope Z_scope.

(* twice the signed area of the triangle a b c: positive if it turns left *)
Definition orient (a b c : Z * Z) : Z :=
  (fst b - fst a) * (snd c - snd a) - (snd b - snd a) * (fst c - fst a).

(* the coordinates the functions accept *)
Definition inRange (ps : list (Z * Z)) : Prop :=
  Forall (fun p => Z.abs (fst p) < 2 ^ 30 /\ Z.abs (snd p) < 2 ^ 30) ps.

(* corner i of a polygon, cyclically *)
Definition corner (ps : list (Z * Z)) (i : nat) : Z * Z := nth (i mod length ps) ps (0, 0).

(* every corner lies on or left of the line through each side, no side is a point and
   the corners do not all lie on one line *)
Definition convex (ps : list (Z * Z)) : Prop :=
  (3 <= length ps)%nat /\
  (forall i, corner ps i <> corner ps (i + 1)) /\
  (forall i j, 0 <= orient (corner ps i) (corner ps (i + 1)) (corner ps j)) /\
  exists i j k, orient (corner ps i) (corner ps j) (corner ps k) <> 0.

(* every corner apart from the end points of a side lies left of it *)
Definition strictlyConvex (ps : list (Z * Z)) : Prop :=
  (3 <= length ps)%nat /\
  forall i j, (i < length ps)%nat -> (j < length ps)%nat -> j <> i -> j <> ((i + 1) mod length ps)%nat ->
    0 < orient (corner ps i) (corner ps (i + 1)) (corner ps j).

(* the same polygon, given from corner k on *)
Definition rotate (k : nat) (ps : list (Z * Z)) : list (Z * Z) := skipn k ps ++ firstn k ps.

(* the interiors of the segments ab and cd intersect *)
Definition properlyCross (a b c d : Z * Z) : Prop :=
  orient a b c * orient a b d < 0 /\ orient c d a * orient c d b < 0.

(* twice the signed area of a polygon, with respect to the corner o *)
Fixpoint fan (o p : Z * Z) (ps : list (Z * Z)) : Z :=
  match ps with
  | [] => 0
  | q :: ps => orient o p q + fan o q ps
  end.
Definition area2 (ps : list (Z * Z)) : Z :=
  match ps with
  | [] => 0
  | o :: ps => fan o o ps
  end.

(* the segments ab and cd have a point in common *)
Definition between (a b c : Z * Z) : Prop := (* c in the bounding box of a and b *)
  Z.min (fst a) (fst b) <= fst c <= Z.max (fst a) (fst b) /\
  Z.min (snd a) (snd b) <= snd c <= Z.max (snd a) (snd b).
Definition onSegment (a b c : Z * Z) : Prop := orient a b c = 0 /\ between a b c.
Definition meet (a b c d : Z * Z) : Prop :=
  properlyCross a b c d \/ onSegment a b c \/ onSegment a b d \/ onSegment c d a \/ onSegment c d b.

(* sides that are not adjacent have no point in common, adjacent ones only the corner *)
Definition simple (ps : list (Z * Z)) : Prop :=
  (3 <= length ps)%nat /\
  (forall i j, (i < length ps)%nat -> (j < length ps)%nat -> i <> j ->
     ((i + 1) mod length ps)%nat <> j -> ((j + 1) mod length ps)%nat <> i ->
     ~ meet (corner ps i) (corner ps (i + 1)) (corner ps j) (corner ps (j + 1))) /\
  (forall i, ~ onSegment (corner ps i) (corner ps (i + 1)) (corner ps (i + 2)) /\
             ~ onSegment (corner ps (i + 1)) (corner ps (i + 2)) (corner ps i)).
