(* The convex hull of points as a closed chain. *)
From Verif Require Import Base GeoSpec.
From Coq Require Import ZArith List Sorted.
Import ListNotations.
Open Scope Z_scope.

(* from left to right, on a vertical line from below *)
Definition before (a b : Z * Z) : Prop := fst a < fst b \/ fst a = fst b /\ snd a < snd b.
(* b follows a in the chain *)
Definition side (h : list (Z * Z)) (a b : Z * Z) : Prop := exists l r, h = l ++ a :: b :: r.
(* h goes from the first point of ps to the last one and back to the first *)
Definition thereAndBack (ps h : list (Z * Z)) : Prop :=
  exists m M low high, In m ps /\ In M ps /\ (forall q, In q ps -> (q = m \/ before m q) /\ (q = M \/ before q M)) /\
    h = m :: low ++ M :: high ++ [m] /\
    StronglySorted before (m :: low ++ [M]) /\ StronglySorted (fun a b => before b a) (M :: high ++ [m]).
(* all points lie on or left of each side, and the points that are not listed left of each *)
Definition encloses (ps h : list (Z * Z)) : Prop :=
  incl h ps /\
  (forall a b, side h a b -> a <> b /\ forall q, In q ps -> 0 <= orient a b q) /\
  (forall q, In q ps -> ~ In q h -> forall a b, side h a b -> 0 < orient a b q).
Definition isHull (ps h : list (Z * Z)) : Prop := thereAndBack ps h /\ encloses ps h.
Definition onOneLine (ps : list (Z * Z)) : Prop := forall a b c, In a ps -> In b ps -> In c ps -> orient a b c = 0.
(* each point is a corner or on the boundary: some line through it has no point on its right side *)
Definition onBoundary (ps : list (Z * Z)) (p : Z * Z) : Prop := exists q, q <> p /\ forall x, In x ps -> 0 <= orient p q x.
Definition small (ps : list (Z * Z)) : Prop := Forall (fun p => Z.abs (fst p) < 2 ^ 30 /\ Z.abs (snd p) < 2 ^ 30) ps.
Definition inDisk (r : Z) (p : Z * Z) : Prop := fst p * fst p + snd p * snd p < r * r.
