(* Where the elements of an SVG image are, in exact arithmetic. *)
From Verif Require Import Base SvgModel.
From Coq Require Import QArith.
Open Scope Q_scope.

Definition onSegment (p q z : Q * Q) : Prop :=
  exists t, 0 <= t <= 1 /\ fst z == (1 - t) * fst p + t * fst q /\ snd z == (1 - t) * snd p + t * snd q.
(* convex combinations of the points: contains the polygon whatever its fill rule *)
Inductive hull (ps : list (Q * Q)) : Q * Q -> Prop :=
| hull_point : forall p, In p ps -> hull ps p
| hull_between : forall p q z, hull ps p -> hull ps q -> onSegment p q z -> hull ps z.
(* the points of an element *)
Definition covers (e : element Q) (z : Q * Q) : Prop :=
  match e with
  | ERect x y w h => x <= fst z <= x + w /\ y <= snd z <= y + h
  | EEllipse cx cy rx ry => 0 <= rx /\ 0 <= ry /\
      (fst z - cx) * (fst z - cx) <= rx * rx /\ (snd z - cy) * (snd z - cy) <= ry * ry    (* its bounding rectangle *)
  | EPolygon ps | EPolyline ps => hull ps z
  end.
Definition inView (v : Q * Q * Q * Q) (z : Q * Q) : Prop :=
  let '(x, y, w, h) := v in x <= fst z <= x + w /\ y <= snd z <= y + h.
(* the numbers of a list and 0 *)
Definition lowest (l : list Q) (m : Q) : Prop := (m == 0 \/ exists x, In x l /\ m == x) /\ m <= 0 /\ (forall x, In x l -> m <= x).
Definition highest (l : list Q) (m : Q) : Prop := (m == 0 \/ exists x, In x l /\ m == x) /\ 0 <= m /\ (forall x, In x l -> x <= m).

(* the extreme points of a shape, in the coordinates of the program *)
Definition cornersQ (s : shape Q) : list (Q * Q) :=
  match s with
  | Rectangle o w h => [o; (fst o + w, snd o + h)]
  | Circle o r => [(fst o + r, snd o + r); (fst o + - r, snd o + - r)]
  | Ellipse o rx ry => [(fst o + rx, snd o + ry); (fst o + - rx, snd o + - ry)]
  | Polygon ps | Polyline ps => ps
  | Line p q => [p; q]
  end.
(* the shapes of a statement that come before any text, and all of them *)
Fixpoint leading (is : list (item Q)) : list (shape Q) :=
  match is with Draw s :: is => s :: leading is | _ => [] end.
Definition printed (cs : list (list (item Q))) (s : shape Q) : Prop := exists is, In is cs /\ In (Draw s) is.
