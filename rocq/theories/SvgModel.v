(* Model of the bounding box and the coordinates of /repo/src/visualizer_svg.h (lines cited
   below). Real is an argument: the operations used are addition, subtraction, negation and
   comparison. They are instantiated with exact rational numbers and with the floating point
   numbers of FloatModel.v. *)
From Verif Require Import Base FloatModel.
From Coq Require Import QArith SpecFloat.

Section SVG.
  Variable R : Type.
  Variable zero : R.
  Variable add sub : R -> R -> R.
  Variable opp : R -> R.
  Variable ltb : R -> R -> bool.

  (* 239-285  Point, Dimension *)
  Definition point : Type := R * R.
  (* 287-293  flipY with FLIP_Y set *)
  Definition flipY (y height : R) : R := opp (add y height).
  (* 295-300  the members origin and dimension of SVG *)
  Record box : Type := mkBox { bx : R; by_ : R; bw : R; bh : R }.
  Definition emptyBox : box := mkBox zero zero zero zero.
  (* 330-345  includeInBB: one coordinate, then both *)
  Definition includeOne (o d p : R) : R * R :=
    let (o, d) := if ltb p o then (p, add d (sub o p)) else (o, d) in
    if ltb (add o d) p then (o, sub p o) else (o, d).
  Definition includeInBB (b : box) (p : point) : box :=
    let (x, w) := includeOne (bx b) (bw b) (fst p) in
    let (y, h) := includeOne (by_ b) (bh b) (snd p) in
    mkBox x y w h.

  (* 372-528  the shapes *)
  Inductive shape : Type :=
  | Rectangle (o : point) (width height : R)
  | Circle (o : point) (r : R)
  | Ellipse (o : point) (rx ry : R)
  | Polygon (points : list point)
  | Line (p1 p2 : point)
  | Polyline (points : list point).
  (* operator<<(SVG&, ...): the points included, in this order *)
  Definition corners (s : shape) : list point :=
    match s with
    | Rectangle o w h => [o; (add (fst o) w, add (snd o) h)]
    | Circle o r => [(add (fst o) r, add (snd o) r); (add (fst o) (opp r), add (snd o) (opp r))]
    | Ellipse o rx ry => [(add (fst o) rx, add (snd o) ry); (add (fst o) (opp rx), add (snd o) (opp ry))]
    | Polygon ps | Polyline ps => ps
    | Line p q => [p; q]
    end.
  Definition draw (b : box) (s : shape) : box := fold_left includeInBB (corners s) b.
  (* operator<<(std::ostream&, ...): the numbers of the element; rect: x, y, width, height;
     circle: cx, cy, r; ellipse: cx, cy, rx, ry; the others: the points *)
  Inductive element : Type :=
  | ERect (x y width height : R)
  | EEllipse (cx cy rx ry : R)
  | EPolygon (points : list point)
  | EPolyline (points : list point).
  Definition flipPoint (p : point) : point := (fst p, flipY (snd p) zero).
  Definition elementOf (s : shape) : element :=
    match s with
    | Rectangle o w h => ERect (fst o) (flipY (snd o) h) w h
    | Circle o r => EEllipse (fst o) (flipY (snd o) zero) r r
    | Ellipse o rx ry => EEllipse (fst o) (flipY (snd o) zero) rx ry
    | Polygon ps => EPolygon (map flipPoint ps)
    | Line p q => EPolyline (map flipPoint [p; q])
    | Polyline ps => EPolyline (map flipPoint ps)
    end.
  (* 315-328  viewBox of write(): x, y, width, height *)
  Definition viewBox (b : box) : R * R * R * R := (bx b, flipY (by_ b) (bh b), bw b, bh b).
  (* one statement svg << i1 << i2 << ...: operator<<(SVG&, shape) returns the SVG&, whereas
     anything else (Comment, a string, std::endl) returns std::ostream&, after which overload
     resolution takes the operator of std::ostream for the shapes, which prints only *)
  Inductive item : Type := Draw (s : shape) | Text.
  Fixpoint chain (b : box) (is : list item) : box :=
    match is with
    | Draw s :: is => chain (draw b s) is
    | Text :: _ => b
    | [] => b
    end.
  (* the box after a sequence of such statements *)
  Definition image (cs : list (list item)) : box := fold_left chain cs emptyBox.
End SVG.
Arguments Rectangle {R}. Arguments Circle {R}. Arguments Ellipse {R}. Arguments Polygon {R}. Arguments Line {R}. Arguments Polyline {R}.
Arguments Draw {R}. Arguments Text {R}.
Arguments ERect {R}. Arguments EEllipse {R}. Arguments EPolygon {R}. Arguments EPolyline {R}.

(* exact numbers *)
Definition imageQ := image Q 0%Q Qplus Qminus Qopp (fun a b => negb (Qle_bool b a)).
Definition elementQ := elementOf Q 0%Q Qplus Qopp.
Definition viewBoxQ := viewBox Q Qplus Qopp.
(* long double *)
Definition imageF := image real rzero (SFadd prec emax) (SFsub prec emax) SFopp SFltb.
