(* Model of the text of an SVG file, /repo/src/visualizer_svg.h:167-537 (lines cited below). The statements and the
   bounding box are those of SvgModel.v. *)
From Coq Require Import String.
From Verif Require Import Base FloatModel InitSpec SvgModel ColorModel PrintModel GeneralModel.
From Coq Require Import ZArith List SpecFloat.
Import ListNotations.
Open Scope Z_scope.
Open Scope list_scope.

(* 167-179  attribute; the stream for the value is a new one, so numbers are printed with 6 significant digits
   whatever was set for the image *)
Definition attribute (key : String.string) (value : list Z) : list Z := text key ++ [61; 34] ++ value ++ [34; 32].
Definition optAttribute (key : String.string) (value : option (list Z)) : list Z :=
  match value with Some v => attribute key v | None => [] end.
Definition numberText (x : real) : list Z := showGeneral 6 x.
(* 181-188 *)
Definition fillText (c : Rgb) : list Z := attribute "fill" (rgbText c).
(* 190-218 *)
Inductive Linecap : Type := CapButt | CapRound | CapSquare.
Definition linecapText (l : Linecap) : list Z := text match l with CapButt => "butt" | CapRound => "round" | CapSquare => "square" end.
Inductive Linejoin : Type := JoinRound | JoinBevel | JoinMiter.
Definition linejoinText (l : Linejoin) : list Z := text match l with JoinRound => "round" | JoinBevel => "bevel" | JoinMiter => "miter" end.
(* 220-237 *)
Record Stroke : Type := mkStroke { strokeColor : Rgb; strokeWidth : real; linecap : option Linecap; linejoin : option Linejoin; scale : bool }.
Definition strokeText (s : Stroke) : list Z :=
  attribute "stroke" (rgbText (strokeColor s)) ++
  attribute "stroke-width" (numberText (strokeWidth s)) ++
  optAttribute "stroke-linecap" (option_map linecapText (linecap s)) ++
  optAttribute "stroke-linejoin" (option_map linejoinText (linejoin s)) ++
  (if scale s then [] else attribute "vector-effect" (text "non-scaling-stroke")).
(* 353-370  the members of Shape *)
Record style : Type := mkStyle { stroke : option Stroke; fill : option Rgb }.
Definition styleText (s : style) : list Z :=
  match stroke s with Some s => strokeText s | None => attribute "stroke" (text "none") end ++
  match fill s with Some f => fillText f | None => attribute "fill" (text "none") end.

(* the state of the stream of the image: std::fixed, std::setprecision *)
Record format : Type := mkFormat { fixed : bool; precision : Z }.
Definition defaultFormat : format := mkFormat false 6.
Definition streamNumber (f : format) (x : real) : list Z := if fixed f then showFixed (precision f) x else showGeneral (precision f) x.
(* 287-293 *)
Definition flip (y height : real) : real := flipY real (SFadd prec emax) SFopp y height.
(* 372-528  operator<<(std::ostream&, ...) of the shapes *)
Definition pointsText (f : format) (ps : list (real * real)) : list Z :=
  text "points=""" ++ flat_map (fun p => streamNumber f (fst p) ++ [44] ++ streamNumber f (flip (snd p) rzero) ++ [32]) ps ++ [34; 32].
Definition shapeText (f : format) (s : shape real) (st : style) : list Z :=
  match s with
  | Rectangle o w h =>
      text "<rect " ++ attribute "x" (numberText (fst o)) ++ attribute "y" (numberText (flip (snd o) h)) ++
      attribute "width" (numberText w) ++ attribute "height" (numberText h) ++ styleText st ++ text "/>"
  | Circle o r =>
      text "<circle " ++ attribute "r" (numberText r) ++ attribute "cx" (numberText (fst o)) ++
      attribute "cy" (numberText (flip (snd o) rzero)) ++ styleText st ++ text "/>"
  | Ellipse o rx ry =>
      text "<ellipse " ++ attribute "rx" (numberText rx) ++ attribute "ry" (numberText ry) ++ attribute "cx" (numberText (fst o)) ++
      attribute "cy" (numberText (flip (snd o) rzero)) ++ styleText st ++ text "/>"
  | Polygon ps => text "<polygon " ++ pointsText f ps ++ styleText st ++ text "/>"
  | Line p q =>
      text "<line " ++ attribute "x1" (numberText (fst p)) ++ attribute "y1" (numberText (flip (snd p) rzero)) ++
      attribute "x2" (numberText (fst q)) ++ attribute "y2" (numberText (flip (snd q) rzero)) ++ styleText st ++ text "/>"
  | Polyline ps => text "<polyline " ++ pointsText f ps ++ styleText st ++ text "/>"
  end.
(* 530-537 *)
Definition commentText (c : list Z) : list Z := text "<!-- " ++ c ++ text " -->".

(* what is sent to the image: shapes, comments, other text such as std::endl, and manipulators that leave the
   format f *)
Inductive thing : Type :=
| TShape (s : shape real) (st : style)
| TComment (c : list Z)
| TText (t : list Z)
| TFormat (f : format).
Fixpoint outText (f : format) (ts : list thing) : list Z :=
  match ts with
  | [] => []
  | TShape s st :: ts => shapeText f s st ++ outText f ts
  | TComment c :: ts => commentText c ++ outText f ts
  | TText t :: ts => t ++ outText f ts
  | TFormat f' :: ts => outText f' ts
  end.
Definition itemOf (t : thing) : item real := match t with TShape s _ => Draw s | _ => Text end.
(* the contents of out and the bounding box after the statements *)
Definition imageText (cs : list (list thing)) : list Z := outText defaultFormat (concat cs).
Definition imageBox (cs : list (list thing)) : box real := imageF (map (map itemOf) cs).
(* 315-328  write; std::to_string prints 6 digits after the dot. None: no file is written *)
Definition viewText (b : box real) : list Z :=
  showFixed 6 (bx real b) ++ [32] ++ showFixed 6 (flip (by_ real b) (bh real b)) ++ [32] ++
  showFixed 6 (bw real b) ++ [32] ++ showFixed 6 (bh real b).
Definition write (fileName : option (list Z)) (b : box real) (out : list Z) : option (list Z) :=
  match fileName, out with
  | None, _ | _, [] => None
  | _, _ => Some (
      text "<?xml " ++ attribute "version" (text "1.0") ++ attribute "encoding" (text "UTF8") ++ text "?>" ++ [10] ++
      text "<svg " ++ attribute "xmlns" (text "http://www.w3.org/2000/svg") ++ attribute "version" (text "1.0") ++
      attribute "baseProfile" (text "full") ++ attribute "viewBox" (viewText b) ++ text ">" ++ [10] ++
      out ++ text "</svg>")
  end.
