(* Input files of the example visualizers. *)
From Coq Require Import String.
From Verif Require Import Base FloatModel FloatSpec RealSpec InputSpec InitSpec DecimalSpec PngModel PngSpec SvgSpec.
From Coq Require Import ZArith QArith Qabs List.
Import ListNotations.
Open Scope Z_scope.
Open Scope list_scope.

Definition flat {A} (ps : list (A * A)) : list A := flat_map (fun p => [fst p; snd p]) ps.
(* the text starts with these integers, separated by white space *)
Definition startsWith (s : list Z) (vs : list Z) : Prop :=
  exists ts more, wordsOf s (ts ++ more) /\ Forall2 decimalOf ts vs /\ Forall (fun v => - 2 ^ 63 <= v < 2 ^ 63) vs.
(* integers and then points, as decimals *)
Definition startsWithPoints (s : list Z) (vs : list Z) (ps : list (Q * Q)) : Prop :=
  exists ts us more, wordsOf s (ts ++ us ++ more) /\ Forall2 decimalOf ts vs /\ Forall (fun v => - 2 ^ 63 <= v < 2 ^ 63) vs /\
    Forall2 decimalValue us (flat ps) /\ Forall inRange (flat ps).

(* n, width and height, and n lines from one point to another *)
Definition pngInput (s : list Z) (w h : Z) (ls : list ((Z * Z) * (Z * Z))) : Prop :=
  startsWith s (Z.of_nat (List.length ls) :: w :: h :: flat (flat ls)) /\ 0 <= w <= 16381 /\ 0 <= h < 2 ^ 58 /\
  Forall (fun p => inside (w + 2) (h + 2) (fst p + 1, snd p + 1)) (flat ls).
Definition moved (p : Z * Z) : Z * Z := (fst p + 1, snd p + 1).
(* a w x h picture of black lines on white *)
Definition linesOn (w h : Z) (white black : Color) (ls : list ((Z * Z) * (Z * Z))) (img : image) : Prop :=
  isImage w h img /\ exists paths, Forall2 (fun l path => isLine (moved (fst l)) (moved (snd l)) path) ls paths /\
    forall x y, inside w h (x, y) -> (In (x, y) (concat paths) -> at_ img x y = Some black) /\ (~ In (x, y) (concat paths) -> at_ img x y = Some white).
(* with the area of the corner 0, 0 replaced by a colour *)
Definition cornerFilled (w h : Z) (c : Color) (img img' : image) : Prop :=
  isImage w h img' /\ exists old, at_ img 0 0 = Some old /\
    forall x y, (connected img old (0, 0) (x, y) -> at_ img' x y = Some c) /\ (~ connected img old (0, 0) (x, y) -> at_ img' x y = at_ img x y).

(* what strtold promises for decimals in range: the nearest number and no error *)
Definition strtold (convert : list Z -> real * bool) : Prop :=
  forall t q, decimalValue t q -> inRange q -> exists v, convert t = (v, true) /\ nearest q v.
Definition nearestPoint (p : Q * Q) (v : real * real) : Prop := nearest (fst p) (fst v) /\ nearest (snd p) (snd v).
(* integers with at most six digits *)
Definition smallInteger (q : Q) : Prop := exists z, (q == inject_Z z)%Q /\ Z.abs z < 10 ^ 6.
