(* What the operations on colours should do. *)
From Verif Require Import Base FloatModel FloatSpec PngModel PngSpec ColorModel.
From Coq Require Import QArith Qabs Qminmax.
Open Scope Q_scope.

(* the nearest value a part can have *)
Definition saturated (q : Q) : Q := Qmax 0 (Qmin 255 q).
(* z is q, rounded: off by at most one half and the rounding error of Real *)
Definition rounded (z : Z) (q : Q) : Prop := Qabs (inject_Z z - q) <= (1 # 2) + two (-56).
(* z is the interpolation q, which is the sum of two rounded parts: off by at most one and their
   rounding errors *)
Definition interpolated (z : Z) (q : Q) : Prop := Qabs (inject_Z z - q) <= 1 + two (-54).
Definition mix (a b : Z) (f : Q) : Q := inject_Z a * f + inject_Z b * (1 - f).

(* P holds for the parts of two or three colours *)
Definition parts (P : Z -> Z -> Prop) (x y : Color) : Prop := P (cr x) (cr y) /\ P (cg x) (cg y) /\ P (cb x) (cb y) /\ P (ca x) (ca y).
Definition parts3 (P : Z -> Z -> Z -> Prop) (x y z : Color) : Prop := P (cr x) (cr y) (cr z) /\ P (cg x) (cg y) (cg z) /\ P (cb x) (cb y) (cb z) /\ P (ca x) (ca y) (ca z).
Definition isRgb (c : Rgb) : Prop := byte (sr c) /\ byte (sg c) /\ byte (sb c).
Definition rparts (P : Z -> Z -> Prop) (x y : Rgb) : Prop := P (sr x) (sr y) /\ P (sg x) (sg y) /\ P (sb x) (sb y).
Definition rparts3 (P : Z -> Z -> Z -> Prop) (x y z : Rgb) : Prop := P (sr x) (sr y) (sr z) /\ P (sg x) (sg y) (sg z) /\ P (sb x) (sb y) (sb z).

(* CSS: #rrggbb is the colour whose parts are the two-digit hexadecimal numbers *)
Definition hexValue (c : Z) : option Z :=
  if (48 <=? c)%Z && (c <=? 57)%Z then Some (c - 48)%Z
  else if (97 <=? c)%Z && (c <=? 102)%Z then Some (c - 87)%Z
  else if (65 <=? c)%Z && (c <=? 70)%Z then Some (c - 55)%Z else None.
Definition hexPair (x y : Z) : option Z :=
  match hexValue x, hexValue y with Some a, Some b => Some (16 * a + b)%Z | _, _ => None end.
Definition cssColor (l : list Z) : option (Z * Z * Z) :=
  match l with
  | [35; a; b; c; d; e; f]%Z =>
      match hexPair a b, hexPair c d, hexPair e f with Some r, Some g, Some b => Some (r, g, b) | _, _, _ => None end
  | _ => None
  end.
