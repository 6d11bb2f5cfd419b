(* Model of the operations on colours with a factor of type Real,
   /repo/src/visualizer_png.h:93-116, 140-143, and of the colours of
   /repo/src/visualizer_svg.h:26-147. assert is taken to be active. *)
From Verif Require Import Base FloatModel RealModel PngModel.
Open Scope Z_scope.

(* round to the nearest integer, halves away from zero *)
Definition roundAway (x : real) : option Z :=
  match x with
  | S754_zero _ => Some 0
  | S754_finite s m e =>
      let a := if 0 <=? e then Zpos m * 2 ^ e else (2 * Zpos m + 2 ^ (- e)) / 2 ^ (- e + 1) in
      Some (if s then - a else a)
  | _ => None
  end.

Section Llround.
  Variable unspecified : real -> Z.   (* std::llround of a number that is no long long *)
  Definition llround (x : real) : Z :=
    match roundAway x with
    | Some z => if (- 2 ^ 63 <=? z) && (z <? 2 ^ 63) then z else unspecified x
    | None => unspecified x
    end.

  (* visualizer_png.h:94-96, clamp_color of a long double; static_cast<std::uint8_t> keeps the value *)
  Definition clampReal (x : real) : Z := clampColor (llround x).
  (* c.r*f: the part is converted to long double *)
  Definition scalePart (c : Z) (f : real) : Z := clampReal (rmul (ofZ c) f).
  (* visualizer_png.h:103-116, operator* and operator*= *)
  Definition scaleColor (f : real) (c : Color) : Color :=
    {| cr := scalePart (cr c) f; cg := scalePart (cg c) f; cb := scalePart (cb c) f; ca := scalePart (ca c) f |}.
  (* visualizer_png.h:140-143 *)
  Definition lerp (a b : Color) (f : real) : outcome Color :=
    if SFleb rzero f && SFleb f rone
    then Ok (addColor (scaleColor f a) (scaleColor (rsub rone f) b))
    else Throw (* assert *).

  (* ---- visualizer_svg.h ---- *)
  (* 26-27 *)
  Record Rgb := mkRgb { sr : Z; sg : Z; sb : Z }.
  (* 28-31, 36-37 *)
  Definition ofRgb (x : Z) : Rgb := mkRgb (Z.land (Z.shiftr x 16) 255) (Z.land (Z.shiftr x 8) 255) (Z.land x 255).
  Definition ofGray (x : Z) : Rgb := mkRgb x x x.
  (* 39-64  operator[]; the index is a std::size_t *)
  Definition rgbGet (c : Rgb) (i : Z) : outcome Z :=
    if i =? 0 then Ok (sr c) else if i =? 1 then Ok (sg c) else if i =? 2 then Ok (sb c) else Throw.
  Definition rgbSet (c : Rgb) (i v : Z) : outcome Rgb :=
    if i =? 0 then Ok (mkRgb v (sg c) (sb c)) else if i =? 1 then Ok (mkRgb (sr c) v (sb c)) else if i =? 2 then Ok (mkRgb (sr c) (sg c) v) else Throw.
  (* 66-72 *)
  Definition rgbEq (a b : Rgb) : bool := (sr a =? sr b) && (sg a =? sg b) && (sb a =? sb b).
  Definition rgbNe (a b : Rgb) : bool := negb (sr a =? sr b) || negb (sg a =? sg b) || negb (sb a =? sb b).
  (* 74-82  operator<<: std::hex prints small letters and no leading zeros; setw(2) and setfill('0') pad *)
  Definition hexDigit (d : Z) : Z := if d <? 10 then 48 + d else 87 + d.
  Definition hexText (v : Z) : list Z := if v <? 16 then [hexDigit v] else [hexDigit (v / 16); hexDigit (v mod 16)].
  Definition padded (l : list Z) : list Z := repeat 48 (2 - length l) ++ l.
  Definition rgbText (c : Rgb) : list Z := 35 :: padded (hexText (sr c)) ++ padded (hexText (sg c)) ++ padded (hexText (sb c)).
  (* 112-142 *)
  Definition scaleRgb (f : real) (c : Rgb) : Rgb := mkRgb (scalePart (sr c) f) (scalePart (sg c) f) (scalePart (sb c) f).
  Definition addRgb (a b : Rgb) : Rgb := mkRgb (clampColor (sr a + sr b)) (clampColor (sg a + sg b)) (clampColor (sb a + sb b)).
  Definition subRgb (a b : Rgb) : Rgb := mkRgb (clampColor (sr a - sr b)) (clampColor (sg a - sg b)) (clampColor (sb a - sb b)).
  (* 144-147 *)
  Definition lerpRgb (a b : Rgb) (f : real) : outcome Rgb :=
    if SFleb rzero f && SFleb f rone
    then Ok (addRgb (scaleRgb f a) (scaleRgb (rsub rone f) b))
    else Throw (* assert *).
End Llround.
