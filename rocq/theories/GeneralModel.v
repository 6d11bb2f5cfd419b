(* Model of how a stream prints Real if nothing else is set (visualizer_svg.h:168-172, attribute, and 449, 499, the
   points of polygons and polylines): printf("%.*Lg") with the precision P of the stream, 6 at first. P significant
   digits, rounded exactly with ties to even; exponents below -4 or from P on are written; zeros at the end and a
   bare dot are left out. *)
From Verif Require Import Base FloatModel PassModel DecimalModel PrintModel.
From Coq Require Import SpecFloat.
Open Scope Z_scope.

(* the exponent of n / d in scientific notation *)
Definition decimalLog (n d : Z) : Z :=
  if d <=? n then alen (wholeDigits (n / d)) - 1 else - alen (wholeDigits ((d - 1) / n)).
(* n / d * 10^p rounded *)
Definition scaled (n d p : Z) : Z := nearestInt (n * 10 ^ Z.max p 0) (d * 10 ^ Z.max (- p) 0).
Fixpoint dropZeros (l : list Z) : list Z :=
  match l with
  | c :: l' => if c =? 48 then dropZeros l' else l
  | [] => []
  end.
Definition fraction (l : list Z) : list Z :=
  match dropZeros (rev l) with
  | [] => []
  | l => 46 :: rev l
  end.
(* k / 10^p without zeros at the end *)
Definition shortText (p k : Z) : list Z := wholeDigits (k / 10 ^ p) ++ fraction (lastDigits (Z.to_nat p) (k mod 10 ^ p) []).
(* at least two digits *)
Definition exponentText (x : Z) : list Z :=
  101 :: (if x <? 0 then 45 else 43) :: (if Z.abs x <? 10 then [48] else []) ++ wholeDigits (Z.abs x).
Definition generalText (P n d : Z) : list Z :=
  let e := decimalLog n d in
  let k := scaled n d (P - 1 - e) in
  let (k, e) := if k =? 10 ^ P then (10 ^ (P - 1), e + 1) else (k, e) in
  if (-4 <=? e) && (e <? P) then shortText (P - 1 - e) k else shortText (P - 1) k ++ exponentText e.
Definition showGeneral (precision : Z) (x : real) : list Z :=
  match x with
  | S754_zero s => minus s ++ [48]
  | S754_finite s m e => minus s ++ generalText (Z.max precision 1) (Zpos m * up e) (up (- e))
  | S754_infinity s => minus s ++ [105; 110; 102]
  | S754_nan => [110; 97; 110]
  end.
