(* Model of how Real is printed: OutputStream::init, /repo/src/validate.h:248-252, sets std::fixed and
   std::setprecision(DEFAULT_PRECISION), ConstraintsLogger::write (2232-2234) does the same. The standard defines
   this as printf("%.*Lf"), taken here as rounding the exact value to the nearest decimal, ties to even. The sign
   of a NaN, which is printed too, is not part of `real`. *)
From Verif Require Import Base FloatModel SeqModel PassModel DecimalModel.
From Coq Require Import SpecFloat.
Open Scope Z_scope.

(* 82 *)
Definition DEFAULT_PRECISION : Z := 6.

(* the digits of n >= 0 *)
Definition wholeDigits (n : Z) : list Z := showDigits (S (Z.to_nat (Z.log2 n))) n [].
(* the last p digits of n >= 0, with leading zeros *)
Fixpoint lastDigits (p : nat) (n : Z) (acc : list Z) : list Z :=
  match p with
  | O => acc
  | S p' => lastDigits p' (n / 10) ((48 + n mod 10) :: acc)
  end.
(* n / 10^p *)
Definition fixedText (p n : Z) : list Z :=
  wholeDigits (n / 10 ^ p) ++ (if p =? 0 then [] else 46 :: lastDigits (Z.to_nat p) (n mod 10 ^ p) []).
Definition minus (s : bool) : list Z := if s then [45] else [].
Definition showFixed (p : Z) (x : real) : list Z :=
  match x with
  | S754_zero s => minus s ++ fixedText p 0
  | S754_finite s m e => minus s ++ fixedText p (nearestInt (Zpos m * 10 ^ p * up e) (up (- e)))
  | S754_infinity s => minus s ++ [105; 110; 102]
  | S754_nan => [110; 97; 110]
  end.
(* OutputStream::operator<<(Real) *)
Definition putReal (x : real) : list Z := showFixed DEFAULT_PRECISION x.
