(* Decimals with a fixed number of digits after the dot. *)
From Verif Require Import Base FloatModel FloatSpec DecimalSpec.
From Coq Require Import QArith Qabs.
Open Scope Z_scope.

(* k units of 10^-p *)
Definition units (p k : Z) : Q := (inject_Z k * tenTo (- p))%Q.
(* k units are nearest to v; of two such numbers the even one *)
Definition nearestUnits (p : Z) (v : Q) (k : Z) : Prop :=
  forall j, (Qabs (units p k - v) <= Qabs (units p j - v))%Q /\
    (j <> k -> (Qabs (units p k - v) == Qabs (units p j - v))%Q -> Z.even k = true).

(* a line of real numbers: reals(lower, upper, count, sep); newline(); eof() *)
From Verif Require Import InputModel.
Definition realFile (st : cfg) (parse : list Z -> option real) (lower upper : real) (count sep : Z) : rd (list real) :=
  read! l := many st (realIn st parse lower upper) count sep in
  read! _ := newline st in
  read! _ := eof st in
  rret l.
