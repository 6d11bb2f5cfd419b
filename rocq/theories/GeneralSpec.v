(* Decimals with a fixed number of significant digits. *)
From Verif Require Import Base FloatSpec DecimalSpec PrintSpec.
From Coq Require Import QArith Qabs.
Open Scope Z_scope.

(* q is v rounded to P significant digits *)
Definition significant (P : Z) (v q : Q) : Prop :=
  ((v == 0)%Q /\ (q == 0)%Q) \/
  exists e k, (tenTo e <= Qabs v < tenTo (e + 1))%Q /\ nearestUnits (P - 1 - e) v k /\ (q == units (P - 1 - e) k)%Q.
