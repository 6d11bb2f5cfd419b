(* The number a floating point datum stands for. *)
From Verif Require Import Base FloatModel.
From Coq Require Import QArith.
Open Scope Q_scope.

Definition two (e : Z) : Q := Qpower 2 e.
(* infinities and NaN have no value and are given 0 *)
Definition val (x : spec_float) : Q :=
  match x with
  | S754_finite s m e => (if s then - (1) else 1) * (inject_Z (Zpos m) * two e)
  | _ => 0
  end.
