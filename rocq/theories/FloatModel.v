(* Model of Real and of details::floatEqual, /repo/src/validate.h:64, 896-917.
   Real = long double; on x86-64 this is the 80-bit format with 64 bits of precision and
   exponents below 16384. Arithmetic is the IEEE specification of the standard library
   (Coq.Floats.SpecFloat, round to nearest even), NaN payloads are not modelled. *)
From Coq Require Export SpecFloat.
From Verif Require Import Base.

Definition prec : Z := 64.
Definition emax : Z := 16384.
Definition real : Type := spec_float.
Definition realOk (x : real) : Prop := valid_binary prec emax x = true.

Definition isfinite (x : real) : bool :=
  match x with S754_zero _ | S754_finite _ _ _ => true | _ => false end.
Definition isnan (x : real) : bool := match x with S754_nan => true | _ => false end.
Definition isinf (x : real) : bool := match x with S754_infinity _ => true | _ => false end.
Definition signbit (x : real) : bool :=
  match x with S754_zero s | S754_infinity s | S754_finite s _ _ => s | S754_nan => false end.
Definition rsub (x y : real) : real := SFsub prec emax x y.
Definition rdiv (x y : real) : real := SFdiv prec emax x y.
Definition rzero : real := S754_zero false.

(* validate.h:898-917 *)
Definition floatEqual (given expected floatAbsTol floatRelTol : real) : outcome bool :=
  let! _ := judgeAssert (SFleb rzero floatAbsTol) in
  let! _ := judgeAssert (SFleb rzero floatRelTol) in
  if isfinite given && isfinite expected then
    let absDiff := SFabs (rsub given expected) in
    let relDiff := SFabs (rdiv (rsub given expected) expected) in
    Ok (SFleb absDiff floatAbsTol || SFleb relDiff floatRelTol)
  else if isnan given && isnan expected then Ok true
  else if isinf given && isinf expected then Ok (Bool.eqb (signbit given) (signbit expected))
  else Ok false.
