(* Specification vocabulary for the floating point random functions. *)
From Verif Require Import Base RndModel FloatModel FloatSpec.
From Coq Require Import QArith.

(* the run ended with a value satisfying R, or the bound for the loops was too small *)
Definition orFuel {A} (R : A -> Prop) (o : outcome A) : Prop :=
  match o with Ok a => R a | Fuel => True | _ => False end.
(* a number of the format *)
Definition number (x : real) : Prop := realOk x /\ isfinite x = true.
(* the event that the result is a number not below t *)
Definition atLeast (t : Q) (o : outcome real) : bool := match o with Ok r => Qle_bool t (val r) | _ => false end.
(* the event that the result is below t, above or equal t *)
Definition lessZ (t : Z) (o : outcome Z) : bool := match o with Ok x => (x <? t)%Z | _ => false end.
Definition geZ (t : Z) (o : outcome Z) : bool := match o with Ok x => (t <=? x)%Z | _ => false end.

(* what is used of the C library: signs and ranges *)
Definition notPositive (x : real) : Prop :=
  match x with
  | S754_zero _ | S754_infinity true | S754_finite true _ _ => True
  | _ => False
  end.
(* logarithms are not positive up to 1 *)
Definition logLike (log : real -> real) : Prop := forall u, number u -> (0 <= val u <= 1)%Q -> realOk (log u) /\ notPositive (log u).
(* powers with exponents that are not positive are in [0, 1] *)
Definition expLike (exp : real -> real) : Prop := forall x, notPositive x -> number (exp x) /\ (0 <= val (exp x) <= 1)%Q.
(* the quotients of log are numbers that are not negative and leave room to add n + 1; u runs over
   the results of real() *)
Definition stepsFit (log : real -> real) (lg : real) (n : Z) : Prop :=
  forall u, number u -> (two (-960) <= val u <= 1)%Q ->
    let q := rdiv (log u) lg in isfinite q = true /\ (0 <= val q /\ val q + inject_Z (n + 1) < inject_Z (2 ^ 63))%Q.
(* min(p, 1 - p) *)
Definition lesser (p : real) : real := if SFltb (rsub (S754_finite false 0x8000000000000000 (-63)) p) p then rsub (S754_finite false 0x8000000000000000 (-63)) p else p.
