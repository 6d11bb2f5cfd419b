(* C80: floatLess and floatGreater. *)
From Verif Require Import Base FloatModel FloatSpec InputModel InputProofs3 RealSpec InitModel FloatLess.
From Coq Require Import QArith Qabs ZArith SpecFloat.
Open Scope Q_scope.

Theorem C80_less : forall g e a r, number g -> number e -> goodTol a -> goodTol r ->
  exists b, floatLess g e a r = Ok b /\ (b = true <-> val g <= val e \/ floatEqual g e a r = Ok true).
Proof. exact floatLess_iff. Qed.
Print Assumptions C80_less.
Theorem C80_greater : forall g e a r, number g -> number e -> goodTol a -> goodTol r ->
  exists b, floatGreater g e a r = Ok b /\ (b = true <-> val e <= val g \/ floatEqual g e a r = Ok true).
Proof. exact floatGreater_iff. Qed.
Print Assumptions C80_greater.
Theorem C80_less_greater : forall g e a r, number g -> number e -> goodTol a -> goodTol r ->
  (floatLess g e a r = Ok true \/ floatGreater g e a r = Ok true) /\
  (floatLess g e a r = Ok true /\ floatGreater g e a r = Ok true <-> floatEqual g e a r = Ok true).
Proof. exact less_greater. Qed.
Print Assumptions C80_less_greater.
Theorem C80_less_other : forall g e a r, goodTol a -> goodTol r -> isfinite g && isfinite e = false ->
  (floatLess g e a r = Ok true <->
   g = S754_infinity true /\ isnan e = false \/ e = S754_infinity false /\ isnan g = false \/ g = S754_nan /\ e = S754_nan).
Proof. exact floatLess_other. Qed.
Print Assumptions C80_less_other.

(* 1 + 2^-20 against 1 with tolerance 2^-20 and without, minus infinity against 1 *)
Definition one : real := S754_finite false 0x8000000000000000 (-63).
Definition more : real := S754_finite false 0x8000080000000000 (-63).
Definition small : real := S754_finite false 0x8000000000000000 (-83).
Example C80_ex_less : number one /\ number more /\ goodTol small /\ goodTol rzero /\
  floatLess more one small rzero = Ok true /\ floatGreater more one small rzero = Ok true /\
  floatLess more one rzero rzero = Ok false /\ floatGreater more one rzero rzero = Ok true /\
  floatLess (S754_infinity true) one small small = Ok true /\ floatGreater (S754_infinity true) one small small = Ok false.
Proof. vm_compute. repeat split; reflexivity. Qed.
