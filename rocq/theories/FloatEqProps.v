(* C80: floatEqual against the comparison of the exact values. *)
From Verif Require Import Base FloatModel FloatSpec InputProofs3 RealSpec FloatEqProofs.
From Coq Require Import QArith Qabs ZArith SpecFloat.
Open Scope Q_scope.

Theorem C80_absolute_accepts : forall g e a r, number g -> number e -> number a -> goodTol r ->
  Qabs (val g - val e) <= val a -> floatEqual g e a r = Ok true.
Proof. exact floatEqual_abs. Qed.
Print Assumptions C80_absolute_accepts.
Theorem C80_relative_accepts : forall g e a r, number g -> number e -> goodTol a -> number r -> goodTol r ->
  val r * Qabs (val e) < two emax -> Qabs (val g - val e) <= (1 - two (-63)) * (val r * Qabs (val e)) ->
  floatEqual g e a r = Ok true.
Proof. exact floatEqual_rel. Qed.
Print Assumptions C80_relative_accepts.
Theorem C80_sound : forall g e a r, number g -> number e -> number a -> number r -> floatEqual g e a r = Ok true ->
  Qabs (val g - val e) <= (1 + two (-63)) * val a \/
  Qabs (val g - val e) <= (1 + two (-61)) * (val r * Qabs (val e)).
Proof. exact floatEqual_sound. Qed.
Print Assumptions C80_sound.
Theorem C80_without_tolerance : forall g e, number g -> number e -> (floatEqual g e rzero rzero = Ok true <-> val g == val e).
Proof. exact floatEqual_exact. Qed.
Print Assumptions C80_without_tolerance.
Theorem C80_infinite_tolerance : forall g e r, number g -> number e -> goodTol r -> floatEqual g e (S754_infinity false) r = Ok true.
Proof. exact floatEqual_everything. Qed.
Print Assumptions C80_infinite_tolerance.

(* The comparison is not the exact one: the difference and the quotient are rounded, and the
   difference can overflow. *)
Definition big : real := S754_finite false 0x8000000000000000 1. (* 2^64 *)
Definition minusHalf : real := S754_finite true 0x8000000000000000 (-64).
Definition minusThree : real := S754_finite true 0xC000000000000000 (-62).
Definition bigPlus : real := S754_finite false 0x800000000000000A 1. (* 2^64 + 20 *)
Definition third : real := S754_finite false 0xAAAAAAAAAAAAAABA (-1). (* (2^64 + 23) / 3 *)
Theorem C80_absolute_refuted : exists g e a, number g /\ number e /\ number a /\
  floatEqual g e a rzero = Ok true /\ val a < Qabs (val g - val e).
Proof. exists big, minusHalf, big. vm_compute. repeat split; reflexivity. Qed.
Print Assumptions C80_absolute_refuted.
Theorem C80_relative_refuted : exists g e r, number g /\ number e /\ number r /\ goodTol r /\
  floatEqual g e rzero r = Ok false /\ Qabs (val g - val e) <= val r * Qabs (val e) /\ val r * Qabs (val e) < two emax.
Proof.
  exists bigPlus, minusThree, third. repeat (split; [vm_compute; repeat split; try reflexivity; discriminate|]).
  apply Qlt_le_trans with (two 100); [vm_compute; reflexivity|]. apply FloatProofs.two_le. discriminate.
Qed.
Print Assumptions C80_relative_refuted.
Theorem C80_overflow_refuted : exists g e r, number g /\ number e /\ number r /\ goodTol r /\
  floatEqual g e rzero r = Ok false /\ Qabs (val g - val e) < (1 - two (-63)) * (val r * Qabs (val e)).
Proof.
  exists (huge false), (huge true), three. split; [split; reflexivity|]. split; [split; reflexivity|]. split; [split; reflexivity|]. split; [reflexivity|]. split; [reflexivity|]. exact huge_apart.
Qed.
Print Assumptions C80_overflow_refuted.

(* 1 and 1 + 2^-20 with tolerance 2^-20 and 2^-19; 1 and 1 + 2^-19 with tolerance 2^-20 *)
Definition one : real := S754_finite false 0x8000000000000000 (-63).
Definition oneUp (k : positive) : real := S754_finite false (0x8000000000000000 + Pos.shiftl 1 (Npos k)) (-63).
Definition power (k : Z) : real := S754_finite false 0x8000000000000000 (k - 63).
Example C80_ex_hypotheses : number one /\ number (oneUp 43) /\ number (power (-20)) /\ goodTol (power (-20)) /\
  Qabs (val (oneUp 43) - val one) <= val (power (-20)) /\
  Qabs (val (oneUp 43) - val one) <= (1 - two (-63)) * (val (power (-19)) * Qabs (val one)).
Proof. vm_compute. repeat split; reflexivity || discriminate. Qed.
Example C80_ex_values : floatEqual (oneUp 43) one (power (-20)) rzero = Ok true /\ floatEqual (oneUp 43) one rzero (power (-19)) = Ok true /\
  floatEqual (oneUp 44) one (power (-20)) (power (-20)) = Ok false /\ floatEqual (oneUp 1) one rzero rzero = Ok false /\
  floatEqual one one rzero rzero = Ok true /\ floatEqual (huge false) (huge true) (S754_infinity false) rzero = Ok true.
Proof. vm_compute. repeat split; reflexivity. Qed.
