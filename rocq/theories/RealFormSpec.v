(* The formulas of the continuous distributions, in the arithmetic of Real. *)
From Verif Require Import Base RndModel FloatModel RealModel.
From Coq Require Import QArith ZArith SpecFloat.
Open Scope Z_scope.

(* the Real nearest to a full turn *)
Definition fullTurn : real := S754_finite false 0xC90FDAA22168C235 (-61).
(* the method of Box and Muller with cos or sin as trig; stddev enters with its square root *)
Definition boxMuller (sqrt trig log : real -> real) (mean stddev : real) (u : real * real) : real :=
  radd (rmul (sqrt stddev) (rmul (sqrt (rmul (ofZ (-2)) (log (fst u)))) (trig (rmul fullTurn (snd u))))) mean.
(* k results of real(), one after the other *)
Fixpoint reals (fuel k : nat) : rnd (list real) :=
  match k with
  | O => ret []
  | S k => let? u := randomReal fuel in let? us := reals fuel k in ret (u :: us)
  end.
(* the same in pairs *)
Fixpoint inPairs (us : list real) : list (real * real) :=
  match us with u1 :: u2 :: us => (u1, u2) :: inPairs us | _ => [] end.
