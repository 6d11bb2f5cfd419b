(* What is said about Random::prime: the numbers that can be drawn and those that isPrime takes. *)
From Verif Require Import Base MathModel.

(* the numbers of [lower, upper) that are 2 or odd and greater *)
Definition drawable (lower upper v : Z) : Prop := lower <= v < upper /\ (v = 2 \/ 2 < v /\ Z.odd v = true).
Definition taken (v : Z) : bool := match isPrime v with Ok true => true | _ => false end.
Definition thrown {A} (o : outcome A) : bool := match o with Throw => true | _ => false end.
