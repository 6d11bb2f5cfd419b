(* Random::nonCollinearPoints of validate.h. *)
From Coq Require Import ZArith Znumtheory List Lia.
From Verif Require Import Base RndModel MathModel RandSeqModel CollModel CollSpec CollProofs.
Import ListNotations.
Open Scope Z_scope.

(* C67: a call with valid arguments throws or returns n points in the square. If the modulus p is
   a prime that is 3 modulo 4, or if p does not divide rotA^2 + rotB^2, they are
   distinct and no three of them are on a line. (Fuel bounds the loop that draws
   rotA and rotB until one of them is not 0.) *)
Theorem C67_nonCollinearPoints : forall fuel n dim, 0 <= n < dim -> dim <= 0x1FFFFFFF ->
  always (nonCollinearPoints fuel n dim) (fun o => o = Throw \/ o = Fuel \/ exists l, o = Ok l /\
    Z.of_nat (length l) = n /\ Forall (fun q => Z.abs (fst q) < dim /\ Z.abs (snd q) < dim) l /\
    exists p A B, n <= p < 2 * dim - 1 /\ isPrime p = Ok true /\ 0 <= A < p /\ 0 <= B < p /\ ~ (A = 0 /\ B = 0) /\
      (prime p -> p mod 4 = 3 \/ ~ (p | A * A + B * B) -> NoDup l /\ noThreeCollinear l)).
Proof. exact nonCollinear_always. Qed.
Print Assumptions C67_nonCollinearPoints.
Example C67_ex : play (nonCollinearPoints 2 4 5) [3; 0; 0; 1; 3; 2; 1; 0; -4; -3; 0; 1; 2; 3] =
  Ok [(-4, -3); (2, 3); (-4, -1); (-1, -1)] /\ 7 mod 4 = 3.
Proof. split; vm_compute; reflexivity. Qed.

(* Invalid arguments are rejected. *)
Theorem C67_throws : forall fuel n dim, 0x1FFFFFFF < dim \/ n < 0 \/ dim <= n ->
  nonCollinearPoints fuel n dim = RRet Throw.
Proof. exact nonCollinear_throws. Qed.
Print Assumptions C67_throws.
Example C67_ex_throws : nonCollinearPoints 5 4 4 = RRet Throw.
Proof. reflexivity. Qed.

(* Without the condition on p the points can coincide, *)
Theorem C67_distinct_refuted : exists fuel n dim l, 0 <= n < dim /\ dim <= 0x1FFFFFFF /\
  can (nonCollinearPoints fuel n dim) (Ok l) /\ ~ NoDup l.
Proof. exact nonCollinear_dup. Qed.
Print Assumptions C67_distinct_refuted.
(* or be distinct and on one line; *)
Theorem C67_collinear_refuted : exists fuel n dim l, 0 <= n < dim /\ dim <= 0x1FFFFFFF /\
  can (nonCollinearPoints fuel n dim) (Ok l) /\ NoDup l /\
  exists i j k, (i < j)%nat /\ (j < k)%nat /\ (k < length l)%nat /\
    orient (nth i l (0, 0)) (nth j l (0, 0)) (nth k l (0, 0)) = 0.
Proof. exact nonCollinear_line. Qed.
Print Assumptions C67_collinear_refuted.
(* and a call with valid arguments can throw. *)
Theorem C67_throws_refuted : exists fuel n dim, 0 <= n < dim /\ dim <= 0x1FFFFFFF /\
  can (nonCollinearPoints fuel n dim) Throw.
Proof. exact nonCollinear_throw. Qed.
Print Assumptions C67_throws_refuted.
