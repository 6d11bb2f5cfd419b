(* The period of the engine of rng.h. *)
From Coq Require Import ZArith NArith List.
From Verif Require Import RngModel RngSpec RngProofs RngProofs5.
Import ListNotations.
Open Scope Z_scope.

(* C61: the state of every engine but the all-zero one comes back after n calls
   exactly for the multiples n of 2^256 - 1, *)
Theorem C61_period : forall s n, valid s -> s <> zero ->
  (after n s = s <-> (2 ^ 256 - 1 | n)%N).
Proof. exact period. Qed.
Print Assumptions C61_period.

(* and every other state but the all-zero one is visited meanwhile. *)
Theorem C61_visits : forall s t, valid s -> s <> zero -> valid t -> t <> zero ->
  exists n, (n < 2 ^ 256 - 1)%N /\ after n s = t.
Proof. exact visits. Qed.
Print Assumptions C61_visits.

(* Within one period every quadruple of words is returned by four consecutive
   calls exactly once, except for four zeros, *)
Theorem C61_outputs : forall s, valid s -> s <> zero ->
  forall r0 r1 r2 r3, word r0 -> word r1 -> word r2 -> word r3 ->
  [r0; r1; r2; r3] <> [0; 0; 0; 0] ->
  exists n, ((n < 2 ^ 256 - 1)%N /\ outputs 4 (after n s) = [r0; r1; r2; r3]) /\
    forall k, (k < 2 ^ 256 - 1)%N -> outputs 4 (after k s) = [r0; r1; r2; r3] -> k = n.
Proof. exact visits_outputs. Qed.
Print Assumptions C61_outputs.

(* which are never returned. *)
Theorem C61_zeros : forall s n, valid s -> s <> zero ->
  outputs 4 (after n s) <> [0; 0; 0; 0].
Proof. exact never_four_zeros. Qed.
Print Assumptions C61_zeros.

(* jump() makes disjoint streams: the 2^128 states following a jumps differ
   from the 2^128 states following b jumps. *)
Theorem C61_streams : forall s a b i j, valid s -> s <> zero ->
  (a < 2 ^ 128 - 1)%N -> (b < 2 ^ 128 - 1)%N -> (i < 2 ^ 128)%N -> (j < 2 ^ 128)%N ->
  after i (N.iter a jump s) = after j (N.iter b jump s) -> a = b /\ i = j.
Proof. exact streams. Qed.
Print Assumptions C61_streams.

Example C61_ex : valid (St 1 2 3 4) /\ St 1 2 3 4 <> zero /\
  after 3 (St 1 2 3 4) <> St 1 2 3 4 /\ word 11520 /\ word 0.
Proof. vm_compute. repeat split; discriminate. Qed.
