(* C15, C16: what isPrime accepts, exactly, and what primes lists. *)
From Coq Require Import Sorted Znumtheory.
From Verif Require Import Base MathModel PrimeSpec PrimeProofs.

(* up to 131 the primes; above, what has no small divisor, is a Fermat probable prime to
   base 132 and a strong probable prime to the seven bases (or divides the base) *)
Theorem C15_isPrime_iff : forall n, is_i64 n ->
  (isPrime n = Ok true <-> (n <= 131 /\ prime n) \/ (131 < n /\ passes n)).
Proof. exact isPrime_iff. Qed.
Print Assumptions C15_isPrime_iff.
Example C15_isPrime_iff_ex :
  isPrime 137 = Ok true /\ isPrime 127 = Ok true /\ isPrime 133 = Ok false /\ isPrime (1093 * 1093) = Ok false /\
  sprp 2047 2 /\ isPrime 2047 = Ok false.
Proof.
  repeat split; try (vm_compute; reflexivity). exists 1023, 1.
  split; [discriminate|]. split; [reflexivity|]. split; [reflexivity|]. left. vm_compute. reflexivity.
Qed.

(* so isPrime is right for all Integers exactly if no composite passes these tests *)
Theorem C15_isPrime_right_iff :
  (forall n, is_i64 n -> isPrime n = Ok true -> prime n) <->
  (forall n, 131 < n <= I64_MAX -> passes n -> prime n).
Proof. exact isPrime_right_iff. Qed.
Print Assumptions C15_isPrime_right_iff.

(* below 137^3 none does *)
Theorem C15_isPrime_exact : forall n, is_i64 n -> n < 2571353 -> (isPrime n = Ok true <-> prime n).
Proof. exact isPrime_exact. Qed.
Print Assumptions C15_isPrime_exact.
Example C15_isPrime_exact_ex : isPrime 2571349 = Ok false /\ isPrime 2571343 = Ok false /\ isPrime 1000003 = Ok true.
Proof. vm_compute. auto. Qed.

(* ---- C16 ---- *)
(* no prime is missing, and a listed number that is not prime is at least 137^3 and the
   square of the width of the range and passes all tests of isPrime *)
Theorem C16_primes_listed : forall lower upper,
  is_i64 lower -> is_i64 upper -> lower < upper ->
  let lo := Z.max 2 lower in let up := Z.max 2 upper in let count := up - lo in
  count <= 1073741823 -> up + 2 * count <= I64_MAX ->
  exists l, primes lower upper = Ok l /\ StronglySorted Z.lt l /\
    (forall n, prime n -> lower <= n < upper -> In n l) /\
    (forall n, In n l -> lower <= n < upper /\
       (prime n \/ (2571353 <= n /\ count * count <= n /\ passes n))).
Proof. exact primes_listed. Qed.
Print Assumptions C16_primes_listed.
Theorem C16_primes_exact : forall lower upper,
  is_i64 lower -> is_i64 upper -> lower < upper ->
  let lo := Z.max 2 lower in let up := Z.max 2 upper in let count := up - lo in
  count <= 1073741823 -> up + 2 * count <= I64_MAX ->
  upper <= 2571353 \/ upper <= count * count ->
  exists l, primes lower upper = Ok l /\ StronglySorted Z.lt l /\
    (forall n, In n l <-> prime n /\ lower <= n < upper).
Proof. exact primes_exact. Qed.
Print Assumptions C16_primes_exact.
(* 1194649 = 1093^2 is a strong probable prime to base 2 *)
Example C16_primes_exact_ex : primes 1194640 1194700 = Ok [1194659; 1194667; 1194671; 1194679].
Proof. vm_compute. reflexivity. Qed.
