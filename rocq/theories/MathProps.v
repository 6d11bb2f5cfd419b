(* Property theorems C12-C16: modular arithmetic and primes.
   Specification vocabulary: Z.modulo, Z.gcd, Z.pow, Znumtheory.prime, In, StronglySorted
   of the standard library. *)
From Verif Require Import Base MathModel MathProofs SieveProofs MathProofs2.
From Coq Require Import Znumtheory Sorted.

(* C12 *)
Theorem C12_applyMod : forall x m, is_i64 x -> 0 < m <= I64_MAX ->
  applyMod x m = Ok (x mod m).
Proof. exact applyMod_Ok. Qed.
Print Assumptions C12_applyMod.
Example C12_applyMod_ex : applyMod (-9223372036854775808) 9223372036854775807 = Ok 9223372036854775806.
Proof. vm_compute. reflexivity. Qed.

Theorem C12_mulMod : forall a b m, is_i64 a -> is_i64 b -> 0 < m <= I64_MAX ->
  mulMod a b m = Ok ((a * b) mod m).
Proof. exact (mulModWith_Ok umulMod umulMod_correct). Qed.
Print Assumptions C12_mulMod.
Example C12_mulMod_ex :
  mulMod (-9223372036854775808) 9223372036854775805 9223372036854775807 = Ok 2.
Proof. vm_compute. reflexivity. Qed.

Theorem C12_mulMod_portable : forall a b m, is_i64 a -> is_i64 b -> 0 < m <= I64_MAX ->
  mulModPortable a b m = Ok ((a * b) mod m).
Proof. exact (mulModWith_Ok umulModPortable umulModPortable_correct). Qed.
Print Assumptions C12_mulMod_portable.
Example C12_mulMod_portable_ex :
  mulModPortable (-9223372036854775808) 9223372036854775805 9223372036854775807 = Ok 2.
Proof. vm_compute. reflexivity. Qed.

(* rejected exactly for non-positive moduli *)
Theorem C12_mulMod_throws : forall a b m, is_i64 a -> is_i64 b -> is_i64 m ->
  (mulMod a b m = Throw <-> m <= 0).
Proof. exact mulMod_throws. Qed.
Print Assumptions C12_mulMod_throws.
Example C12_mulMod_throws_ex : mulMod 3 4 0 = Throw.
Proof. vm_compute. reflexivity. Qed.

(* C13: exact power residue, except for the corner 0 = exp, mod = 1 *)
Theorem C13_powMod : forall b e m, is_i64 b -> 0 <= e <= I64_MAX -> 0 < m <= I64_MAX ->
  ~ (e = 0 /\ m = 1) ->
  powMod b e m = Ok (b ^ e mod m) /\ powModPortable b e m = Ok (b ^ e mod m).
Proof. exact powMod_both. Qed.
Print Assumptions C13_powMod.
Example C13_powMod_ex :
  powMod (-3) 9223372036854775807 9223372036854775783 = Ok 9223371189566166340.
Proof. vm_compute. reflexivity. Qed.

(* full claim "powMod lies in [0, mod)" fails: anything^0 modulo 1 is returned as 1 *)
Theorem C13_powMod_range_refuted : exists b e m r,
  is_i64 b /\ 0 <= e <= I64_MAX /\ 0 < m <= I64_MAX /\ powMod b e m = Ok r /\ ~ (0 <= r < m).
Proof. exact powMod_range_refuted. Qed.
Print Assumptions C13_powMod_range_refuted.

(* C14: inverse or -1, no overflow, for non-negative n *)
Theorem C14_multInv : forall n m, 0 <= n <= I64_MAX -> 0 < m <= I64_MAX ->
  (Z.gcd n m = 1 -> exists x, multInv n m = Ok x /\ 0 <= x < m /\ (n * x) mod m = 1 mod m) /\
  (Z.gcd n m <> 1 -> multInv n m = Ok (-1)).
Proof. exact multInv_nonneg. Qed.
Print Assumptions C14_multInv.
Example C14_multInv_ex : multInv 3 7 = Ok 5 /\ multInv 6 9 = Ok (-1) /\
  multInv 9223372036854775806 9223372036854775807 = Ok 9223372036854775806.
Proof. vm_compute. repeat split. Qed.

(* the claim for all n is false: -1 is invertible modulo 5 but -1 is returned *)
Theorem C14_multInv_negative_refuted : exists n m x,
  is_i64 n /\ 0 < m <= I64_MAX /\ 0 <= x < m /\ (n * x) mod m = 1 mod m /\
  multInv n m = Ok (-1).
Proof. exact multInv_negative_refuted. Qed.
Print Assumptions C14_multInv_negative_refuted.

(* C15 *)
Theorem C15_isPrime_total : forall n, is_i64 n -> exists b, isPrime n = Ok b.
Proof. exact (isPrimeWith_total umulMod umulMod_correct). Qed.
Print Assumptions C15_isPrime_total.
Example C15_isPrime_total_ex : isPrime (-9223372036854775808) = Ok false.
Proof. vm_compute. reflexivity. Qed.

Theorem C15_isPrime_accepts_primes : forall n, prime n -> n <= I64_MAX ->
  isPrime n = Ok true /\ isPrimePortable n = Ok true.
Proof. exact isPrime_accepts_primes. Qed.
Print Assumptions C15_isPrime_accepts_primes.
Example C15_isPrime_accepts_primes_ex : isPrime 9223372036854775783 = Ok true.
Proof. vm_compute. reflexivity. Qed.

Theorem C15_isPrime_small_factors : forall n, isPrime n = Ok true ->
  2 <= n /\ forall p, prime p -> p <= 131 -> (p | n) -> p = n.
Proof. exact (isPrimeWith_factor umulMod). Qed.
Print Assumptions C15_isPrime_small_factors.
Example C15_isPrime_small_factors_ex : isPrime (131 * 137) = Ok false /\ isPrime 131 = Ok true.
Proof. vm_compute. split; reflexivity. Qed.

Theorem C15_isPrime_exact_small : forall n, is_i64 n -> n < 18769 ->
  (isPrime n = Ok true <-> prime n).
Proof. exact isPrime_exact_small. Qed.
Print Assumptions C15_isPrime_exact_small.
Example C15_isPrime_exact_small_ex : isPrime 18757 = Ok true /\ isPrime 17947 = Ok false.
Proof. vm_compute. split; reflexivity. Qed.

(* What is proved of the converse for all 64-bit n: an accepted n above 131 is a Fermat
   probable prime to base 132 and a strong probable prime to each of the seven bases of
   the published base set. Missing: that no composite below 2^63 is, which rests on an
   exhaustive search by others. *)
Theorem C15_isPrime_sound_partial : forall n, is_i64 n -> 131 < n -> isPrime n = Ok true ->
  132 ^ (n - 1) mod n = 1 /\
  forall a, In a [2; 325; 9375; 28178; 450775; 9780504; 1795265022] ->
    (n | a) \/
    exists d s, 0 <= s /\ d mod 2 = 1 /\ n - 1 = d * 2 ^ s /\
      (a ^ d mod n = 1 \/ exists r, 0 <= r < s /\ a ^ (d * 2 ^ r) mod n = n - 1).
Proof. exact isPrime_sprp. Qed.
Print Assumptions C15_isPrime_sound_partial.
Example C15_isPrime_sound_ex : isPrime 3215031751 = Ok false. (* sprp to 2, 3, 5, 7 *)
Proof. vm_compute. reflexivity. Qed.

(* both platform branches of isPrime give the same answer *)
Theorem C15_isPrime_portable : forall n, is_i64 n -> isPrimePortable n = isPrime n.
Proof. exact isPrime_portable_eq. Qed.
Print Assumptions C15_isPrime_portable.

(* C16: window lo..up = the range clipped at 2; no primes missing, all values in range,
   sorted; every listed value below (range width)^2 is proved prime, larger ones pass
   isPrime. *)
Theorem C16_primes : forall lower upper,
  is_i64 lower -> is_i64 upper -> lower < upper ->
  let lo := Z.max 2 lower in let up := Z.max 2 upper in let count := up - lo in
  count <= 1073741823 -> up + 2 * count <= I64_MAX ->
  exists l, primes lower upper = Ok l /\ StronglySorted Z.lt l /\
    (forall n, prime n -> lower <= n < upper -> In n l) /\
    (forall n, In n l -> lower <= n < upper /\ isPrime n = Ok true /\
                         (n < count * count -> prime n)).
Proof. exact (primesWith_Ok umulMod umulMod_correct). Qed.
Print Assumptions C16_primes.
Example C16_primes_ex : primes 100 150 = Ok [101; 103; 107; 109; 113; 127; 131; 137; 139; 149].
Proof. vm_compute. reflexivity. Qed.

(* primes(upper) with upper <= 2^30 - 1 is complete without reference to isPrime *)
Theorem C16_primes_upto : forall upper, 4 <= upper <= 1073741823 ->
  exists l, primes 0 upper = Ok l /\ StronglySorted Z.lt l /\
    forall n, In n l <-> prime n /\ n < upper.
Proof. exact primes_upto. Qed.
Print Assumptions C16_primes_upto.
Example C16_primes_upto_ex : primes 0 30 = Ok [2; 3; 5; 7; 11; 13; 17; 19; 23; 29].
Proof. vm_compute. reflexivity. Qed.

(* without the width restriction the claim is false: near 2^63 the step overflows *)
Theorem C16_primes_overflow_refuted : exists lower upper,
  is_i64 lower /\ is_i64 upper /\ lower < upper /\ upper - lower <= 1073741823 /\
  primes lower upper = UB.
Proof. exact primes_overflow_refuted. Qed.
Print Assumptions C16_primes_overflow_refuted.

(* and for every range wider than 0x3FFFFFFF + 6 the segment array is accessed out of
   bounds *)
Theorem C16_primes_wide_refuted : forall lower upper,
  is_i64 lower -> is_i64 upper -> Z.max 2 upper - Z.max 2 lower > 1073741823 + 6 ->
  primes lower upper = UB.
Proof. exact primes_wide_refuted. Qed.
Print Assumptions C16_primes_wide_refuted.
Example C16_primes_wide_ex : is_i64 0 /\ is_i64 2000000000 /\
  Z.max 2 2000000000 - Z.max 2 0 > 1073741823 + 6.
Proof. unfold is_i64, I64_MIN, I64_MAX, two63; lia. Qed.
