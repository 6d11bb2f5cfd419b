(* Strong probable primes, for what isPrime accepts. *)
From Verif Require Import Base.

(* n passes the test of Miller and Rabin for base a *)
Definition sprp (n a : Z) : Prop :=
  exists d s, 0 <= s /\ d mod 2 = 1 /\ n - 1 = d * 2 ^ s /\
    (a ^ d mod n = 1 \/ exists r, 0 <= r < s /\ a ^ (d * 2 ^ r) mod n = n - 1).

Definition BASES : list Z := [2; 325; 9375; 28178; 450775; 9780504; 1795265022].

(* no prime up to 131 divides n *)
Definition rough (n : Z) : Prop := forall p, 2 <= p <= 131 -> ~ (p | n).

(* n passes all tests for numbers above 131 *)
Definition passes (n : Z) : Prop :=
  rough n /\ 132 ^ (n - 1) mod n = 1 /\ forall a, In a BASES -> (n | a) \/ sprp n a.
