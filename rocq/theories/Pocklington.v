(* Pocklington's criterion, for proving that given numbers are prime. *)
From Coq Require Import ZArith Znumtheory Zpow_facts List Lia.
From Verif Require Import Fermat.
Import ListNotations.
Open Scope Z_scope.

Lemma mod_1_div : forall a n, 1 < n -> (a mod n = 1 <-> (n | a - 1)).
Proof.
  intros a n Hn. split; intros H.
  - exists (a / n). pose proof (Z.div_mod a n). lia.
  - destruct H as (q & H). replace a with (1 + q * n) by lia.
    rewrite Z.mod_add by lia. apply Z.mod_small. lia.
Qed.

Lemma pow_mod_1 : forall b n k, 1 < n -> 0 <= k -> b mod n = 1 -> b ^ k mod n = 1.
Proof.
  intros b n k Hn Hk H. revert k Hk. apply natlike_ind.
  - apply Z.mod_small. lia.
  - intros k Hk IH. rewrite Z.pow_succ_r by exact Hk.
    rewrite Z.mul_mod, H, IH by lia. apply Z.mod_small. lia.
Qed.

Lemma coprime_exponent : forall f m, 0 < m -> 0 < f -> rel_prime f m ->
  exists i j, 0 <= i /\ 0 <= j /\ f * i = 1 + m * j.
Proof.
  intros f m Hm Hf R. apply rel_prime_bezout in R. destruct R as [u v E].
  exists (u mod m + m).
  pose proof (Z.mod_pos_bound u m Hm). pose proof (Z.div_mod u m).
  exists (f - v - f * (u / m)).
  split; [lia|]. split; [|nia].
  assert (f * (u mod m + m) = 1 + m * (f - v - f * (u / m))) by nia. nia.
Qed.

Lemma pocklington_step : forall n f k a p, prime p -> (p | n) -> 1 < n -> prime f -> 0 < k ->
  n - 1 = f * k -> a ^ (n - 1) mod n = 1 -> Z.gcd (a ^ k mod n - 1) n = 1 -> (f | p - 1).
Proof.
  intros n f k a p Pp Dp Hn Pf Hk E Ha Hg.
  destruct (Zdivide_dec f (p - 1)) as [D|ND]; [exact D|exfalso].
  pose proof (prime_ge_2 p Pp) as Hp. pose proof (prime_ge_2 f Pf) as Hf.
  assert (A1 : a ^ (n - 1) mod p = 1).
  { apply mod_1_div; [lia|]. apply mod_1_div in Ha; [|exact Hn].
    apply Z.divide_trans with n; assumption. }
  assert (NA : ~ (p | a)).
  { intros (q & Q). assert (p | 1) as Q1.
    { replace 1 with (a ^ (n - 1) - (a ^ (n - 1) - 1)) by lia. apply Z.divide_sub_r.
      - replace (n - 1) with (Z.succ (n - 2)) by lia. rewrite Z.pow_succ_r by lia.
        apply Z.divide_mul_l. exists q. exact Q.
      - apply mod_1_div; [lia|exact A1]. }
    apply Z.divide_1_r_nonneg in Q1; lia. }
  assert (R : rel_prime f (p - 1)) by (apply prime_rel_prime; assumption).
  destruct (coprime_exponent f (p - 1)) as (i & j & Hi & Hj & IJ); [lia|lia|exact R|].
  pose proof (fermat_Z p a Pp NA) as FA.
  set (b := a ^ k).
  assert (B1 : b ^ f mod p = 1).
  { unfold b. rewrite <- Z.pow_mul_r by lia. rewrite (Z.mul_comm k f), <- E. exact A1. }
  assert (B2 : b ^ (p - 1) mod p = 1).
  { unfold b. rewrite <- Z.pow_mul_r by lia. rewrite (Z.mul_comm k).
    rewrite Z.pow_mul_r by lia. apply pow_mod_1; [lia|lia|exact FA]. }
  assert (B : b mod p = 1).
  { assert (X : b ^ (f * i) mod p = 1).
    { rewrite Z.pow_mul_r by lia. apply pow_mod_1; [lia|lia|exact B1]. }
    assert (0 <= (p - 1) * j) by (apply Z.mul_nonneg_nonneg; lia).
    rewrite IJ, Z.pow_add_r, Z.pow_1_r in X by lia.
    rewrite <- Z.mul_mod_idemp_r in X by lia. rewrite Z.pow_mul_r in X by lia.
    rewrite (pow_mod_1 (b ^ (p - 1))) in X by (exact B2 || lia).
    rewrite Z.mul_1_r in X. exact X. }
  assert (D1 : (p | Z.gcd (b mod n - 1) n)).
  { apply Z.gcd_greatest; [|exact Dp].
    replace (b mod n - 1) with ((b - 1) - n * (b / n)) by (pose proof (Z.div_mod b n); lia).
    apply Z.divide_sub_r; [apply mod_1_div; [lia|exact B]|].
    apply Z.divide_mul_l. exact Dp. }
  unfold b in D1. rewrite Hg in D1. apply Z.divide_1_r_nonneg in D1; lia.
Qed.
