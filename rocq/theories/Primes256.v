(* The prime factors of 2^256 - 1. *)
From Coq Require Import ZArith Znumtheory Zpow_facts List Bool Lia.
From Verif Require Import Fermat MathProofs Pocklington.
Import ListNotations.
Open Scope Z_scope.

Definition certifies (n f k a : Z) : bool :=
  (1 <? n) && (0 <? k) && (n - 1 =? f * k) && (Zpow_mod a (n - 1) n =? 1) &&
  (Z.gcd (Zpow_mod a k n - 1) n =? 1).

Lemma certifies_div : forall n f k a p, certifies n f k a = true -> prime f ->
  prime p -> (p | n) -> (f | p - 1).
Proof.
  intros n f k a p C Pf Pp D. unfold certifies in C.
  rewrite !andb_true_iff, !Z.ltb_lt, !Z.eqb_eq in C. destruct C as ((((A & B) & C) & E) & F).
  rewrite Zpow_mod_correct in E, F by lia.
  apply (pocklington_step n f k a); assumption.
Qed.

Lemma no_small_factor : forall n, 2 <= n -> (forall p, prime p -> (p | n) -> n < p * p) -> prime n.
Proof.
  intros n Hn H. destruct (prime_dec n) as [P|NP]; [exact P|exfalso].
  destruct (composite_small_factor n Hn NP) as (p & Pp & D & L).
  specialize (H p Pp D). lia.
Qed.

Lemma pocklington : forall f n k a, prime f -> certifies n f k a = true -> n < f * f -> prime n.
Proof.
  intros f n k a Pf C L. apply no_small_factor.
  - unfold certifies in C. rewrite !andb_true_iff, Z.ltb_lt in C. lia.
  - intros p Pp D. pose proof (certifies_div n f k a p C Pf Pp D) as Q.
    pose proof (prime_ge_2 p Pp). pose proof (prime_ge_2 f Pf).
    assert (f <= p - 1) by (apply Z.divide_pos_le; [lia|exact Q]).
    assert (f * f <= (p - 1) * (p - 1)) by (apply Z.mul_le_mono_nonneg; lia). lia.
Qed.

Lemma pocklington2 : forall f g n k l a b, prime f -> prime g -> f <> g ->
  certifies n f k a = true -> certifies n g l b = true -> n < f * g * (f * g) -> prime n.
Proof.
  intros f g n k l a b Pf Pg Nfg C C' L. apply no_small_factor.
  - unfold certifies in C. rewrite !andb_true_iff, Z.ltb_lt in C. lia.
  - intros p Pp D. pose proof (certifies_div n f k a p C Pf Pp D) as Q.
    pose proof (certifies_div n g l b p C' Pg Pp D) as Q'.
    pose proof (prime_ge_2 p Pp). pose proof (prime_ge_2 f Pf). pose proof (prime_ge_2 g Pg).
    assert (R : rel_prime f g).
    { apply prime_rel_prime; [exact Pf|]. intros D'. apply prime_div_prime in D'; auto. }
    destruct Q as (q & Q). rewrite Q in Q'. apply Gauss in Q'; [|apply rel_prime_sym; exact R]
      || (rewrite Z.mul_comm in Q'; apply Gauss in Q'; [|apply rel_prime_sym; exact R]).
    destruct Q' as (r & Q'). 
    assert (f * g <= p - 1).
    { apply Z.divide_pos_le; [lia|]. exists r. rewrite Q, Q'. ring. }
    assert (0 <= f * g) by (apply Z.mul_nonneg_nonneg; lia).
    assert (f * g * (f * g) <= (p - 1) * (p - 1)) by (apply Z.mul_le_mono_nonneg; lia). lia.
Qed.

(* trial division *)
Fixpoint noDivisor (fuel : nat) (d n : Z) : bool :=
  match fuel with
  | O => true
  | S fuel => negb (n mod d =? 0) && noDivisor fuel (d + 1) n
  end.

Lemma noDivisor_spec : forall fuel d n, 0 < d -> noDivisor fuel d n = true ->
  forall e, d <= e < d + Z.of_nat fuel -> ~ (e | n).
Proof.
  induction fuel as [|fuel IH]; intros d n Hd H e He; [lia|].
  cbn [noDivisor] in H. apply andb_true_iff in H. destruct H as (A & B).
  destruct (Z.eq_dec e d) as [->|Ne].
  - intros D. apply Z.mod_divide in D; [|lia]. rewrite D in A. discriminate.
  - apply (IH (d + 1) n); [lia|exact B|lia].
Qed.

Lemma trial_prime : forall k n, 2 <= n -> 0 <= k -> n < (k + 2) * (k + 2) ->
  noDivisor (Z.to_nat k) 2 n = true -> prime n.
Proof.
  intros k n Hn Hk L H. apply no_small_factor; [exact Hn|].
  intros p Pp D. pose proof (prime_ge_2 p Pp).
  destruct (Z_lt_le_dec p (k + 2)) as [Lp|Lp]; [|nia].
  exfalso. apply (noDivisor_spec (Z.to_nat k) 2 n) with p; [lia|exact H|lia|exact D].
Qed.

Ltac trial k := apply (trial_prime k); [lia|lia|lia|vm_compute; reflexivity].

Lemma prime_3 : prime 3. Proof. trial 0. Qed.
Lemma prime_5 : prime 5. Proof. trial 1. Qed.
Lemma prime_17 : prime 17. Proof. trial 3. Qed.
Lemma prime_257 : prime 257. Proof. trial 15. Qed.
Lemma prime_373 : prime 373. Proof. trial 18. Qed.
Lemma prime_641 : prime 641. Proof. trial 24. Qed.
Lemma prime_65537 : prime 65537. Proof. trial 255. Qed.
Lemma prime_274177 : prime 274177. Proof. trial 522. Qed.
Lemma prime_6700417 : prime 6700417. Proof. trial 2587. Qed.
Lemma prime_1896229 : prime 1896229. Proof. trial 1376. Qed.
Lemma prime_2998279 : prime 2998279. Proof. trial 1730. Qed.
Lemma prime_55515497 : prime 55515497. Proof. trial 7450. Qed.

Lemma prime_733803839347 : prime 733803839347.
Proof. apply (pocklington 55515497 _ 13218 2 prime_55515497); [vm_compute; reflexivity|lia]. Qed.

Lemma prime_18533742247 : prime 18533742247.
Proof. apply (pocklington 1896229 _ 9774 2 prime_1896229); [vm_compute; reflexivity|lia]. Qed.

Lemma prime_116503103764643 : prime 116503103764643.
Proof. apply (pocklington 18533742247 _ 6286 2 prime_18533742247); [vm_compute; reflexivity|lia]. Qed.

Lemma prime_59649589127497217 : prime 59649589127497217.
Proof.
  apply (pocklington 116503103764643 _ 512 3 prime_116503103764643); [vm_compute; reflexivity|lia].
Qed.

Lemma prime_5704689200685129054721 : prime 5704689200685129054721.
Proof.
  apply (pocklington 733803839347 _ 7774133760 3 prime_733803839347); [vm_compute; reflexivity|lia].
Qed.

Lemma prime_67280421310721 : prime 67280421310721.
Proof.
  apply (pocklington2 2998279 373 _ 22439680 180376464640 3 3 prime_2998279 prime_373);
    [lia|vm_compute; reflexivity|vm_compute; reflexivity|lia].
Qed.

Definition factors : list Z :=
  [3; 5; 17; 257; 641; 65537; 274177; 6700417; 67280421310721; 59649589127497217;
   5704689200685129054721].

Lemma factors_prime : Forall prime factors.
Proof.
  unfold factors.
  repeat (apply Forall_cons; [first [exact prime_3|exact prime_5|exact prime_17|exact prime_257|
    exact prime_641|exact prime_65537|exact prime_274177|exact prime_6700417|
    exact prime_67280421310721|exact prime_59649589127497217|
    exact prime_5704689200685129054721]|]).
  apply Forall_nil.
Qed.

Lemma factors_product : fold_right Z.mul 1 factors = 2 ^ 256 - 1.
Proof. vm_compute. reflexivity. Qed.

Lemma prime_in_product : forall p l, prime p -> Forall prime l -> (p | fold_right Z.mul 1 l) -> In p l.
Proof.
  intros p l Pp F. induction F as [|q l Pq F IH]; intros D; cbn [fold_right] in D.
  - apply Z.divide_1_r_nonneg in D; pose proof (prime_ge_2 p Pp); lia.
  - apply prime_mult in D; [|exact Pp]. destruct D as [D|D]; [left|right; auto].
    symmetry. apply prime_div_prime; assumption.
Qed.

(* the prime factors of 2^256 - 1 *)
Lemma prime_factors_256 : forall p, prime p -> (p | 2 ^ 256 - 1) -> In p factors.
Proof.
  intros p Pp D. apply prime_in_product; [exact Pp|exact factors_prime|].
  rewrite factors_product. exact D.
Qed.
