(* The period of xoshiro256** and what it visits. *)
From Coq Require Import ZArith NArith Znumtheory FinFun List Bool Lia.
From Verif Require Import RngModel RngSpec RngProofs RngProofs2 RngProofs3 RngProofs4 MathProofs Primes256.
Import ListNotations.
Open Scope Z_scope.

(* ----------------------------------------------------------- the order *)

Lemma after_mul_fix : forall n s, after n s = s -> forall k, after (n * k) s = s.
Proof.
  intros n s H k. induction k as [|k IH] using N.peano_ind; [rewrite N.mul_0_r; reflexivity|].
  rewrite N.mul_succ_r, after_add, H. exact IH.
Qed.

Lemma after_gcd : forall s a b, after a s = s -> after b s = s ->
  after (N.gcd a b) s = s.
Proof.
  intros s a b Ha Hb.
  destruct (N.eq_dec a 0) as [->|Na]; [rewrite N.gcd_0_l; exact Hb|].
  destruct (N.gcd_bezout_pos a b) as (u & v & E); [apply N.neq_0_lt_0; exact Na|].
  pose proof (after_mul_fix a s Ha u) as A. pose proof (after_mul_fix b s Hb v) as B.
  rewrite N.mul_comm, E, after_add, (N.mul_comm v b), B in A. exact A.
Qed.

Lemma prime_divisor : forall n, 2 <= n -> exists p, prime p /\ (p | n).
Proof.
  intros n Hn. destruct (prime_dec n) as [P|NP].
  - exists n. split; [exact P|apply Z.divide_refl].
  - destruct (composite_small_factor n Hn NP) as (p & P & D & _). exists p. auto.
Qed.

Lemma factors_move : forall q, In q factors -> moves (N256 / Z.to_N q).
Proof.
  intros q I. unfold factors in I. cbn [In] in I.
  destruct I as [<-|[<-|[<-|[<-|[<-|[<-|[<-|[<-|[<-|[<-|[<-|[]]]]]]]]]]]].
  - exact moves3.
  - exact moves5.
  - exact moves17.
  - exact moves257.
  - exact moves641.
  - exact moves65537.
  - exact moves274177.
  - exact moves6700417.
  - exact moves67280421310721.
  - exact moves59649589127497217.
  - exact moves5704689200685129054721.
Qed.

Lemma N256_Z : Z.of_N N256 = 2 ^ 256 - 1.
Proof. reflexivity. Qed.

(* abstract over the number: no unfolding of N256 *)
Lemma order_exact : forall M s, (0 < M)%N -> after M s = s ->
  (forall q, prime q -> (q | Z.of_N M) -> moves (M / Z.to_N q)) ->
  valid s -> s <> zero -> forall n, after n s = s -> (M | n)%N.
Proof.
  intros M s HM P W V NZ n E.
  pose proof (after_gcd s n M E P) as G.
  destruct (N.gcd_divide_r n M) as (r & R). destruct (N.gcd_divide_l n M) as (u & U).
  set (g := N.gcd n M) in *.
  destruct (N.eq_dec r 1) as [->|Nr].
  - rewrite N.mul_1_l in R. exists u. rewrite R. exact U.
  - exfalso. apply NZ.
    assert (Hr : 2 <= Z.of_N r).
    { destruct (N.eq_dec r 0) as [->|]; [rewrite N.mul_0_l in R; lia|lia]. }
    destruct (prime_divisor (Z.of_N r) Hr) as (q & Pq & (k & K)).
    pose proof (prime_ge_2 q Pq) as Hq.
    assert (Hk : 0 <= k) by (apply Z.mul_nonneg_cancel_r with q; lia).
    apply (W q Pq); [|exact V|].
    + rewrite R, N2Z.inj_mul, K. exists (k * Z.of_N g). ring.
    + assert (EM : (M = g * Z.to_N k * Z.to_N q)%N).
      { apply N2Z.inj. rewrite R, !N2Z.inj_mul, K, !Z2N.id by lia. ring. }
      rewrite EM, N.div_mul by lia. apply after_mul_fix. exact G.
Qed.

Lemma period : forall s n, valid s -> s <> zero -> (after n s = s <-> (N256 | n)%N).
Proof.
  intros s n V NZ. split.
  - apply order_exact; [reflexivity|apply after_period; exact V| |exact V|exact NZ].
    intros q Pq D. apply factors_move. apply prime_factors_256; [exact Pq|].
    rewrite <- N256_Z. exact D.
  - intros (k & ->). rewrite N.mul_comm. apply after_mul_fix. apply after_period. exact V.
Qed.

Lemma after_distinct' : forall M s, (forall n, after n s = s -> (M | n)%N) -> valid s ->
  forall i j, (i < M -> j < M -> after i s = after j s -> i = j)%N.
Proof.
  intros M s P V.
  assert (G : forall i d, (i + d < M)%N -> after i s = after (i + d) s -> d = 0%N).
  { intros i d L E. rewrite after_add in E.
    apply after_inj in E; [|exact V|apply after_valid; exact V].
    symmetry in E. apply P in E. destruct E as (k & E).
    destruct (N.eq_dec k 0) as [->|Nk]; [exact E|]. nia. }
  intros i j Hi Hj E. destruct (N.le_ge_cases i j) as [L|L].
  - specialize (G i (j - i)%N). replace (i + (j - i))%N with j in G by lia.
    specialize (G Hj E). lia.
  - specialize (G j (i - j)%N). replace (j + (i - j))%N with i in G by lia.
    specialize (G Hi (eq_sym E)). lia.
Qed.

Lemma after_distinct : forall s, valid s -> s <> zero ->
  forall i j, (i < N256 -> j < N256 -> after i s = after j s -> i = j)%N.
Proof.
  intros s V NZ. apply after_distinct'; [|exact V].
  intros n E. apply (period s n V NZ). exact E.
Qed.

(* ---------------------------------------------- every state is visited *)

(* a state as one number *)
Definition enc (s : state) : Z :=
  match s with St a b c d => a + 2 ^ 64 * (b + 2 ^ 64 * (c + 2 ^ 64 * d)) end.

Lemma enc_inj : forall s t, valid s -> valid t -> enc s = enc t -> s = t.
Proof.
  intros [a b c d] [a' b' c' d'] (A & B & C & D) (A' & B' & C' & D') E.
  unfold enc, word in *. change (2 ^ 64) with 18446744073709551616 in *.
  assert (a = a') by lia. subst. f_equal; lia.
Qed.

Lemma enc_range : forall s, valid s -> s <> zero -> 1 <= enc s <= 2 ^ 256 - 1.
Proof.
  intros [a b c d] (A & B & C & D) NZ. unfold enc, word in *.
  change (2 ^ 256 - 1) with (18446744073709551616 * (18446744073709551616 *
    (18446744073709551616 * 18446744073709551616)) - 1).
  change (2 ^ 64) with 18446744073709551616 in *.
  split; [|lia].
  destruct (Z.eq_dec a 0) as [->|]; [|lia]. destruct (Z.eq_dec b 0) as [->|]; [|lia].
  destruct (Z.eq_dec c 0) as [->|]; [|lia]. destruct (Z.eq_dec d 0) as [->|]; [|lia].
  contradiction NZ. reflexivity.
Qed.

(* an injective sequence of M numbers between 1 and M hits all of them *)
Lemma pigeon : forall (M : N) (f : N -> Z),
  (forall i, (i < M)%N -> 1 <= f i <= Z.of_N M) ->
  (forall i j, (i < M)%N -> (j < M)%N -> f i = f j -> i = j) ->
  forall y, 1 <= y <= Z.of_N M -> exists i, (i < M)%N /\ f i = y.
Proof.
  intros M f R I y Hy.
  set (n := N.to_nat M). set (g := fun i => Z.to_nat (f (N.of_nat i) - 1)).
  assert (F : bFun n g).
  { intros i Hi. unfold g. specialize (R (N.of_nat i)). unfold n in *. lia. }
  assert (J : bInjective n g).
  { intros i j Hi Hj E. unfold g in E.
    pose proof (R (N.of_nat i)). pose proof (R (N.of_nat j)).
    specialize (I (N.of_nat i) (N.of_nat j)). unfold n in *. lia. }
  destruct (bInjective_bSurjective F) as (H & _). specialize (H J).
  destruct (H (Z.to_nat (y - 1))) as (i & Hi & E); [unfold n; lia|].
  exists (N.of_nat i). unfold n in Hi. split; [lia|].
  unfold g in E. specialize (R (N.of_nat i)). lia.
Qed.

Lemma after_NZ : forall n s, valid s -> s <> zero -> after n s <> zero.
Proof. intros n s V NZ E. apply NZ. apply (after_nonzero n s V E). Qed.

Lemma visits : forall s t, valid s -> s <> zero -> valid t -> t <> zero ->
  exists n, (n < N256)%N /\ after n s = t.
Proof.
  intros s t V NZ Vt NZt.
  destruct (pigeon N256 (fun n => enc (after n s))) with (y := enc t) as (n & L & E).
  - intros i _. rewrite N256_Z. apply enc_range; [apply after_valid; exact V|].
    apply after_NZ; assumption.
  - intros i j Hi Hj E. apply (after_distinct s V NZ); [exact Hi|exact Hj|].
    apply enc_inj; [apply after_valid; exact V..|exact E].
  - rewrite N256_Z. apply enc_range; assumption.
  - exists n. split; [exact L|]. apply enc_inj; [apply after_valid; exact V|exact Vt|exact E].
Qed.

Lemma outputs_zero : outputs 4 zero = [0; 0; 0; 0].
Proof. reflexivity. Qed.

(* four consecutive outputs within one period *)
Lemma visits_outputs : forall s, valid s -> s <> zero ->
  forall r0 r1 r2 r3, word r0 -> word r1 -> word r2 -> word r3 ->
  [r0; r1; r2; r3] <> [0; 0; 0; 0] ->
  exists n, ((n < N256)%N /\ outputs 4 (after n s) = [r0; r1; r2; r3]) /\
    forall k, (k < N256)%N -> outputs 4 (after k s) = [r0; r1; r2; r3] -> k = n.
Proof.
  intros s V NZ r0 r1 r2 r3 H0 H1 H2 H3 NE.
  destruct (four_unique r0 r1 r2 r3 H0 H1 H2 H3) as (t & (Vt & Et) & Ut).
  assert (NZt : t <> zero) by (intros ->; rewrite outputs_zero in Et; congruence).
  destruct (visits s t V NZ Vt NZt) as (n & L & E).
  exists n. split; [split; [exact L|]; rewrite E; exact Et|].
  intros k Lk Ek. apply (after_distinct s V NZ); [exact Lk|exact L|].
  rewrite E. apply Ut; [apply after_valid; exact V|exact Ek].
Qed.

Lemma never_four_zeros : forall s n, valid s -> s <> zero -> outputs 4 (after n s) <> [0; 0; 0; 0].
Proof.
  intros s n V NZ E. rewrite <- outputs_zero in E.
  apply four_inj in E; [|apply after_valid; exact V|apply valid_zero].
  revert E. apply after_NZ; assumption.
Qed.

(* the streams after different numbers of jumps do not meet *)
Lemma jumps_after : forall a s, valid s -> N.iter a jump s = after (a * 2 ^ 128) s.
Proof.
  intros a s V. induction a as [|a IH] using N.peano_ind; [reflexivity|].
  rewrite N.iter_succ, IH, jump_after by (apply after_valid; exact V).
  rewrite <- after_add. f_equal. rewrite N.mul_succ_l. apply N.add_comm.
Qed.

Lemma mixed_radix : forall B a b i j, (i < B -> j < B -> i + a * B = j + b * B -> a = b /\ i = j)%N.
Proof.
  intros B a b i j Hi Hj E.
  assert (a = b).
  { destruct (N.lt_trichotomy a b) as [L|[L|L]]; [|exact L|]; exfalso.
    - assert ((a + 1) * B <= b * B)%N by (apply N.mul_le_mono_r; lia). lia.
    - assert ((b + 1) * B <= a * B)%N by (apply N.mul_le_mono_r; lia). lia. }
  subst. split; [reflexivity|]. lia.
Qed.

Lemma streams : forall s a b i j, valid s -> s <> zero ->
  (a < 2 ^ 128 - 1)%N -> (b < 2 ^ 128 - 1)%N -> (i < 2 ^ 128)%N -> (j < 2 ^ 128)%N ->
  after i (N.iter a jump s) = after j (N.iter b jump s) -> a = b /\ i = j.
Proof.
  intros s a b i j V NZ Ha Hb Hi Hj E.
  rewrite !jumps_after, <- !after_add in E by exact V.
  apply (mixed_radix (2 ^ 128)); [exact Hi|exact Hj|].
  apply (after_distinct s V NZ); [| |exact E].
  - change N256 with ((2 ^ 128 - 1) * 2 ^ 128 + (2 ^ 128 - 1))%N.
    assert ((a + 1) * 2 ^ 128 <= (2 ^ 128 - 1) * 2 ^ 128)%N by (apply N.mul_le_mono_r; lia). lia.
  - change N256 with ((2 ^ 128 - 1) * 2 ^ 128 + (2 ^ 128 - 1))%N.
    assert ((b + 1) * 2 ^ 128 <= (2 ^ 128 - 1) * 2 ^ 128)%N by (apply N.mul_le_mono_r; lia). lia.
Qed.
