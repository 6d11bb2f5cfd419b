From Verif Require Import Base BaseLemmas MathModel MathProofs SieveProofs.
From Coq Require Import Sorted Znumtheory Zpow_facts ZifyBool ZifyNat ZifyN.
Ltac Zify.zify_post_hook ::= Z.div_mod_to_equations.

Lemma mulMod_throws : forall a b m, is_i64 a -> is_i64 b -> is_i64 m ->
  (mulMod a b m = Throw <-> m <= 0).
Proof.
  intros a b m Ha Hb Hm. split; intros H.
  - destruct (Z.le_gt_cases m 0); auto. exfalso.
    unfold mulMod in H. rewrite (mulModWith_Ok umulMod umulMod_correct) in H by (auto; mach; lia).
    discriminate.
  - unfold mulMod, mulModWith, judgeAssert. replace (0 <? m) with false by lia. reflexivity.
Qed.

Lemma powMod_both : forall b e m, is_i64 b -> 0 <= e <= I64_MAX -> 0 < m <= I64_MAX ->
  ~ (e = 0 /\ m = 1) ->
  powMod b e m = Ok (b ^ e mod m) /\ powModPortable b e m = Ok (b ^ e mod m).
Proof.
  intros b e m Hb He Hm Hc.
  assert (Hr : (if e =? 0 then 1 else (b ^ e) mod m) = b ^ e mod m).
  { destruct (e =? 0) eqn:E; [| reflexivity]. apply Z.eqb_eq in E. subst.
    rewrite Z.pow_0_r, Z.mod_small; lia. }
  unfold powMod, powModPortable.
  rewrite (powModWith_Ok umulMod umulMod_correct) by auto.
  rewrite (powModWith_Ok umulModPortable umulModPortable_correct) by auto.
  rewrite Hr. auto.
Qed.

Lemma powMod_range_refuted : exists b e m r,
  is_i64 b /\ 0 <= e <= I64_MAX /\ 0 < m <= I64_MAX /\ powMod b e m = Ok r /\ ~ (0 <= r < m).
Proof.
  exists 7, 0, 1, 1. repeat split; try (vm_compute; congruence). lia.
Qed.

Lemma multInv_negative_refuted : exists n m x,
  is_i64 n /\ 0 < m <= I64_MAX /\ 0 <= x < m /\ (n * x) mod m = 1 mod m /\
  multInv n m = Ok (-1).
Proof. exists (-1), 5, 4. repeat split; vm_compute; congruence. Qed.

Lemma isPrime_accepts_primes : forall n, prime n -> n <= I64_MAX ->
  isPrime n = Ok true /\ isPrimePortable n = Ok true.
Proof.
  intros n Hp Hn. split; apply isPrimeWith_prime; auto.
  - apply umulMod_correct.
  - apply umulModPortable_correct.
Qed.

Lemma isPrime_exact_small : forall n, is_i64 n -> n < 18769 ->
  (isPrime n = Ok true <-> prime n).
Proof.
  intros n Hn Hb. split.
  - apply isPrimeWith_small; lia.
  - intros Hp. refine (proj1 (isPrime_accepts_primes n Hp _)). clear - Hb. mach; lia.
Qed.

(* strong probable primality of accepted numbers *)
Lemma squareLoop_small : forall mul, mul_correct mul -> forall un, 1 < un <= two63 ->
  forall k v v', 0 <= v < un -> squareLoop mul k v un = Ok v' ->
  exists r, 0 <= r <= Z.of_nat k /\ v ^ (2 ^ r) mod un = v' mod un.
Proof.
  intros mul Hmul un Hu k. induction k; intros v v' Hv H; simpl in H.
  - inversion H; subst. exists 0. split; [lia |]. rewrite Z.pow_0_r, Z.pow_1_r. reflexivity.
  - rewrite Hmul in H by lia. cbn [bind] in H.
    pose proof (Z.mod_pos_bound (v * v) un ltac:(lia)) as Hb.
    destruct ((v * v mod un =? un - 1) || (v * v mod un <=? 1)) eqn:E.
    + inversion H. exists 1. split; [lia |]. change (2 ^ 1) with 2. rewrite Z.pow_2_r.
      rewrite Z.mod_mod by lia. auto.
    + destruct (IHk (v * v mod un) v') as (r & Hr & He); auto.
      exists (r + 1). split; [lia |]. rewrite <- He.
      rewrite <- (Zpower_mod (v * v)) by lia.
      rewrite Z.pow_add_r by lia. change (2 ^ 1) with 2.
      rewrite (Z.mul_comm (2 ^ r) 2). rewrite (Z.pow_mul_r v 2) by (try apply Z.pow_nonneg; lia).
      rewrite Z.pow_2_r. reflexivity.
Qed.

Lemma witnessLoop_sprp : forall mul, mul_correct mul -> forall n, 131 < n <= two63 ->
  forall d j, 0 < d < two64 -> 0 < j -> forall ws,
  (forall a, In a ws -> 0 < a < two32) ->
  witnessLoop mul ws d j n = Ok true ->
  forall a, In a ws -> (n | a) \/
    (a ^ d mod n = 1 \/ exists r, 0 <= r < j /\ a ^ (d * 2 ^ r) mod n = n - 1).
Proof.
  intros mul Hmul n Hn d j Hd Hj ws. induction ws as [| w ws IH]; intros Hw H a Ha; [contradiction |].
  simpl in H. pose proof (Hw w (or_introl eq_refl)) as Hww.
  destruct (w mod n =? 0) eqn:Ew.
  { destruct Ha as [-> | Ha]; [left; apply Z.mod_divide; lia | apply IH; auto; intros; apply Hw; right; auto]. }
  rewrite (upow_small mul Hmul w d n) in H by (mach; lia). cbn [bind] in H.
  pose proof (Z.mod_pos_bound (w ^ d) n ltac:(lia)) as Hb.
  destruct ((w ^ d mod n =? 1) || (w ^ d mod n =? n - 1)) eqn:Ev.
  { destruct Ha as [-> | Ha]; [right | apply IH; auto; intros; apply Hw; right; auto].
    destruct (a ^ d mod n =? 1) eqn:E1; [left; lia |]. right. exists 0. split; [lia |].
    rewrite Z.pow_0_r, Z.mul_1_r. simpl in Ev. lia. }
  destruct (squareLoop_total mul Hmul (Z.to_nat (j - 1)) (w ^ d mod n) n) as [v' [Es Hv']]; try lia.
  rewrite Es in H. cbn [bind] in H.
  destruct (v' =? n - 1) eqn:E2; cbn [negb] in H; [| discriminate].
  destruct Ha as [-> | Ha]; [right; right | apply IH; auto; intros; apply Hw; right; auto].
  destruct (squareLoop_small mul Hmul n ltac:(lia) (Z.to_nat (j - 1)) (a ^ d mod n) v' Hb Es) as (r & Hr & He).
  exists r. split; [clear - Hr Hj; lia |].
  rewrite (Z.pow_mul_r a d) by (clear - Hr Hd; try apply Z.pow_nonneg; lia).
  rewrite (Zpower_mod (a ^ d)) by (clear - Hn; lia). rewrite He.
  clear - E2 Hn. rewrite Z.mod_small; lia.
Qed.

Lemma isPrime_sprp : forall n, is_i64 n -> 131 < n -> isPrime n = Ok true ->
  132 ^ (n - 1) mod n = 1 /\
  forall a, In a [2; 325; 9375; 28178; 450775; 9780504; 1795265022] ->
    (n | a) \/
    exists d s, 0 <= s /\ d mod 2 = 1 /\ n - 1 = d * 2 ^ s /\
      (a ^ d mod n = 1 \/ exists r, 0 <= r < s /\ a ^ (d * 2 ^ r) mod n = n - 1).
Proof.
  intros n Hn Hgt H.
  destruct (trialDivision TRIAL_PRIMES n) as [b |] eqn:T.
  - (* cannot stop in trial division with n > 131 *)
    exfalso. unfold isPrime, isPrimeWith in H. rewrite T in H. inversion H; subst.
    destruct (trialDivision_Some _ _ _ T) as (q & pre & post & Hps & _ & Hb & _).
    assert (In q TRIAL_PRIMES) by (rewrite Hps; apply in_or_app; right; left; auto).
    assert (q <= 131) by (unfold TRIAL_PRIMES in H0; simpl in H0; lia). lia.
  - unfold isPrime, isPrimeWith in H. rewrite T in H.
    rewrite u64_id in H by (mach; lia). rewrite last_trial in H.
    rewrite (upow_small umulMod umulMod_correct) in H by (mach; lia). cbn [bind] in H.
    destruct (132 ^ (n - 1) mod n =? 1) eqn:Ef; cbn [negb] in H; [| discriminate].
    split; [lia |].
    destruct (splitTwos_Ok n) as (d & j & E & Hj & Hd & Ho & Hdj); [mach; lia |].
    rewrite E in H. cbn [bind] in H.
    assert (Hj0 : 0 < j).
    { destruct (Z.eq_dec j 0) as [-> |]; [| lia]. exfalso.
      change (2 ^ 0) with 1 in Hdj.
      destruct (trialDivision_None _ _ T 2 ltac:(left; reflexivity)) as [_ K].
      rewrite Z.rem_mod_nonneg in K by lia. lia. }
    intros a Ha.
    destruct (witnessLoop_sprp umulMod umulMod_correct n ltac:(mach; lia) d j ltac:(mach; lia) Hj0
                MILLER_RABIN_WITNESS witness_bound H a Ha) as [K | K]; [left; auto |].
    right. exists d, j. auto.
Qed.

(* the two platform branches agree *)
Lemma upowMod_eq : forall mul1 mul2, mul_correct mul1 -> mul_correct mul2 -> forall b e m,
  0 < m <= two63 -> 0 <= b -> (b < two32 \/ b < m) -> is_u64 e ->
  upowMod mul1 b e m = upowMod mul2 b e m.
Proof. intros. rewrite !upowMod_Ok by auto. reflexivity. Qed.

Lemma squareLoop_eq : forall mul1 mul2, mul_correct mul1 -> mul_correct mul2 -> forall k v un,
  0 < un <= two63 -> 0 <= v < un -> squareLoop mul1 k v un = squareLoop mul2 k v un.
Proof.
  intros mul1 mul2 H1 H2 k; induction k; simpl; intros v un Hu Hv; [reflexivity |].
  rewrite H1, H2 by lia. cbn [bind].
  pose proof (Z.mod_pos_bound (v * v) un ltac:(lia)).
  destruct ((v * v mod un =? un - 1) || (v * v mod un <=? 1)); auto.
Qed.

Lemma witnessLoop_eq : forall mul1 mul2, mul_correct mul1 -> mul_correct mul2 -> forall ws d j un,
  (forall a, In a ws -> 0 < a < two32) -> 131 < un <= two63 -> 0 < d < two64 ->
  witnessLoop mul1 ws d j un = witnessLoop mul2 ws d j un.
Proof.
  intros mul1 mul2 H1 H2 ws; induction ws as [| a ws IH]; simpl; intros d j un Hw Hu Hd; [reflexivity |].
  rewrite IH by auto. pose proof (Hw a (or_introl eq_refl)).
  rewrite (upow_small mul1 H1), (upow_small mul2 H2) by (mach; lia). cbn [bind].
  pose proof (Z.mod_pos_bound (a ^ d) un ltac:(lia)).
  rewrite (squareLoop_eq mul1 mul2) by (auto; lia). reflexivity.
Qed.

Lemma isPrime_portable_eq : forall n, is_i64 n -> isPrimePortable n = isPrime n.
Proof.
  intros n Hn. unfold isPrimePortable, isPrime, isPrimeWith.
  destruct (trialDivision TRIAL_PRIMES n) as [b |] eqn:T; [reflexivity |].
  pose proof (trial_None_gt n T). rewrite u64_id by (mach; lia). rewrite last_trial.
  rewrite (upowMod_eq umulModPortable umulMod)
    by (auto using umulMod_correct, umulModPortable_correct; mach; lia).
  destruct (upowMod umulMod 132 (n - 1) n) as [a | | |]; cbn [bind]; [| reflexivity ..].
  destruct (negb (a =? 1)); [reflexivity |].
  destruct (splitTwos_Ok n) as (d & j & E & Hj & Hd & _ & _); [mach; lia |].
  rewrite E. cbn [bind].
  apply witnessLoop_eq;
    [apply umulModPortable_correct | apply umulMod_correct | apply witness_bound | |]; mach; lia.
Qed.

Lemma primes_upto : forall upper, 4 <= upper <= 1073741823 ->
  exists l, primes 0 upper = Ok l /\ StronglySorted Z.lt l /\
    forall n, In n l <-> prime n /\ n < upper.
Proof.
  intros upper Hu.
  destruct (primesWith_Ok umulMod umulMod_correct 0 upper) as (l & E & Hs & Hc & Hp);
    try (mach; lia).
  exists l. split; [exact E |]. split; [exact Hs |].
  intros n. split.
  - intros Hin. destruct (Hp n Hin) as (H1 & H2 & H3). split; [| lia].
    destruct (Z.lt_ge_cases n 18769) as [Hlt | Hge].
    + refine (proj1 (isPrime_exact_small n _ Hlt) H2). clear - H1 Hu; mach; lia.
    + apply H3. clear - Hge H1 Hu.
      replace (Z.max 2 upper) with upper by lia. replace (Z.max 2 0) with 2 by lia. nia.
  - intros [H1 H2]. pose proof (prime_ge_2 n H1). apply Hc; auto; lia.
Qed.

Lemma primes_overflow_refuted : exists lower upper,
  is_i64 lower /\ is_i64 upper /\ lower < upper /\ upper - lower <= 1073741823 /\
  primes lower upper = UB.
Proof.
  exists 9223372036854775700, 9223372036854775807. repeat split; vm_compute; congruence.
Qed.

(* ---- ranges wider than the sieve arrays ---- *)
Lemma markFrom_UB : forall a start stop step idx bad,
  0 < step -> 0 <= start -> start <= bad < stop -> bad <= I64_MAX ->
  (exists t, 0 <= t /\ bad = start + t * step) ->
  (forall j, start <= j < bad -> 0 <= idx j) -> ~ (0 <= idx bad < alen a) ->
  (forall j, start <= j <= bad -> is_i64 j) ->
  markFrom a start stop step idx = UB.
Proof.
  intros a start stop step idx bad Hst Hs0 Hb Hbm [t [Ht Hbad]] Hpos Hnot _.
  unfold markFrom.
  set (cond := fun st : Z * list bool => fst st <? stop).
  set (body := fun st : Z * list bool => _).
  assert (G : forall n u b, 0 <= u <= t -> t - u = Z.of_nat n -> alen b = alen a ->
     forall fuel, (n < fuel)%nat -> while fuel cond body (start + u * step, b) = UB).
  { induction n; intros u b Hu Hn Hlen fuel Hf; (destruct fuel as [| fuel]; [lia |]); rewrite while_eq.
    - assert (u = t) by lia. subst u. rewrite <- Hbad.
      unfold cond at 1. cbn [fst]. replace (bad <? stop) with true by lia.
      unfold body at 1. cbn [fst snd]. unfold aset.
      replace ((0 <=? idx bad) && (idx bad <? alen b)) with false by lia. reflexivity.
    - assert (Hlt : start <= start + u * step < bad).
      { clear - Hst Hu Hn Hbad. split; [assert (0 <= u * step) by (apply Z.mul_nonneg_nonneg; lia); lia |].
        subst bad. assert (u * step < t * step) by (apply Z.mul_lt_mono_pos_r; lia). lia. }
      unfold cond at 1. cbn [fst]. replace (start + u * step <? stop) with true by lia.
      unfold body at 1. cbn [fst snd]. unfold aset.
      destruct ((0 <=? idx (start + u * step)) && (idx (start + u * step) <? alen b)); [| reflexivity].
      cbn [bind].
      assert (Hle : start + (u + 1) * step <= bad).
      { subst bad. assert ((u + 1) * step <= t * step) by (apply Z.mul_le_mono_nonneg_r; lia). lia. }
      rewrite chk_Ok by (mach; lia). cbn [bind].
      replace (start + u * step + step) with (start + (u + 1) * step) by ring.
      apply IHn; try lia. unfold alen in *. rewrite upd_length. auto. }
  specialize (G (Z.to_nat t) 0 a ltac:(lia) ltac:(lia) eq_refl (Z.to_nat (stop - start) + 1)%nat).
  rewrite Z.mul_0_l, Z.add_0_r in G. rewrite G; [reflexivity |].
  assert (t <= t * step) by (clear - Ht Hst; nia). lia.
Qed.

Lemma primes_wide_refuted : forall lower upper,
  is_i64 lower -> is_i64 upper -> Z.max 2 upper - Z.max 2 lower > 1073741823 + 6 ->
  primes lower upper = UB.
Proof.
  intros lower upper Hl Hu Hw. unfold primes, primesWith, judgeAssert.
  replace (lower <? upper) with true by lia. cbn [bind].
  set (lo := Z.max 2 lower) in *. set (up := Z.max 2 upper) in *.
  assert (Hlo : 2 <= lo) by lia. assert (Hup : up <= I64_MAX) by (mach; lia).
  clearbody lo up. clear Hl Hu lower upper.
  replace (Z.min 1073741823 (up - lo)) with 1073741823 by lia.
  rewrite while_eq.
  replace (3 <? 1073741823) with true by reflexivity.
  assert (Hfuel : exists f, Z.to_nat 1073741823 = S f) by (exists (Z.to_nat 1073741822); lia).
  destruct Hfuel as [f Hf]. rewrite Hf.
  set (arr := repeat false (Z.to_nat ((1073741823 + 1) / 2))).
  assert (Harr : alen arr = 536870912) by (unfold alen, arr; rewrite repeat_length; lia).
  assert (Hbody : sieveBody lo up 1073741823 (3, arr, arr) = UB); [| rewrite Hbody; reflexivity].
  assert (Hnth : forall k, nth k arr false = false).
  { intros k. destruct (nth_in_or_default k arr false) as [H | H]; [| exact H].
    exact (repeat_spec _ _ _ H). }
  clearbody arr. clear Hf f.
  unfold sieveBody.
  rewrite (aget_Ok _ arr (3 / 2) false) by (rewrite Harr; lia). cbn [bind].
  rewrite Hnth. cbn [negb]. rewrite chk_Ok by (mach; lia). cbn [bind].
  change (3 * 3) with 9. change (2 * 3) with 6.
  destruct (markFrom_Ok arr 9 1073741823 6 (fun j => j / 2)) as (np' & E1 & _ & _);
    [lia | lia | mach; lia | intros j Hj; rewrite Harr; lia |].
  rewrite E1. cbn [bind]. rewrite Z.rem_mod_nonneg by lia.
  assert (Hm : 0 <= lo mod 6 < 6) by lia.
  assert (Hup2 : lo + 1073741829 < up) by lia.
  rewrite chk_Ok by (mach; lia). cbn [bind].
  assert (Hlw : exists lowest,
    (if lo - lo mod 6 + 3 <? lo then chk (lo - lo mod 6 + 3 + 6) else Ok (lo - lo mod 6 + 3)) = Ok lowest
    /\ lo <= lowest <= lo + 6).
  { destruct (lo - lo mod 6 + 3 <? lo) eqn:E.
    - rewrite chk_Ok by (mach; lia). eexists; split; [reflexivity | lia].
    - eexists; split; [reflexivity | lia]. }
  destruct Hlw as (lowest & El & Hlb). rewrite El. cbn [bind].
  set (start := Z.max 9 lowest).
  assert (Hstart : lo <= start <= lo + 13) by lia.
  (* first multiple at distance >= 2^30 - 1 + 1 from lo *)
  set (t := (lo + 1073741824 - start + 5) / 6).
  assert (Ht : lo + 1073741824 <= start + t * 6 <= lo + 1073741829) by (unfold t; lia).
  rewrite (markFrom_UB arr start up 6 _ (start + t * 6)); [reflexivity | | | | | | | |]; try lia.
  1: exists t; split; [lia | reflexivity].
  intros j Hj. mach; lia.
Qed.
