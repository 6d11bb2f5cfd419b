From Verif Require Import Base BaseLemmas MathModel Fermat.
From Coq Require Import Sorted Znumtheory Zpow_facts ZifyBool ZifyNat ZifyN.
Ltac Zify.zify_post_hook ::= Z.div_mod_to_equations.

(* ------------------------------------------------------------------ applyMod *)
Lemma rem_mod_adjust : forall x m, 0 < m ->
  (if Z.rem x m <? 0 then Z.rem x m + m else Z.rem x m) = x mod m.
Proof.
  intros x m Hm.
  pose proof (Z.quot_rem x m ltac:(lia)).
  pose proof (Z.rem_bound_abs x m ltac:(lia)).
  apply Z.mod_unique with (q := if Z.rem x m <? 0 then Z.quot x m - 1 else Z.quot x m).
  - left. destruct (Z.rem x m <? 0) eqn:E; lia.
  - destruct (Z.rem x m <? 0) eqn:E; lia.
Qed.

Lemma applyMod_Ok : forall x m, is_i64 x -> 0 < m <= I64_MAX -> applyMod x m = Ok (x mod m).
Proof.
  intros x m Hx Hm. unfold applyMod, crem.
  replace (m =? 0) with false by lia.
  replace ((x =? I64_MIN) && (m =? -1)) with false by lia.
  simpl. rewrite <- (rem_mod_adjust x m) by lia.
  pose proof (Z.rem_bound_abs x m ltac:(lia)).
  destruct (Z.rem x m <? 0) eqn:E; [| reflexivity].
  apply chk_Ok. mach; lia.
Qed.

(* ------------------------------------------------------------------- mulMod *)
Lemma umulMod_Ok : forall l r m, is_u64 l -> is_u64 r -> 0 < m < two64 ->
  umulMod l r m = Ok ((l * r) mod m).
Proof.
  intros l r m Hl Hr Hm. unfold umulMod.
  replace (m =? 0) with false by lia.
  rewrite (Z.mod_small (l * r)) by (mach; nia).
  pose proof (Z.mod_pos_bound (l * r) m ltac:(lia)).
  rewrite u64_id by (mach; lia). reflexivity.
Qed.

Definition bits (e : Z) : Z := if e <=? 0 then 0 else Z.log2 e + 1.

Lemma bits_half : forall e, 0 < e -> 0 <= bits (e / 2) < bits e.
Proof.
  intros e He. unfold bits.
  destruct (e <=? 0) eqn:E1; [lia |].
  destruct (e / 2 <=? 0) eqn:E2.
  - pose proof (Z.log2_nonneg e). lia.
  - assert (Z.log2 e = Z.log2 (e/2) + 1).
    { assert (Hd : 0 < e / 2) by lia.
      assert (e = 2 * (e/2) \/ e = 2 * (e/2) + 1) as [K|K] by lia; rewrite K at 1.
      - rewrite Z.log2_double by lia. lia.
      - rewrite Z.log2_succ_double by lia. lia. }
    pose proof (Z.log2_nonneg (e/2)). lia.
Qed.

Lemma bits_64 : forall e, e < two64 -> bits e <= 64.
Proof.
  intros e He. unfold bits. destruct (e <=? 0) eqn:E; [lia |].
  assert (Z.log2 e < 64) by (apply Z.log2_lt_pow2; [lia | mach; lia]). lia.
Qed.

Lemma bits_pos : forall e, 0 < e -> 0 < bits e.
Proof. intros e H; unfold bits. pose proof (Z.log2_nonneg e). destruct (e <=? 0) eqn:E; lia. Qed.

Lemma odd_half : forall r, r = 2 * (r / 2) + (if Z.odd r then 1 else 0).
Proof. intros r. pose proof (Zmod_odd r). destruct (Z.odd r); lia. Qed.

Lemma umulModPortable_Ok : forall l r m, 0 < m <= two63 -> 0 <= l < m -> is_u64 r ->
  umulModPortable l r m = Ok ((l * r) mod m).
Proof.
  intros l r m Hm Hl Hr. unfold umulModPortable.
  match goal with |- bind (while _ ?c ?bd _) _ = _ =>
  edestruct (while_total (Z * Z * Z)
    (fun st => let '(res, a, b) := st in
       0 <= res < m /\ 0 <= a < m /\ 0 <= b /\ (res + a * b) mod m = (l * r) mod m)
    (fun st => let '(_, _, b) := st in bits b) c bd)
    with (fuel := 64%nat) (s := (0, l, r)) as [s' [E [HI Hc]]] end.
  - intros [[res a] b] (Hres & Ha & Hb & Hinv) Hc.
    replace (m =? 0) with false by lia. eexists; split; [reflexivity |].
    rewrite !u64_id by (mach; lia).
    pose proof (Z.mod_pos_bound (a + res) m ltac:(lia)).
    pose proof (Z.mod_pos_bound (a + a) m ltac:(lia)).
    split; [| apply bits_half; lia].
    repeat split; try lia; try (destruct (Z.odd b); lia).
    rewrite <- Hinv.
    pose proof (odd_half b) as Hodd.
    rewrite Z.add_mod, Z.mul_mod, Z.mod_mod, <- Z.mul_mod, <- Z.add_mod by lia.
    destruct (Z.odd b).
    + rewrite Z.add_mod_idemp_l by lia. f_equal. rewrite Hodd at 2. ring.
    + f_equal. rewrite Hodd at 2. ring.
  - repeat split; try lia; try (mach; lia).
  - apply bits_64; mach; lia.
  - intros; apply bits_pos; mach; lia.
  - rewrite E. destruct s' as [[res a] b]. simpl.
    destruct HI as (H1 & H2 & H3 & H4). f_equal. rewrite <- H4.
    assert (b = 0) by lia. subst. rewrite Z.mul_0_r, Z.add_0_r.
    symmetry; apply Z.mod_small; lia.
Qed.

Definition mul_correct (mul : Z -> Z -> Z -> outcome Z) : Prop :=
  forall l r m, 0 < m <= two63 -> 0 <= l < m -> 0 <= r < m -> mul l r m = Ok ((l * r) mod m).

Lemma umulMod_correct : mul_correct umulMod.
Proof. intros l r m H1 H2 H3. apply umulMod_Ok; mach; lia. Qed.
Lemma umulModPortable_correct : mul_correct umulModPortable.
Proof. intros l r m H1 H2 H3. apply umulModPortable_Ok; mach; lia. Qed.

Lemma mulModWith_Ok : forall mul, mul_correct mul -> forall a b m,
  is_i64 a -> is_i64 b -> 0 < m <= I64_MAX ->
  mulModWith mul a b m = Ok ((a * b) mod m).
Proof.
  intros mul Hmul a b m Ha Hb Hm. unfold mulModWith, judgeAssert.
  replace (0 <? m) with true by lia. simpl.
  rewrite !applyMod_Ok by auto. simpl.
  pose proof (Z.mod_pos_bound a m ltac:(lia)). pose proof (Z.mod_pos_bound b m ltac:(lia)).
  rewrite !u64_id by (mach; lia).
  rewrite Hmul by (mach; lia). simpl.
  rewrite <- Z.mul_mod by lia.
  pose proof (Z.mod_pos_bound (a * b) m ltac:(lia)).
  rewrite to_i64_id by (mach; lia). reflexivity.
Qed.

(* ------------------------------------------------------------------- powMod *)
Lemma upowMod_Ok : forall mul, mul_correct mul -> forall b e m,
  0 < m <= two63 -> 0 <= b -> (b < two32 \/ b < m) -> is_u64 e ->
  upowMod mul b e m = Ok (if e =? 0 then 1 else (b ^ e) mod m).
Proof.
  intros mul Hmul b e m Hm Hb Hbm He. unfold upowMod.
  destruct (e =? 0) eqn:E0.
  { apply Z.eqb_eq in E0; subst; reflexivity. }
  match goal with |- bind (while _ ?c ?bd _) _ = _ => 
  edestruct (while_total (Z * Z * Z)
    (fun st => let '(res, a, f) := st in
       (0 <= res < m \/ (res = 1 /\ 0 < f)) /\ 0 <= a /\ (a < two32 \/ a < m) /\ 0 <= f /\
       (res * a ^ f) mod m = (b ^ e) mod m)
    (fun st => let '(_, _, f) := st in bits f) c bd) with (fuel := 64%nat) (s := (1, b, e))
    as [s' [E [HI Hc]]] end.
  - intros [[res a] f] (Hres & Ha & Ha2 & Hf & Hinv) Hc.
    assert (Hf0 : 0 < f) by (apply Z.ltb_lt; exact Hc).
    pose proof (odd_half f) as Hodd.
    assert (Hgoal : forall res' a',
      (if Z.odd f then res' = (a * res) mod m else res' = res) ->
      a' = (a * a) mod m ->
      ((0 <= res' < m \/ res' = 1 /\ 0 < f / 2) /\
       0 <= a' /\ (a' < two32 \/ a' < m) /\ 0 <= f / 2 /\
       (res' * a' ^ (f / 2)) mod m = (b ^ e) mod m) /\
      0 <= bits (f / 2) < bits f).
    { intros res' a' Hr' Ha'.
      split; [| apply bits_half; lia].
      pose proof (Z.mod_pos_bound (a * a) m ltac:(lia)).
      pose proof (Z.mod_pos_bound (a * res) m ltac:(lia)).
      split; [| split; [| split; [| split]]].
      + clear Hinv. destruct (Z.odd f); [left; lia | destruct Hres; [left | right]; lia].
      + subst a'; apply H.
      + right; subst a'; apply H.
      + clear Hinv. lia.
      + rewrite <- Hinv. subst a'.
        assert (Hp : a ^ f = (a * a) ^ (f / 2) * a ^ (if Z.odd f then 1 else 0)).
        { rewrite Hodd at 1. assert (Hf2 : 0 <= f / 2) by (apply Z.div_pos; lia). clear - Hf2.
          rewrite Z.pow_add_r by (destruct (Z.odd f); lia).
          rewrite Z.pow_mul_r by lia. f_equal. f_equal. ring. }
        rewrite Hp.
        destruct (Z.odd f); subst res'.
        * rewrite Z.mul_mod, <- Zpower_mod by lia.
          rewrite Z.mod_mod by lia. rewrite <- Z.mul_mod by lia. f_equal. rewrite Z.pow_1_r. ring.
        * rewrite Z.mul_mod, <- Zpower_mod by lia. rewrite <- Z.mul_mod by lia.
          f_equal. rewrite Z.pow_0_r. ring. }
    destruct (m <=? two32) eqn:Em.
    + replace (m =? 0) with false by lia. eexists; split; [reflexivity |].
      assert (Ha3 : a < two32) by (clear Hinv Hgoal Hodd; mach; lia).
      assert (Hr3 : 0 <= res < two32) by (clear Hinv Hgoal Hodd; mach; lia).
      assert (0 <= a * a < two64) by (clear - Ha Ha3; mach; nia).
      assert (0 <= a * res < two64) by (clear - Ha Ha3 Hr3; mach; nia).
      clear Hinv.
      apply Hgoal.
      * destruct (Z.odd f); [rewrite u64_id by (mach; lia) |]; reflexivity.
      * rewrite u64_id by (mach; lia). reflexivity.
    + clear Hinv Hodd. assert (a < m) by (clear - Ha2 Em; mach; lia).
      assert (0 <= res < m) by (clear - Hres Em; mach; lia).
      destruct (Z.odd f) eqn:Eo.
      * rewrite Hmul by lia. simpl. rewrite Hmul by lia. simpl.
        eexists; split; [reflexivity |]. apply Hgoal; reflexivity.
      * simpl. rewrite Hmul by lia. simpl.
        eexists; split; [reflexivity |]. apply Hgoal; reflexivity.
  - repeat split; try lia; try (mach; lia). rewrite Z.mul_1_l; reflexivity.
  - apply bits_64; mach; lia.
  - intros; apply bits_pos; mach; lia.
  - rewrite E. destruct s' as [[res a] f]. simpl.
    destruct HI as (H1 & H2 & H3 & H4 & H5). f_equal. rewrite <- H5.
    assert (f = 0) by lia. subst. rewrite Z.pow_0_r, Z.mul_1_r.
    symmetry; apply Z.mod_small; lia.
Qed.

Lemma powModWith_Ok : forall mul, mul_correct mul -> forall b e m,
  is_i64 b -> 0 <= e <= I64_MAX -> 0 < m <= I64_MAX ->
  powModWith mul b e m = Ok (if e =? 0 then 1 else (b ^ e) mod m).
Proof.
  intros mul Hmul b e m Hb He Hm. unfold powModWith, judgeAssert.
  replace (0 <? m) with true by lia. replace (0 <=? e) with true by lia. simpl.
  rewrite !applyMod_Ok by auto. simpl.
  pose proof (Z.mod_pos_bound b m ltac:(lia)).
  rewrite !u64_id by (mach; lia).
  rewrite upowMod_Ok by (auto; mach; lia). simpl.
  destruct (e =? 0) eqn:E.
  - reflexivity.
  - rewrite <- Zpower_mod by lia.
    pose proof (Z.mod_pos_bound (b ^ e) m ltac:(lia)).
    rewrite to_i64_id by (mach; lia). reflexivity.
Qed.

(* ------------------------------------------------------------ extendedEuclid *)
Lemma extendedEuclid_partial : forall fuel a b,
  0 <= a <= I64_MAX -> 0 < b <= I64_MAX ->
  extendedEuclid fuel a b = Fuel \/
  exists x y, extendedEuclid fuel a b = Ok (Z.gcd a b, x, y) /\
    a * x + b * y = Z.gcd a b /\ - b <= x <= b /\ - Z.max 1 a <= y <= Z.max 1 a.
Proof.
  induction fuel; intros a b Ha Hb; simpl; [left; reflexivity |].
  destruct (a =? 0) eqn:E.
  - right. assert (a = 0) by lia; subst. exists 0, 1.
    rewrite Z.gcd_0_l, Z.abs_eq by lia. repeat split; lia.
  - unfold crem. rewrite E. replace ((b =? I64_MIN) && (a =? -1)) with false by (mach; lia).
    simpl. rewrite Z.rem_mod_nonneg by lia.
    pose proof (Z.mod_pos_bound b a ltac:(lia)).
    destruct (IHfuel (b mod a) a) as [F | (x1 & y1 & F & Hbez & Hx & Hy)]; try lia.
    + left. rewrite F. reflexivity.
    + right. rewrite F. simpl. unfold cdiv. rewrite E.
      rewrite Z.quot_div_nonneg by lia.
      assert (Hq : b = a * (b / a) + b mod a) by (apply Z.div_mod; lia).
      assert (Hq1 : 0 <= b / a) by (apply Z.div_pos; lia).
      assert (Hg : Z.gcd (b mod a) a = Z.gcd a b).
      { rewrite Z.gcd_mod by lia. reflexivity. }
      assert (Hz : b mod a = 0 -> x1 = 0 /\ y1 = 1).
      { intros Z0. destruct fuel; simpl in F; [discriminate |].
        rewrite Z0 in F. simpl in F. inversion F. auto. }
      rewrite Hg in *. clear F Hg IHfuel.
      set (r := b mod a) in *. set (q := b / a) in *. clearbody r q.
      rewrite chk_Ok by (mach; nia). simpl.
      assert (Hq0 : - (q * a) <= q * x1 <= q * a) by nia.
      rewrite chk_Ok by (mach; nia). simpl.
      assert (Hx' : - b <= y1 - q * x1 <= b).
      { destruct (Z.eq_dec r 0) as [Z0 | Z0].
        - destruct (Hz Z0) as [-> ->]. lia.
        - nia. }
      rewrite chk_Ok by (mach; lia). simpl.
      exists (y1 - q * x1), x1. split; [reflexivity |].
      split; [subst b; rewrite <- Hbez; ring | repeat split; lia].
Qed.

Ltac noFuel :=
  unfold cdiv, chk; simpl;
  repeat (match goal with |- context [if ?c then _ else _] => destruct c end; simpl);
  try discriminate.

Lemma extendedEuclid_fuel : forall k, 0 <= k -> forall a b fuel,
  0 <= a < 2 ^ k -> 0 <= b -> (Z.to_nat (2 * k + 2) <= fuel)%nat ->
  extendedEuclid fuel a b <> Fuel.
Proof.
  intros k Hk; pattern k; apply natlike_ind; [| | exact Hk]; clear k Hk.
  - intros a b fuel Ha Hb Hf. assert (a = 0) by lia; subst.
    destruct fuel; [lia |]. simpl. discriminate.
  - intros k Hk IH a b fuel Ha Hb Hf.
    rewrite Z.pow_succ_r in Ha by lia.
    destruct fuel as [| fuel]; [lia |]. simpl.
    destruct (a =? 0) eqn:E; [discriminate |].
    assert (Hr : crem b a = Ok (b mod a)).
    { unfold crem. rewrite E. replace ((b =? I64_MIN) && (a =? -1)) with false by (mach; lia).
      rewrite Z.rem_mod_nonneg by lia. reflexivity. }
    rewrite Hr. simpl.
    assert (Hrec : extendedEuclid fuel (b mod a) a <> Fuel).
    { destruct fuel as [| fuel]; [lia |]. simpl.
      pose proof (Z.mod_pos_bound b a ltac:(lia)).
      destruct (b mod a =? 0) eqn:E2; [discriminate |].
      assert (Hr2 : crem a (b mod a) = Ok (a mod (b mod a))).
      { unfold crem. rewrite E2.
        replace ((a =? I64_MIN) && (b mod a =? -1)) with false by (mach; lia).
        rewrite Z.rem_mod_nonneg by lia. reflexivity. }
      rewrite Hr2. simpl.
      set (r := b mod a) in *.
      pose proof (Z.mod_pos_bound a r ltac:(lia)).
      assert (a mod r < 2 ^ k).
      { assert (Hq : a = r * (a / r) + a mod r) by (apply Z.div_mod; lia).
        assert (1 <= a / r) by (apply Z.div_le_lower_bound; lia).
        nia. }
      pose proof (IH (a mod r) r fuel ltac:(lia) ltac:(lia) ltac:(lia)) as IH'.
      destruct (extendedEuclid fuel (a mod r) r) as [[[d x] y] | | | ]; simpl; try discriminate; [| congruence].
      noFuel. }
    destruct (extendedEuclid fuel (b mod a) a) as [[[d x] y] | | | ]; simpl; try discriminate; [| congruence].
    noFuel.
Qed.

Lemma multInv_nonneg : forall n m, 0 <= n <= I64_MAX -> 0 < m <= I64_MAX ->
  (Z.gcd n m = 1 -> exists x, multInv n m = Ok x /\ 0 <= x < m /\ (n * x) mod m = 1 mod m) /\
  (Z.gcd n m <> 1 -> multInv n m = Ok (-1)).
Proof.
  intros n m Hn Hm. unfold multInv, judgeAssert.
  replace (0 <? m) with true by lia. cbn [bind].
  set (fuel := Z.to_nat (2 * Z.log2 (Z.abs n) + 4)).
  assert (HF : extendedEuclid fuel n m <> Fuel).
  { apply (extendedEuclid_fuel (Z.log2 n + 1)).
    - pose proof (Z.log2_nonneg n); lia.
    - split; [lia |].
      destruct (Z.eq_dec n 0) as [-> | Hn0]; [simpl; lia |].
      pose proof (Z.log2_spec n ltac:(lia)). replace (Z.log2 n + 1) with (Z.succ (Z.log2 n)) by lia. lia.
    - lia.
    - unfold fuel. rewrite Z.abs_eq by lia. pose proof (Z.log2_nonneg n). lia. }
  destruct (extendedEuclid_partial fuel n m Hn Hm) as [F | (x & y & F & Hbez & Hx & Hy)]; [contradiction |].
  rewrite F. cbn [bind].
  split; intros Hg.
  - rewrite Hg in *. cbn [Z.eqb Pos.eqb negb]. rewrite applyMod_Ok by (mach; lia).
    exists (x mod m). split; [reflexivity |].
    split; [apply Z.mod_pos_bound; lia |].
    rewrite Z.mul_mod_idemp_r by lia.
    replace (n * x) with (1 + (-y) * m) by lia.
    apply Z_mod_plus_full.
  - replace (negb (Z.gcd n m =? 1)) with true by lia. reflexivity.
Qed.

(* ------------------------------------------------------------------ isPrime *)
Definition primeb (n : Z) : bool :=
  (2 <=? n) && forallb (fun d => negb (n mod d =? 0)) (map Z.of_nat (seq 2 (Z.to_nat n - 2))).

Lemma primeb_spec : forall n, primeb n = true <-> prime n.
Proof.
  intros n. unfold primeb. rewrite andb_true_iff, forallb_forall. split.
  - intros [H1 H2]. apply prime_alt. split; [lia |].
    intros d Hd Hdiv.
    assert (Hin : In d (map Z.of_nat (seq 2 (Z.to_nat n - 2)))).
    { apply in_map_iff. exists (Z.to_nat d). split; [lia |]. apply in_seq. lia. }
    specialize (H2 d Hin). apply Z.mod_divide in Hdiv; lia.
  - intros Hp. pose proof (prime_ge_2 n Hp). split; [lia |].
    intros d Hin. apply in_map_iff in Hin. destruct Hin as [k [<- Hk]]. apply in_seq in Hk.
    destruct (n mod Z.of_nat k =? 0) eqn:E; [| reflexivity]. exfalso.
    apply prime_alt in Hp. destruct Hp as [_ Hp]. apply (Hp (Z.of_nat k)); [lia |].
    apply Z.mod_divide; lia.
Qed.

Lemma small_primes_table :
  forallb (fun k => let n := Z.of_nat k in
     Bool.eqb (primeb n) (existsb (Z.eqb n) TRIAL_PRIMES)) (seq 0 132) = true.
Proof. vm_compute. reflexivity. Qed.

Lemma TRIAL_PRIMES_exact : forall n, n <= 131 -> (prime n <-> In n TRIAL_PRIMES).
Proof.
  intros n Hn. destruct (Z.lt_ge_cases n 0).
  - split; intros H0.
    + apply prime_ge_2 in H0; lia.
    + exfalso. unfold TRIAL_PRIMES in H0. simpl in H0. lia.
  - pose proof small_primes_table as T. rewrite forallb_forall in T.
    specialize (T (Z.to_nat n)). cbv beta zeta in T.
    assert (Hin : In (Z.to_nat n) (seq 0 132)) by (apply in_seq; lia).
    specialize (T Hin). rewrite Z2Nat.id in T by lia.
    rewrite <- primeb_spec. apply Bool.eqb_prop in T. rewrite T.
    rewrite existsb_exists. split.
    + intros [x [H1 H2]]. apply Z.eqb_eq in H2. subst; auto.
    + intros H1. exists n. split; auto. apply Z.eqb_refl.
Qed.

Lemma TRIAL_PRIMES_prime : forall p, In p TRIAL_PRIMES -> prime p.
Proof.
  intros p Hin. apply TRIAL_PRIMES_exact; auto.
  unfold TRIAL_PRIMES in Hin; simpl in Hin. lia.
Qed.

(* trial division, generic in an increasing list *)
Lemma trialDivision_None : forall ps n, trialDivision ps n = None ->
  forall p, In p ps -> p < n /\ Z.rem n p <> 0.
Proof.
  induction ps as [| q ps IH]; simpl; intros n H p Hin; [contradiction |].
  destruct ((n <=? q) || (Z.rem n q =? 0)) eqn:E; [discriminate |].
  destruct Hin as [-> | Hin]; [lia | eauto].
Qed.

Lemma trialDivision_Some : forall ps n b, trialDivision ps n = Some b ->
  exists q pre post, ps = pre ++ q :: post /\ (n <= q \/ Z.rem n q = 0) /\ b = (n =? q) /\
    forall p, In p pre -> p < n /\ Z.rem n p <> 0.
Proof.
  induction ps as [| q ps IH]; simpl; intros n b H; [discriminate |].
  destruct ((n <=? q) || (Z.rem n q =? 0)) eqn:E.
  - inversion H; subst. exists q, [], ps. repeat split; auto; try lia; simpl in *; contradiction.
  - destruct (IH n b H) as (q' & pre & post & -> & H1 & H2 & H3).
    exists q', (q :: pre), post. split; [reflexivity | split; [exact H1 | split; [exact H2 |]]].
    intros p [<- | Hp]; [lia | apply H3; exact Hp].
Qed.

Lemma trial_Some_exact : forall n b, trialDivision TRIAL_PRIMES n = Some b ->
  (b = true <-> prime n).
Proof.
  intros n b H. apply trialDivision_Some in H.
  destruct H as (q & pre & post & Hps & Hq & Hb & Hpre).
  assert (Hqin : In q TRIAL_PRIMES) by (rewrite Hps; apply in_or_app; right; left; auto).
  pose proof (TRIAL_PRIMES_prime q Hqin) as Hqp.
  split.
  - intros ->. symmetry in Hb. apply Z.eqb_eq in Hb. subst; auto.
  - intros Hp. rewrite Hb. apply Z.eqb_eq.
    destruct (Z.eq_dec (Z.rem n q) 0) as [Hr | Hr].
    + pose proof (prime_ge_2 q Hqp). pose proof (prime_ge_2 n Hp).
      rewrite Z.rem_mod_nonneg in Hr by lia. apply Z.mod_divide in Hr; [| lia].
      symmetry. apply prime_div_prime; auto.
    + destruct Hq as [Hq | Hq]; [| contradiction].
      destruct (Z.eq_dec n q); auto. exfalso.
      assert (q <= 131) by (unfold TRIAL_PRIMES in Hqin; simpl in Hqin; lia).
      assert (Hn : In n TRIAL_PRIMES) by (apply TRIAL_PRIMES_exact; auto; lia).
      rewrite Hps in Hn. apply in_app_or in Hn.
      destruct Hn as [Hn | [Hn | Hn]]; [destruct (Hpre n Hn); lia | congruence |].
      (* n < q but n comes after q in an increasing list *)
      assert (Hsorted : forall pre q post, TRIAL_PRIMES = pre ++ q :: post ->
                Forall (fun x => q < x) post).
      { clear. intros pre q post E.
        assert (S : StronglySorted Z.lt TRIAL_PRIMES).
        { apply Sorted_StronglySorted; [intros x y z; lia |]. unfold TRIAL_PRIMES.
          repeat (apply Sorted_cons || apply Sorted_nil || apply HdRel_cons
                  || apply HdRel_nil || reflexivity). }
        rewrite E in S. clear E. induction pre; simpl in S; inversion S; subst; auto. }
      specialize (Hsorted _ _ _ Hps). rewrite Forall_forall in Hsorted.
      specialize (Hsorted n Hn). lia.
Qed.

Lemma splitTwos_Ok : forall un, 1 < un < two64 ->
  exists d j, splitTwos un = Ok (d, j) /\ 0 <= j /\ 0 < d < un /\ d mod 2 = 1 /\ un - 1 = d * 2 ^ j.
Proof.
  intros un Hu. unfold splitTwos.
  edestruct (while_total (Z * Z)
     (fun st => 0 < fst st < un /\ 0 <= snd st /\ un - 1 = fst st * 2 ^ snd st)
     (fun st => bits (fst st))
     (fun st : Z * Z => fst st mod 2 =? 0)
     (fun st : Z * Z => Ok (fst st / 2, snd st + 1)))
   with (fuel := 64%nat) (s := (un - 1, 0)) as [[d j] [E [HI Hc]]].
  - intros [d j] (H1 & H2 & H3) Hc. simpl in *. eexists; split; [reflexivity |]. simpl.
    split; [| apply bits_half; lia].
    repeat split; try lia. rewrite Z.pow_add_r by lia. rewrite H3.
    assert (d = 2 * (d / 2)) by lia. rewrite H at 1. ring.
  - simpl. repeat split; lia.
  - simpl. apply bits_64. lia.
  - simpl. intros; apply bits_pos; lia.
  - exists d, j. simpl in *. repeat split; try lia; auto.
Qed.

Lemma upow_small : forall mul, mul_correct mul -> forall a e m,
  131 < m <= two63 -> 0 <= a < two32 -> 0 < e < two64 ->
  upowMod mul a e m = Ok (a ^ e mod m).
Proof.
  intros. rewrite upowMod_Ok by (auto; mach; lia). replace (e =? 0) with false by lia. reflexivity.
Qed.

Lemma witness_bound : forall a, In a MILLER_RABIN_WITNESS -> 0 < a < two32.
Proof. intros a H. unfold MILLER_RABIN_WITNESS in H; simpl in H; mach; lia. Qed.

Lemma squareLoop_total : forall mul, mul_correct mul -> forall k v un,
  0 < un <= two63 -> 0 <= v < un -> exists v', squareLoop mul k v un = Ok v' /\ 0 <= v' < un.
Proof.
  intros mul Hmul k; induction k; simpl; intros v un Hu Hv; [eauto |].
  rewrite Hmul by lia. simpl. pose proof (Z.mod_pos_bound (v * v) un ltac:(lia)).
  destruct ((v * v mod un =? un - 1) || (v * v mod un <=? 1)); [eauto |]. apply IHk; lia.
Qed.

Lemma witnessLoop_total : forall mul, mul_correct mul -> forall ws d j un,
  (forall a, In a ws -> 0 < a < two32) -> 131 < un <= two63 -> 0 < d < two64 ->
  exists b, witnessLoop mul ws d j un = Ok b.
Proof.
  intros mul Hmul ws; induction ws as [| a ws IH]; simpl; intros d j un Hw Hu Hd; [eauto |].
  assert (IH' : exists b, witnessLoop mul ws d j un = Ok b) by (apply IH; auto).
  destruct (a mod un =? 0); [exact IH' |].
  pose proof (Hw a (or_introl eq_refl)).
  rewrite upow_small by (auto; lia). simpl.
  pose proof (Z.mod_pos_bound (a ^ d) un ltac:(lia)).
  destruct ((a ^ d mod un =? 1) || (a ^ d mod un =? un - 1)); [exact IH' |].
  destruct (squareLoop_total mul Hmul (Z.to_nat (j - 1)) (a ^ d mod un) un) as [v' [-> Hv']]; try lia.
  simpl. destruct (negb (v' =? un - 1)); eauto.
Qed.

Lemma last_trial : last TRIAL_PRIMES 0 + 1 = 132.
Proof. reflexivity. Qed.

Lemma trial_None_gt : forall n, trialDivision TRIAL_PRIMES n = None -> 131 < n.
Proof.
  intros n H. apply (trialDivision_None _ _ H). unfold TRIAL_PRIMES; simpl; tauto.
Qed.

Lemma isPrimeWith_total : forall mul, mul_correct mul -> forall n, is_i64 n ->
  exists b, isPrimeWith mul n = Ok b.
Proof.
  intros mul Hmul n Hn. unfold isPrimeWith.
  destruct (trialDivision TRIAL_PRIMES n) as [b |] eqn:T; [eauto |].
  pose proof (trial_None_gt n T). rewrite u64_id by (mach; lia).
  rewrite last_trial. rewrite upow_small by (auto; mach; lia). cbn [bind].
  destruct (negb (132 ^ (n - 1) mod n =? 1)); [eauto |].
  destruct (splitTwos_Ok n) as (d & j & E & Hj & Hd & _ & _); [mach; lia |].
  rewrite E. cbn [bind]. apply witnessLoop_total; auto; [apply witness_bound | |]; mach; lia.
Qed.

Lemma sqrt1 : forall p v, prime p -> (v * v) mod p = 1 -> v mod p = 1 \/ v mod p = p - 1.
Proof.
  intros p v Hp H. pose proof (prime_ge_2 p Hp).
  assert (Hd : (p | (v - 1) * (v + 1))).
  { apply Z.mod_divide; [lia |]. replace ((v-1)*(v+1)) with (v*v - 1) by ring.
    rewrite Zminus_mod, H, (Z.mod_small 1) by lia. reflexivity. }
  apply prime_mult in Hd; auto. destruct Hd as [[k Hk] | [k Hk]].
  - left. replace v with (1 + k * p) by lia. rewrite Z_mod_plus_full, Z.mod_small; lia.
  - right. replace v with ((p - 1) + (k - 1) * p) by lia. rewrite Z_mod_plus_full, Z.mod_small; lia.
Qed.

Lemma squareLoop_prime : forall mul, mul_correct mul -> forall p, prime p -> p <= two63 ->
  forall k v, 0 <= v < p -> v <> 1 -> v <> p - 1 ->
  (v ^ (2 ^ (Z.of_nat k + 1))) mod p = 1 -> squareLoop mul k v p = Ok (p - 1).
Proof.
  intros mul Hmul p Hp Hb k. pose proof (prime_ge_2 p Hp). induction k; intros v Hv H1 H2 H3.
  - exfalso. change (2 ^ (Z.of_nat 0 + 1)) with 2 in H3. rewrite Z.pow_2_r in H3.
    apply sqrt1 in H3; auto. rewrite Z.mod_small in H3 by lia. lia.
  - simpl. rewrite Hmul by lia. simpl.
    pose proof (Z.mod_pos_bound (v * v) p ltac:(lia)) as Hb'.
    set (v' := v * v mod p) in *.
    assert (Hpow : (v' ^ (2 ^ (Z.of_nat k + 1))) mod p = 1).
    { unfold v'. rewrite <- Zpower_mod by lia. etransitivity; [| exact H3]. f_equal.
      replace (Z.of_nat (S k) + 1) with (Z.succ (Z.of_nat k + 1)) by lia.
      rewrite Z.pow_succ_r by lia. rewrite (Z.pow_mul_r v 2) by (try apply Z.pow_nonneg; lia).
      rewrite Z.pow_2_r. reflexivity. }
    assert (K1 : v' <> 1).
    { intros K. unfold v' in K. apply sqrt1 in K; auto. rewrite Z.mod_small in K by lia.
      clear - K H1 H2. lia. }
    clearbody v'. clear H3 H1 H2 Hv.
    destruct (v' =? p - 1) eqn:E1; [simpl; f_equal; clear - E1; lia |].
    destruct (v' <=? 1) eqn:E2.
    + exfalso. assert (v' = 0) as K by (clear - E2 K1 Hb'; lia).
      rewrite K in Hpow. rewrite Z.pow_0_l in Hpow by (clear; apply Z.pow_pos_nonneg; lia).
      rewrite Z.mod_0_l in Hpow; [discriminate | clear - H; lia].
    + simpl. apply IHk; [exact Hb' | exact K1 | clear - E1; lia | exact Hpow].
Qed.

Lemma witnessLoop_prime : forall mul, mul_correct mul -> forall p, prime p -> 131 < p <= two63 ->
  forall d j, 0 < d -> 0 <= j -> p - 1 = d * 2 ^ j -> forall ws,
  (forall a, In a ws -> 0 < a < two32) ->
  witnessLoop mul ws d j p = Ok true.
Proof.
  intros mul Hmul p Hp Hb d j Hd Hj Hdj ws. induction ws as [| a ws IH]; intros Hw; [reflexivity |].
  assert (IH' : witnessLoop mul ws d j p = Ok true) by (apply IH; intros; apply Hw; right; auto).
  simpl. destruct (a mod p =? 0) eqn:Ea; [exact IH' |].
  pose proof (Hw a (or_introl eq_refl)).
  assert (Hdp : d < two64) by (assert (0 < 2 ^ j) by (apply Z.pow_pos_nonneg; lia); mach; nia).
  rewrite upow_small by (auto; mach; lia). simpl.
  pose proof (Z.mod_pos_bound (a ^ d) p ltac:(lia)).
  destruct ((a ^ d mod p =? 1) || (a ^ d mod p =? p - 1)) eqn:Ev; [exact IH' |].
  assert (Hnd : ~ (p | a)) by (intros Hdv; apply Z.mod_divide in Hdv; lia).
  pose proof (fermat_Z p a Hp Hnd) as HF.
  assert (HF' : ((a ^ d mod p) ^ (2 ^ j)) mod p = 1).
  { rewrite <- Zpower_mod by lia. rewrite <- Z.pow_mul_r by (try apply Z.pow_nonneg; lia).
    rewrite <- Hdj. exact HF. }
  assert (Hj0 : 0 < j).
  { destruct (Z.eq_dec j 0); [| lia]. subst j. change (2 ^ 0) with 1 in HF'.
    rewrite Z.pow_1_r, Z.mod_mod in HF' by lia. lia. }
  assert (Hj1 : Z.of_nat (Z.to_nat (j - 1)) + 1 = j) by (clear - Hj0; lia).
  apply orb_false_iff in Ev. destruct Ev as [Ev1 Ev2].
  rewrite (squareLoop_prime mul Hmul p Hp) with (k := Z.to_nat (j - 1)).
  - simpl. rewrite Z.eqb_refl. simpl. exact IH'.
  - mach; lia.
  - assumption.
  - apply Z.eqb_neq. exact Ev1.
  - apply Z.eqb_neq. exact Ev2.
  - rewrite Hj1. exact HF'.
Qed.

Lemma isPrimeWith_prime : forall mul, mul_correct mul -> forall p, prime p -> p <= I64_MAX ->
  isPrimeWith mul p = Ok true.
Proof.
  intros mul Hmul p Hp Hb. pose proof (prime_ge_2 p Hp). unfold isPrimeWith.
  destruct (trialDivision TRIAL_PRIMES p) as [b |] eqn:T.
  - apply trial_Some_exact in T. f_equal. apply T; auto.
  - pose proof (trial_None_gt p T). rewrite u64_id by (mach; lia).
    rewrite last_trial. rewrite upow_small by (auto; mach; lia). cbn [bind].
    rewrite fermat_Z; auto.
    2: { intros Hd. pose proof (Z.divide_pos_le p 132 ltac:(lia) Hd).
         assert (p = 132) by lia. subst. apply prime_alt in Hp. destruct Hp as [_ Hp].
         apply (Hp 2); [lia | exists 66; lia]. }
    cbn [Z.eqb Pos.eqb negb].
    destruct (splitTwos_Ok p) as (d & j & E & Hj & Hd & _ & Hdj); [mach; lia |].
    rewrite E. cbn [bind]. apply witnessLoop_prime; auto; [mach; lia | lia | apply witness_bound].
Qed.

Lemma isPrimeWith_factor : forall mul n, isPrimeWith mul n = Ok true ->
  2 <= n /\ forall p, prime p -> p <= 131 -> (p | n) -> p = n.
Proof.
  intros mul n H. unfold isPrimeWith in H.
  destruct (trialDivision TRIAL_PRIMES n) as [b |] eqn:T.
  - inversion H; subst. apply trial_Some_exact in T.
    assert (Hp : prime n) by (apply T; auto). split; [apply prime_ge_2; auto |].
    intros p Hpp _ Hd. apply prime_div_prime; auto.
  - pose proof (trial_None_gt n T). split; [lia |].
    intros p Hp Hb Hd. exfalso.
    pose proof (prime_ge_2 p Hp).
    apply TRIAL_PRIMES_exact in Hp; auto.
    destruct (trialDivision_None _ _ T p Hp) as [_ Hr]. apply Hr.
    rewrite Z.rem_mod_nonneg by lia. apply Z.mod_divide; auto; lia.
Qed.

Lemma composite_small_factor : forall n, 2 <= n -> ~ prime n ->
  exists p, prime p /\ (p | n) /\ p * p <= n.
Proof.
  intros n Hn Hnp.
  (* least divisor >= 2 *)
  assert (Hex : exists d, 2 <= d /\ (d | n) /\ d * d <= n).
  { destruct (not_prime_divide n ltac:(lia) Hnp) as [d [Hd1 [k Hk]]].
    destruct (Z.le_gt_cases (d * d) n).
    - exists d. repeat split; try lia. exists k; auto.
    - exists k. repeat split; try nia. exists d; lia. }
  destruct Hex as [d [Hd [Hdiv Hsq]]].
  assert (Hgen : forall d, 0 <= d -> 2 <= d -> (d | n) -> d * d <= n ->
     exists p, prime p /\ (p | n) /\ p * p <= n).
  { intros d' Hd'. pattern d'. apply Zlt_0_ind; [| exact Hd'].
    clear d' Hd'. intros d' IH _ H1 H2 H3.
    destruct (prime_dec d') as [Hp | Hnp'].
    - exists d'; auto.
    - destruct (not_prime_divide d' ltac:(lia) Hnp') as [e [He [k Hk]]].
      apply (IH e); try lia.
      + apply Z.divide_trans with d'; auto. exists k; auto.
      + nia. }
  apply (Hgen d); auto; lia.
Qed.

Lemma isPrimeWith_small : forall mul n, n < 137 * 137 -> isPrimeWith mul n = Ok true -> prime n.
Proof.
  intros mul n Hn H. apply isPrimeWith_factor in H. destruct H as [H2 Hf].
  destruct (prime_dec n) as [Hp | Hnp]; auto. exfalso.
  destruct (composite_small_factor n H2 Hnp) as (p & Hp & Hd & Hsq).
  pose proof (prime_ge_2 p Hp).
  assert (p < 137) by nia.
  assert (p <= 131 \/ p = 132 \/ p = 133 \/ p = 134 \/ p = 135 \/ p = 136) as HC by lia.
  destruct HC as [HC | HC].
  - specialize (Hf p Hp HC Hd). subst. nia.
  - apply primeb_spec in Hp. destruct HC as [-> | [-> | [-> | [-> | ->]]]]; vm_compute in Hp; discriminate.
Qed.
