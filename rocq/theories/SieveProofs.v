From Verif Require Import Base BaseLemmas MathModel MathProofs.
From Coq Require Import Sorted Znumtheory ZifyBool ZifyNat ZifyN.
Ltac Zify.zify_post_hook ::= Z.div_mod_to_equations.

Lemma markFrom_Ok : forall a start stop step idx,
  0 < step -> 0 <= start -> stop + step <= I64_MAX ->
  (forall j, start <= j < stop -> 0 <= idx j < alen a) ->
  exists a', markFrom a start stop step idx = Ok a' /\ length a' = length a /\
    forall k, (k < length a)%nat ->
      (nth k a' false = true <->
       nth k a false = true \/
       exists t, 0 <= t /\ start + t * step < stop /\ idx (start + t * step) = Z.of_nat k).
Proof.
  intros a start stop step idx Hst Hs0 Hs2 Hidx. unfold markFrom.
  match goal with |- context [while _ ?c ?bd _] =>
  edestruct (while_total (Z * list bool)
    (fun st => exists u, 0 <= u /\ fst st = start + u * step /\
       (0 < u -> fst st < stop + step) /\
       length (snd st) = length a /\
       forall k, (k < length a)%nat ->
        (nth k (snd st) false = true <->
         nth k a false = true \/
         exists t, 0 <= t < u /\ start + t * step < stop /\ idx (start + t * step) = Z.of_nat k))
    (fun st => Z.max 0 (stop - fst st)) c bd)
    with (fuel := (Z.to_nat (stop - start) + 1)%nat) (s := (start, a)) as [s' [E [HI Hc]]] end.
  - intros [j b] (u & Hu & Hj & Hlt & Hlen & Hk) Hc. cbn [fst snd] in *.
    assert (Hjb : 0 <= idx j < alen b).
    { unfold alen in *. rewrite Hlen. apply Hidx. nia. }
    rewrite aset_Ok by auto. cbn [bind].
    rewrite chk_Ok by (mach; nia). cbn [bind].
    eexists; split; [reflexivity |]. cbn [fst snd]. split; [| nia].
    exists (u + 1). split; [lia |]. split; [lia |]. split; [lia |].
    split; [rewrite upd_length; auto |].
    intros k Hkl. rewrite nth_upd. unfold alen in *.
    destruct (Nat.eqb (Z.to_nat (idx j)) k) eqn:Ek.
    + replace (Nat.ltb (Z.to_nat (idx j)) (length b)) with true by lia. cbn [andb].
      split; [intros _ | auto]. right. exists u. subst j. sp; try lia; auto.
    + cbn [andb]. rewrite Hk by auto. split.
      * intros [H | (t & H1 & H2 & H3)]; [left; auto | right; exists t; sp; auto; lia].
      * intros [H | (t & H1 & H2 & H3)]; [left; auto |].
        destruct (Z.eq_dec t u) as [-> | Hne].
        -- exfalso. rewrite <- Hj in H3. apply Nat.eqb_neq in Ek. lia.
        -- right; exists t; sp; auto; lia.
  - cbn [fst snd]. exists 0. sp; try lia; auto.
    intros k Hk. split; [auto |]. intros [H1 | (t & H1 & _)]; [auto | lia].
  - cbn [fst]. lia.
  - cbn [fst]. intros Hc. lia.
  - rewrite E. destruct s' as [j b]. cbn [bind fst snd] in *.
    destruct HI as (u & Hu & Hj & Hlt & Hlen & Hk).
    exists b. split; [reflexivity |]. split; [auto |].
    intros k Hkl. rewrite Hk by auto. split; (intros [H | (t & H1 & H2 & H3)]; [auto | right; exists t; sp; auto; try lia; try nia]).
Qed.

Definition oddPrimeFactorBelow (i n : Z) : Prop :=
  exists p, prime p /\ 3 <= p < i /\ (p | n) /\ p * p <= n.

Lemma odd_prime : forall p, prime p -> 3 <= p -> p mod 2 = 1.
Proof.
  intros p Hp H3. destruct (Z.eq_dec (p mod 2) 0) as [E | E]; [| lia].
  exfalso. apply Z.mod_divide in E; [| lia]. apply prime_alt in Hp. destruct Hp as [_ Hp].
  apply (Hp 2); [lia | auto].
Qed.

Lemma odd_composite : forall n, 3 <= n -> n mod 2 = 1 ->
  (prime n <-> ~ oddPrimeFactorBelow n n).
Proof.
  intros n Hn Ho. split.
  - intros Hp (p & Hpp & Hb & Hd & _). apply prime_div_prime in Hd; auto. lia.
  - intros H. destruct (prime_dec n) as [|Hnp]; auto. exfalso. apply H.
    destruct (composite_small_factor n ltac:(lia) Hnp) as (p & Hp & Hd & Hsq).
    exists p. pose proof (prime_ge_2 p Hp).
    assert (p <> 2).
    { intros ->. apply Z.mod_divide in Hd; lia. }
    assert (H3 : 3 <= p) by lia. assert (Hlt : p < n) by (clear - H3 Hsq; nia).
    sp; auto; lia.
Qed.

(* marked odd multiples *)
Lemma odd_multiple : forall p start n, 3 <= p -> p mod 2 = 1 ->
  (exists b, start = p * (2 * b + 1)) ->
  n mod 2 = 1 -> (p | n) -> start <= n ->
  exists t, 0 <= t /\ n = start + t * (2 * p).
Proof.
  intros p start n Hp Ho [b Hb] Hn [a Ha] Hle.
  assert (Hao : a mod 2 = 1).
  { destruct (Z.eq_dec (a mod 2) 0) as [E|E]; [| lia]. exfalso.
    assert (a = 2 * (a / 2)) by lia. rewrite H in Ha.
    assert (n = 2 * (a / 2 * p)) by lia. lia. }
  exists ((a - (2 * b + 1)) / 2).
  assert (a = 2 * (a / 2) + 1) by lia. set (a' := a / 2) in *. clearbody a'. subst a.
  replace ((2 * a' + 1 - (2 * b + 1)) / 2) with (a' - b).
  - split; [nia | nia].
  - replace (2 * a' + 1 - (2 * b + 1)) with ((a' - b) * 2) by ring. rewrite Z.div_mul; lia.
Qed.

Definition sieveInv (lower upper count : Z) (st : Z * list bool * list bool) : Prop :=
  let '(i, np, seg) := st in
  3 <= i /\ i mod 2 = 1 /\
  length np = Z.to_nat ((count + 1) / 2) /\ length seg = Z.to_nat ((count + 1) / 2) /\
  (forall n, n mod 2 = 1 -> 3 <= n < count ->
     (nth (Z.to_nat (n / 2)) np false = true <-> oddPrimeFactorBelow i n)) /\
  (forall n, n mod 2 = 1 -> lower <= n < upper ->
     (nth (Z.to_nat ((n - lower) / 2)) seg false = true <-> oddPrimeFactorBelow i n)).

Lemma sieve_step : forall lower upper count st,
  2 <= lower -> count = upper - lower -> 0 < count <= 1073741823 ->
  upper + 2 * count <= I64_MAX ->
  sieveInv lower upper count st ->
  (let '(i, _, _) := st in i < count) ->
  exists st', sieveBody lower upper count st = Ok st' /\ sieveInv lower upper count st' /\
    (let '(i', _, _) := st' in let '(i, _, _) := st in i' = i + 2).
Proof.
  intros lower upper count [[i np] seg] Hlo Hcnt Hc Hov (Hi3 & Hio & Hnp & Hseg & HN & HS) Hi.
  unfold sieveBody.
  assert (Hlen : alen np = (count + 1) / 2) by (unfold alen; lia).
  assert (Hlen2 : alen seg = (count + 1) / 2) by (unfold alen; lia).
  rewrite (aget_Ok _ np (i / 2) false) by lia. cbn [bind].
  specialize (HN i Hio ltac:(lia)) as Hii.
  assert (Hskip : forall n, ~ prime i ->
     (oddPrimeFactorBelow i n <-> oddPrimeFactorBelow (i + 2) n)).
  { intros n Hnp'. split; intros (p & Hp & Hb & Hd & Hsq).
    - exists p; sp; auto; lia.
    - exists p. pose proof (odd_prime p Hp ltac:(lia)).
      assert (p <> i) by (intros ->; auto). sp; auto; lia. }
  destruct (nth (Z.to_nat (i / 2)) np false) eqn:Emark; cbn [negb].
  - (* i is composite *)
    eexists; split; [reflexivity |]. split; [| reflexivity].
    assert (Hnpi : ~ prime i) by (rewrite odd_composite by auto; intros K; apply K; apply Hii; auto).
    unfold sieveInv. split; [lia |]. split; [lia |]. split; [auto |]. split; [auto |].
    split; intros n H1 H2; rewrite <- Hskip by auto; auto.
  - (* i is prime *)
    assert (Hpi : prime i).
    { apply odd_composite; auto; try lia. intros K. apply Hii in K. congruence. }
    assert (Hih : exists h, i = 2 * h + 1) by (exists (i / 2); clear - Hio; lia).
    assert (Hi2 : 9 <= i * i <= 1152921504606846976) by (clear - Hi3 Hi Hc; nia).
    rewrite chk_Ok by (mach; lia). cbn [bind].
    destruct (markFrom_Ok np (i * i) count (2 * i) (fun j => j / 2)) as (np' & E1 & L1 & M1);
      [lia | lia | mach; lia | intros j Hj; lia |].
    rewrite E1. cbn [bind].
    assert (Hrem : Z.rem lower (2 * i) = lower mod (2 * i)) by (apply Z.rem_mod_nonneg; lia).
    rewrite Hrem.
    pose proof (Z.mod_pos_bound lower (2 * i) ltac:(lia)) as Hmb.
    pose proof (Z.div_mod lower (2 * i) ltac:(lia)) as Hdm.
    set (m := lower mod (2 * i)) in *. set (q := lower / (2 * i)) in *. clearbody m q.
    assert (Hq0 : 0 <= q) by nia.
    rewrite chk_Ok by (mach; lia). cbn [bind].
    set (lowest0 := lower - m + i).
    assert (Hl0 : exists lowest,
       (if lowest0 <? lower then chk (lowest0 + 2 * i) else Ok lowest0) = Ok lowest /\
       lower <= lowest < lower + 2 * i /\ exists b, lowest = i * (2 * b + 1)).
    { unfold lowest0. destruct (lower - m + i <? lower) eqn:El.
      - exists (lower - m + i + 2 * i). rewrite chk_Ok by (mach; lia).
        split; [reflexivity |]. split; [lia |]. exists (q + 1). subst lower. ring.
      - exists (lower - m + i). split; [reflexivity |]. split; [lia |]. exists q. subst lower. ring. }
    destruct Hl0 as (lowest & El & Hlb & Hlo2). rewrite El. cbn [bind]. clear lowest0 El.
    set (start := Z.max (i * i) lowest).
    assert (Hs : exists b, start = i * (2 * b + 1)).
    { unfold start. destruct (Z.max_spec (i * i) lowest) as [[_ ->] | [_ ->]]; auto.
      destruct Hih as [h Hh]. exists h. rewrite Hh. ring. }
    destruct (markFrom_Ok seg start upper (2 * i) (fun j => Z.quot (j - lower) 2)) as (seg' & E2 & L2 & M2);
      [lia | lia | mach; lia
      | intros j Hj; unfold start in Hj; rewrite Z.quot_div_nonneg by lia; lia |].
    rewrite E2. cbn [bind].
    eexists; split; [reflexivity |]. split; [| reflexivity].
    unfold sieveInv. split; [lia |]. split; [lia |]. split; [lia |]. split; [lia |].
    assert (Hnew : forall n, n mod 2 = 1 -> (oddPrimeFactorBelow (i + 2) n <->
        oddPrimeFactorBelow i n \/ ((i | n) /\ i * i <= n))).
    { intros n Hn. split.
      - intros (p & Hp & Hb & Hd & Hsq). destruct (Z.eq_dec p i) as [-> | Hne]; [right; auto |].
        left. exists p. pose proof (odd_prime p Hp ltac:(lia)). sp; auto; lia.
      - intros [(p & Hp & Hb & Hd & Hsq) | [Hd Hsq]].
        + exists p; sp; auto; lia.
        + exists i; sp; auto; lia. }
    clear Hov E1 E2 Hrem Hmb Hdm Hq0 Hskip Hii Emark Hlen Hlen2 Hc.
    split.
    + intros n Hn Hb. rewrite M1 by lia. rewrite Hnew by auto. rewrite HN by auto.
      assert (Heq : (exists t, 0 <= t /\ i * i + t * (2 * i) < count /\ (i * i + t * (2 * i)) / 2 = Z.of_nat (Z.to_nat (n / 2))) <-> ((i | n) /\ i * i <= n)).
      { split.
        - intros (t & Ht & Hlt & He).
          assert (Hodd : (i * i + t * (2 * i)) mod 2 = 1).
          { destruct Hih as [h Hh]. rewrite Hh.
            replace ((2*h+1)*(2*h+1) + t*(2*(2*h+1))) with (1 + (2*h*h + 2*h + t*(2*h+1)) * 2) by ring.
            rewrite Z_mod_plus_full. reflexivity. }
          assert (Hne : n = i * i + t * (2 * i)) by lia.
          split; [exists (i + 2 * t); rewrite Hne; ring |].
          rewrite Hne. clear - Ht Hi3. assert (0 <= t * (2 * i)) by (apply Z.mul_nonneg_nonneg; lia). lia.
        - intros [Hd Hsq].
          destruct (odd_multiple i (i * i) n) as (t & Ht & He); auto; try lia.
          { destruct Hih as [h Hh]. exists h. rewrite Hh. ring. }
          exists t. rewrite <- He. sp; lia. }
      rewrite Heq. tauto.
    + clear M1 HN Hnp L1 L2 Hi Hi2.
      intros n Hn Hb. rewrite M2 by lia. clear M2. rewrite Hnew by auto. rewrite HS by auto.
      assert (Heq : (exists t, 0 <= t /\ start + t * (2 * i) < upper /\ Z.quot (start + t * (2 * i) - lower) 2 = Z.of_nat (Z.to_nat ((n - lower) / 2))) <-> ((i | n) /\ i * i <= n)).
      { split.
        - intros (t & Ht & Hlt & He). destruct Hs as [b Hs].
          assert (Hst : lower <= start + t * (2 * i) /\ i * i <= start + t * (2 * i)) 
            by (assert (0 <= t * (2 * i)) by (apply Z.mul_nonneg_nonneg; lia); clear Hih Hseg HS; unfold start; lia).
          rewrite Z.quot_div_nonneg in He by lia.
          assert (Hodd : (start + t * (2 * i)) mod 2 = 1).
          { rewrite Hs. destruct Hih as [h Hh]. rewrite Hh.
            replace ((2*h+1)*(2*b+1) + t*(2*(2*h+1))) with (1 + ((2*h+1)*b + h + t*(2*h+1)) * 2) by ring.
            rewrite Z_mod_plus_full. reflexivity. }
          assert (Hne : n = start + t * (2 * i)) by lia.
          split; [rewrite Hne, Hs; exists (2 * b + 1 + 2 * t); ring | lia].
        - intros [Hd Hsq].
          assert (Hge : start <= n).
          { unfold start. apply Z.max_lub; auto.
            (* the first odd multiple of i that is >= lower is lowest *)
            destruct Hlo2 as [b Hlo2]. destruct Hd as [a Ha].
            destruct (Z.le_gt_cases lowest n); auto. exfalso.
            assert (Hao : a mod 2 = 1).
            { destruct (Z.eq_dec (a mod 2) 0) as [E|E]; [| lia]. exfalso.
              assert (a = 2 * (a / 2)) by lia. rewrite H0 in Ha.
              assert (n = 2 * (a / 2 * i)) by (rewrite Ha at 1; ring). clear - H1 Hn. lia. }
            assert (Hah : a = 2 * (a / 2) + 1) by lia. set (h := a / 2) in *. clearbody h. subst a.
            clear - Hlo2 Ha H Hlb Hb Hi3.
            assert (h < b) by nia. nia. }
          destruct (odd_multiple i start n) as (t & Ht & He); auto; try lia.
          exists t. rewrite <- He. rewrite Z.quot_div_nonneg by lia. sp; lia. }
      rewrite Heq. tauto.
Qed.

Lemma StronglySorted_snoc : forall l x,
  StronglySorted Z.lt l -> (forall y, In y l -> y < x) -> StronglySorted Z.lt (l ++ [x]).
Proof.
  induction l; simpl; intros x Hs Hx.
  - constructor; constructor.
  - inversion Hs; subst. constructor; auto.
    apply Forall_app. split; [auto |]. constructor; [apply Hx; auto | constructor].
Qed.

Lemma lor1 : forall x, 0 <= x -> Z.lor x 1 = if x mod 2 =? 0 then x + 1 else x.
Proof.
  intros x Hx. pose proof (Zmod_odd x). destruct (Z.odd x) eqn:E.
  - replace (x mod 2 =? 0) with false by lia.
    apply Z.bits_inj'. intros n Hn. rewrite Z.lor_spec.
    destruct (Z.eq_dec n 0) as [-> |].
    + rewrite Z.bit0_odd, E. reflexivity.
    + replace (Z.testbit 1 n) with false; [apply orb_false_r |].
      symmetry. apply Z.bits_above_log2; simpl; lia.
  - replace (x mod 2 =? 0) with true by lia.
    assert (Hl : Z.land x 1 = 0).
    { apply Z.bits_inj'. intros n Hn. rewrite Z.land_spec, Z.bits_0.
      destruct (Z.eq_dec n 0) as [-> |].
      * rewrite Z.bit0_odd, E. reflexivity.
      * replace (Z.testbit 1 n) with false; [apply andb_false_r |].
        symmetry. apply Z.bits_above_log2; simpl; lia. }
    rewrite Z.add_nocarry_lxor by exact Hl. rewrite Z.lxor_lor by exact Hl. reflexivity.
Qed.

Lemma primesWith_Ok : forall mul, mul_correct mul -> forall lower upper,
  is_i64 lower -> is_i64 upper -> lower < upper ->
  let lo := Z.max 2 lower in let up := Z.max 2 upper in let count := up - lo in
  count <= 1073741823 -> up + 2 * count <= I64_MAX ->
  exists l, primesWith mul lower upper = Ok l /\ StronglySorted Z.lt l /\
    (forall n, prime n -> lower <= n < upper -> In n l) /\
    (forall n, In n l -> lower <= n < upper /\ isPrimeWith mul n = Ok true /\
                         (n < count * count -> prime n)).
Proof.
  intros mul Hmul lower upper Hl Hu Hlu lo up count Hc Hov. unfold primesWith, judgeAssert.
  replace (lower <? upper) with true by lia. cbn [bind].
  fold lo up. replace (Z.min 1073741823 (up - lo)) with count by lia.
  assert (Hlo2 : 2 <= lo) by lia.
  match goal with |- context [while _ ?c ?bd (3, _, _)] =>
  edestruct (while_total (Z * list bool * list bool) (sieveInv lo up count)
    (fun st => let '(i, _, _) := st in Z.max 0 (count - i)) c bd)
    with (fuel := Z.to_nat count)
         (s := (3, repeat false (Z.to_nat ((count + 1) / 2)), repeat false (Z.to_nat ((count + 1) / 2))))
    as [s' [E [HI Hcond]]] end.
  - intros [[i np] seg] HI Hcond. apply Z.ltb_lt in Hcond.
    assert (Hi3 : 3 <= i) by apply HI.
    destruct (sieve_step lo up count (i, np, seg)) as (st' & E & HI' & Hi'); auto; try lia.
    exists st'. split; [exact E |]. split; [exact HI' |].
    destruct st' as [[i' ?] ?]. lia.
  - assert (Hrep : forall k, nth k (repeat false (Z.to_nat ((count + 1) / 2))) false = false).
    { intros k. destruct (nth_in_or_default k (repeat false (Z.to_nat ((count + 1) / 2))) false) as [H | H]; auto.
      apply repeat_spec in H. auto. }
    unfold sieveInv. rewrite !repeat_length. split; [lia |]. split; [reflexivity |].
    split; [lia |]. split; [lia |].
    split; intros n H1 H2; rewrite Hrep; (split; [discriminate | intros (p & Hp & Hb & _); lia]).
  - lia.
  - intros Hcond. apply Z.ltb_lt in Hcond. lia.
  - rewrite E. cbn [bind]. destruct s' as [[i np] seg].
    apply Z.ltb_ge in Hcond.
    destruct HI as (Hi3 & Hio & Hnp & Hseg & HN & HS).
    (* the test applied to odd candidates *)
    set (cand := fun n => n mod 2 = 1 /\ lo <= n < up /\ ~ oddPrimeFactorBelow i n /\
                    (n < count * count \/ isPrimeWith mul n = Ok true)).
    rewrite lor1 by lia.
    set (first := if lo mod 2 =? 0 then lo + 1 else lo).
    assert (Hf : lo <= first <= lo + 1 /\ first mod 2 = 1) by (unfold first; destruct (lo mod 2 =? 0) eqn:Ef; lia).
    match goal with |- context [while _ ?c ?bd (first, _)] =>
    edestruct (while_total (Z * list Z)
      (fun st => first <= fst st <= up + 1 /\ fst st mod 2 = 1 /\
         StronglySorted Z.lt (snd st) /\ (forall y, In y (snd st) -> y < fst st) /\
         (forall n, In n (snd st) <-> (n = 2 /\ lo <= 2 /\ 2 < up) \/ (n < fst st /\ cand n)))
      (fun st => Z.max 0 (up - fst st)) c bd)
      with (fuel := (Z.to_nat (up - lo) + 1)%nat)
           (s := (first, if (lo <=? 2) && (2 <? up) then [2] else []))
      as [[i' res] [E' [HI' Hcond']]] end.
    + intros [k res] (Hk & Hko & Hs & Hlt & Hin) Hcd. cbn [fst snd] in *. apply Z.ltb_lt in Hcd.
      rewrite Z.quot_div_nonneg by lia.
      rewrite (aget_Ok _ seg ((k - lo) / 2) false) by (unfold alen; lia). cbn [bind].
      specialize (HS k Hko ltac:(lia)) as HSk.
      destruct (isPrimeWith_total mul Hmul k) as [bp Ebp]; [mach; lia |].
      assert (Hadd : exists add : bool,
        (if negb (nth (Z.to_nat ((k - lo) / 2)) seg false)
         then if k <? count * count then Ok true else isPrimeWith mul k
         else Ok false) = Ok add /\ (add = true <-> cand k)).
      { destruct (nth (Z.to_nat ((k - lo) / 2)) seg false) eqn:En; cbn [negb].
        - exists false. split; auto. split; [discriminate |]. intros (_ & _ & Hno & _). exfalso. apply Hno, HSk; auto.
        - assert (~ oddPrimeFactorBelow i k) by (intros K; apply HSk in K; congruence).
          destruct (k <? count * count) eqn:Ecc.
          + exists true. split; auto. split; auto. intros _. unfold cand. sp; auto; lia.
          + exists bp. split; auto. unfold cand. split.
            * intros ->. sp; auto; lia.
            * intros (_ & _ & _ & [K | K]); [lia | congruence]. }
      destruct Hadd as (add & Ea & Hcand). rewrite Ea. cbn [bind].
      rewrite chk_Ok by (mach; lia). cbn [bind].
      eexists; split; [reflexivity |]. cbn [fst snd]. split; [| lia].
      assert (Hexp : forall n, n mod 2 = 1 -> n < k + 2 <-> n < k \/ n = k) by (intros; lia).
      split; [lia |]. split; [lia |].
      destruct add.
      * split; [apply StronglySorted_snoc; auto |].
        split; [intros y Hy; apply in_app_or in Hy; destruct Hy as [Hy | [<- | []]]; [specialize (Hlt y Hy); lia | lia] |].
        intros n. rewrite in_app_iff, Hin. split.
        -- intros [[K | K] | [<- | []]]; [left; auto | right; split; [lia | apply K] | right; split; [lia | apply Hcand; auto]].
        -- intros [K | [K1 K2]]; [auto |]. apply Hexp in K1; [| apply K2].
           destruct K1 as [K1 | ->]; [left; right; auto | right; left; auto].
      * split; [auto |]. split; [intros y Hy; specialize (Hlt y Hy); lia |].
        intros n. rewrite Hin. split.
        -- intros [K | [K1 K2]]; [left; auto | right; split; [lia | auto]].
        -- intros [K | [K1 K2]]; [auto |]. right. split; auto. apply Hexp in K1; [| apply K2].
           destruct K1 as [K1 | ->]; auto. apply Hcand in K2. discriminate.
    + cbn [fst snd]. split; [lia |]. split; [apply Hf |].
      assert (Hnc : forall n, ~ (n < first /\ cand n)).
      { intros n (K1 & K2 & K3 & _). unfold first in K1. destruct (lo mod 2 =? 0) eqn:Ef; lia. }
      destruct ((lo <=? 2) && (2 <? up)) eqn:E2.
      * split; [constructor; constructor |]. split; [intros y [<- | []]; lia |].
        intros n. split; [intros [<- | []]; left; lia |]. intros [[-> _] | K]; [left; auto | exfalso; eapply Hnc; eauto].
      * split; [constructor |]. split; [intros y [] |].
        intros n. split; [intros [] |]. intros [K | K]; [lia | exfalso; eapply Hnc; eauto].
    + cbn [fst]. lia.
    + cbn [fst]. intros K; apply Z.ltb_lt in K. lia.
    + rewrite E'. cbn [bind]. cbn [fst snd] in *. apply Z.ltb_ge in Hcond'.
      destruct HI' as (Hk & Hko & Hs & Hlt & Hin).
      exists res. split; [reflexivity |]. split; [auto |]. split.
      * intros n Hp Hb. apply Hin. pose proof (prime_ge_2 n Hp).
        destruct (Z.eq_dec n 2) as [-> | Hn2]; [left; lia |]. right.
        pose proof (odd_prime n Hp ltac:(lia)).
        split; [lia |]. unfold cand. split; [auto |]. split; [lia |].
        split.
        -- intros (p & Hpp & Hpb & Hd & Hsq). apply prime_div_prime in Hd; auto. subst p.
           clear - Hpb Hsq. nia.
        -- right. apply isPrimeWith_prime; auto. mach; lia.
      * intros n Hn. apply Hin in Hn.
        assert (Hgoal : lower <= n < upper /\ 2 <= n /\ (n < count * count -> prime n) /\ (prime n \/ isPrimeWith mul n = Ok true)).
        { destruct Hn as [(-> & K1 & K2) | (K0 & K1 & K2 & K3 & K4)].
          - pose proof prime_2. sp; auto; try lia.
          - assert (Hpr : n < count * count -> prime n).
            { intros Hcc. apply odd_composite; auto; try lia.
              intros (p & Hp & Hb & Hd & Hsq). apply K3. exists p. sp; auto; try lia.
              assert (p < count) by (clear - Hsq Hcc Hp Hb Hlu; unfold count, up, lo in *; nia). lia. }
            sp; auto; try lia. destruct K4; auto. }
        destruct Hgoal as (G1 & G2 & G3 & G4). split; [auto |]. split; [| auto].
        destruct G4 as [G4 | G4]; auto. apply isPrimeWith_prime; auto. mach; lia.
Qed.
