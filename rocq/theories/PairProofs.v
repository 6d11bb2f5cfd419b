From Verif Require Import Tac Base RndModel RandSpec RandSeqModel RndLemmas ShuffleProofs GenOpsModel ArrangeProofs PairModel PairSpec
  DistinctProofs MathModel MathProofs MathProofs2 RandMiscProofs UniformProofs UniformProofs2.
From Coq Require Import QArith Qpower Qfield Permutation Znumtheory Lqa.
Import ListNotations.
Open Scope Z_scope.

Lemma rotate_uniform : forall A (l : list A) (dec : forall x y : Z * list A, {x = y} + {x <> y}) k, 0 <= k < alen l ->
  (Pr (rotate l) (resultIs dec (k, skipn (Z.to_nat k) l ++ firstn (Z.to_nat k) l)) == 1 / inject_Z (alen l))%Q.
Proof.
  intros A l dec k H. unfold rotate, Pr. rewrite expect_bind, expect_rint by lia. rewrite Z.sub_0_r.
  rewrite (qsum_single _ _ (zseq 0 (Z.to_nat (alen l))) k 1%Q); [reflexivity | apply zseq_NoDup | apply in_zseq; lia | |].
  - cbn [ret expect resultIs]. destruct (dec _ _); [reflexivity | contradiction].
  - intros x _ N. cbn [ret expect resultIs]. destruct (dec _ _) as [E |]; [| reflexivity]. inversion E. contradiction.
Qed.

Lemma rotate_nil : forall A, rotate (@nil A) = RRet Throw.
Proof. reflexivity. Qed.

Lemma selectPair_half : forall A (dec : forall x y : A, {x = y} + {x <> y}) (t : A * A) x,
  (Pr (selectPair t) (resultIs dec x) == inject_Z (Z.of_nat (count_occ dec [fst t; snd t] x)) / 2)%Q.
Proof.
  intros A dec [a b] x. unfold selectPair, Pr. rewrite expect_bind, expect_rbit. cbn [ret expect resultIs fst snd count_occ].
  destruct (dec a x), (dec b x); reflexivity.
Qed.

Lemma shufflePair_half : forall A (dec : forall x y : A * A, {x = y} + {x <> y}) (t : A * A) x,
  (Pr (shufflePair t) (resultIs dec x) == inject_Z (Z.of_nat (count_occ dec [t; (snd t, fst t)] x)) / 2)%Q.
Proof.
  intros A dec t x. unfold shufflePair, Pr. rewrite expect_bind, expect_rbit. cbn [ret expect resultIs count_occ].
  destruct (dec t x), (dec (snd t, fst t) x); reflexivity.
Qed.

Lemma Qpower_plus_nn : forall (a : Q) n m, 0 <= n -> 0 <= m -> (a ^ (n + m) == a ^ n * a ^ m)%Q.
Proof.
  intros a [| n | n] [| m | m] Hn Hm; try lia; cbn [Z.add Qpower]; try ring.
  apply Qpower_plus_positive.
Qed.

Notation passes := taken.

Section Law.
  Variables lower upper sampleL sampleU : Z.
  Hypothesis Hl : is_i64 lower.
  Hypothesis Hu : is_i64 upper.
  Hypothesis H4 : is_i64 (4 * (upper - lower)).
  Hypothesis HsL : 0 <= sampleL.
  Hypothesis Hs : sampleL < sampleU.
  Hypothesis HsU : 2 * sampleU <= upper.

  Let l := zseq sampleL (Z.to_nat (sampleU - sampleL)).
  Let M := inject_Z (sampleU - sampleL).
  Let bad := inject_Z (Z.of_nat (length (filter (fun z => negb (passes (candidate z))) l))).
  Let good := inject_Z (Z.of_nat (length (filter (fun z => passes (candidate z)) l))).

  Lemma qsum_if : forall (p : Z -> bool) c (xs : list Z),
    (qsum (fun z => if p z then c else 0) xs == inject_Z (Z.of_nat (length (filter p xs))) * c)%Q.
  Proof.
    intros p c. induction xs as [| x xs IH]; [cbn; ring |]. cbn [qsum fold_right]. fold (qsum (fun z => if p z then c else 0)%Q xs).
    rewrite IH. cbn [filter]. destruct (p x); [| ring]. cbn [length]. rewrite Nat2Z.inj_succ. unfold Z.succ.
    rewrite inject_Z_plus. ring.
  Qed.

  Lemma M_nonzero : ~ (M == 0)%Q.
  Proof. unfold M. intro E. unfold Qeq, inject_Z in E. cbn in E. lia. Qed.

  Lemma M_split : (M == good + bad)%Q.
  Proof.
    unfold M, good, bad. rewrite <- inject_Z_plus.
    replace (sampleU - sampleL) with (Z.of_nat (length l)) by (unfold l; rewrite zseq_length; lia).
    rewrite <- Nat2Z.inj_add. assert (E : length l = (length (filter (fun z => passes (candidate z)) l) + length (filter (fun z => negb (passes (candidate z))) l))%nat).
    { clear. induction l as [| x xs IH]; [reflexivity |]. cbn [filter]. destruct (passes (candidate x)); cbn [negb length]; lia. }
    rewrite <- E. reflexivity.
  Qed.

  Lemma primeLoop_mean : forall k i (h : outcome (option Z) -> Q), i < 4 * (upper - lower) ->
    (expect (primeLoop (S k) i lower upper sampleL sampleU) h ==
     (qsum (fun z => if passes (candidate z) then h (Ok (Some (candidate z))) else 0) l +
      bad * expect (primeLoop k (i + 1) lower upper sampleL sampleU) h) / M)%Q.
  Proof.
    intros k i h Hi. rewrite (primeLoop_S lower upper sampleL sampleU H4).
    replace (i <? 4 * (upper - lower)) with true by lia.
    rewrite expect_bind, expect_rint by exact Hs. fold l. fold M.
    set (e := expect (primeLoop k (i + 1) lower upper sampleL sampleU) h).
    apply Qmult_comp; [| reflexivity].
    unfold bad. rewrite <- (qsum_if (fun z => negb (passes (candidate z))) e l), <- qsum_plus.
    apply qsum_ext. intros z Hz. unfold l in Hz. apply in_zseq in Hz.
    destruct (draw_ok upper sampleL sampleU Hu HsL HsU z ltac:(lia)) as [D1 D2].
    rewrite (chk_Ok (2 * z)) by exact D1. cbn [lift rbind]. fold (candidate z). unfold taken.
    destruct (isPrimeWith_total umulMod umulMod_correct (candidate z) D2) as [b Hb].
    change (isPrime (candidate z) = Ok b) in Hb. rewrite Hb. cbn [lift rbind]. destruct b; cbn [negb ret expect].
    - ring.
    - fold e. ring.
  Qed.

  Lemma primeLoop_stop : forall k i (h : outcome (option Z) -> Q), 4 * (upper - lower) <= i ->
    expect (primeLoop k i lower upper sampleL sampleU) h = h (Ok None).
  Proof.
    intros [| k] i h Hi; [reflexivity |]. rewrite (primeLoop_S lower upper sampleL sampleU H4).
    replace (i <? 4 * (upper - lower)) with false by lia. reflexivity.
  Qed.

  Lemma primeLoop_none : forall k i (h : outcome (option Z) -> Q), 0 <= i ->
    (h (Ok None) == 1)%Q -> (forall v, h (Ok (Some v)) == 0)%Q ->
    (expect (primeLoop k i lower upper sampleL sampleU) h == (bad / M) ^ (Z.max 0 (Z.min (Z.of_nat k) (4 * (upper - lower) - i))))%Q.
  Proof.
    induction k as [| k IH]; intros i h Hi H0 HS.
    { replace (Z.max 0 _) with 0 by lia. cbn [primeLoop ret expect]. rewrite H0. reflexivity. }
    destruct (Z.lt_ge_cases i (4 * (upper - lower))) as [L | G].
    - rewrite primeLoop_mean by exact L. rewrite IH by (auto; lia).
      assert (Z0 : (qsum (fun z => if passes (candidate z) then h (Ok (Some (candidate z))) else 0) l == 0)%Q).
      { transitivity (qsum (fun z => if passes (candidate z) then 0 else 0)%Q l).
        - apply qsum_ext. intros z _. destruct (passes (candidate z)); [apply HS | reflexivity].
        - rewrite (qsum_if (fun z => passes (candidate z)) 0%Q l). ring. }
      rewrite Z0.
      replace (Z.max 0 (Z.min (Z.of_nat (S k)) (4 * (upper - lower) - i)))
        with (Z.max 0 (Z.min (Z.of_nat k) (4 * (upper - lower) - (i + 1))) + 1) by lia.
      set (e := Z.max 0 _). assert (He : 0 <= e) by lia. clearbody e.
      rewrite Qpower_plus_nn by lia. change ((bad / M) ^ 1)%Q with (bad / M)%Q.
      field. apply M_nonzero.
    - rewrite primeLoop_stop by exact G. replace (Z.max 0 _) with 0 by lia. rewrite H0. reflexivity.
  Qed.

  Lemma primeLoop_hit : forall x, sampleL <= x < sampleU -> passes (candidate x) = true ->
    forall k i (h : outcome (option Z) -> Q), 0 <= i ->
    (h (Ok None) == 0)%Q -> (forall v, h (Ok (Some v)) == if v =? candidate x then 1 else 0)%Q ->
    (expect (primeLoop k i lower upper sampleL sampleU) h ==
     (1 - (bad / M) ^ (Z.max 0 (Z.min (Z.of_nat k) (4 * (upper - lower) - i)))) / good)%Q.
  Proof.
    intros x Hx Hp. assert (Hg : ~ (good == 0)%Q).
    { unfold good. intro E. unfold Qeq, inject_Z in E. cbn in E.
      assert (I : In x (filter (fun z => passes (candidate z)) l)) by (apply filter_In; split; [apply in_zseq; lia | exact Hp]).
      destruct (filter (fun z => passes (candidate z)) l); [contradiction | cbn in E; lia]. }
    induction k as [| k IH]; intros i h Hi H0 HS.
    { replace (Z.max 0 _) with 0 by lia. cbn [primeLoop ret expect]. rewrite H0. change ((bad / M) ^ 0)%Q with 1%Q. field. exact Hg. }
    destruct (Z.lt_ge_cases i (4 * (upper - lower))) as [L | G].
    - rewrite primeLoop_mean by exact L. rewrite IH by (auto; lia).
      assert (Z0 : (qsum (fun z => if passes (candidate z) then h (Ok (Some (candidate z))) else 0) l == 1)%Q).
      { apply (qsum_single _ _ l x); [apply zseq_NoDup | apply in_zseq; lia | |].
        - rewrite Hp, HS, Z.eqb_refl. reflexivity.
        - intros z Iz N. destruct (passes (candidate z)); [| reflexivity]. rewrite HS.
          replace (candidate z =? candidate x) with false; [reflexivity |]. symmetry. apply Z.eqb_neq. intro C.
          apply in_zseq in Iz. apply candidate_inj in C; lia. }
      rewrite Z0.
      replace (Z.max 0 (Z.min (Z.of_nat (S k)) (4 * (upper - lower) - i)))
        with (Z.max 0 (Z.min (Z.of_nat k) (4 * (upper - lower) - (i + 1))) + 1) by lia.
      set (e := Z.max 0 _). assert (He : 0 <= e) by lia. clearbody e.
      rewrite Qpower_plus_nn by lia. change ((bad / M) ^ 1)%Q with (bad / M)%Q.
      set (r := ((bad / M) ^ e)%Q). pose proof M_nonzero as Mn. pose proof M_split as Ms.
      assert (Eb : (bad == M - good)%Q) by (rewrite Ms; ring). clearbody r. rewrite Eb. field. split; assumption.
    - rewrite primeLoop_stop by exact G. replace (Z.max 0 _) with 0 by lia. rewrite H0. change ((bad / M) ^ 0)%Q with 1%Q. field. exact Hg.
  Qed.
End Law.

Lemma samples : forall lower upper, is_i64 lower -> is_i64 upper -> upper <> 2 ->
  let sL := if lower <=? 2 then 0 else Z.quot lower 2 in let sU := Z.quot upper 2 in
  0 <= sL /\ (lower < upper -> sL < sU -> 2 * sU <= upper) /\
  forall v, drawable lower upper v <-> exists x, sL <= x < sU /\ candidate x = v.
Proof.
  intros lower upper Hl Hu H2 sL sU.
  assert (HsL : 0 <= sL /\ (2 < lower -> sL = lower / 2) /\ (lower <= 2 -> sL = 0)).
  { unfold sL. destruct (lower <=? 2) eqn:El; [lia |]. rewrite quot2 by auto.
    replace (0 <=? lower) with true by lia. clear - El. dlia. }
  assert (HsU : (0 <= upper -> sU = upper / 2) /\ (upper < 0 -> sU <= 0)).
  { unfold sU. rewrite quot2 by auto. destruct (0 <=? upper) eqn:E0; split; intro; dlia. }
  destruct HsL as (S0 & S1 & S2). destruct HsU as [U1 U2]. clearbody sL sU.
  split; [exact S0 |]. split.
  { intros L LS. destruct (Z.lt_ge_cases upper 0) as [N | P]; [pose proof (U2 N); lia |]. rewrite (U1 P). clear. dlia. }
  intro v. split.
  - intros [R D]. assert (P : 0 <= upper) by lia. pose proof (U1 P) as E. destruct D as [-> | [G O]].
    + exists 0. rewrite candidate_val by lia. split; [| reflexivity]. split; [rewrite S2 by lia; lia |].
      rewrite E. clear - R H2. dlia.
    + exists (v / 2). rewrite Z.odd_spec in O. destruct O as [m ->].
      assert (Em : (2 * m + 1) / 2 = m) by (clear; dlia). rewrite Em. rewrite candidate_val by lia.
      replace (m =? 0) with false by lia. split; [| reflexivity]. split.
      * destruct (Z.le_gt_cases lower 2) as [A | A]; [rewrite S2 by lia; lia |]. rewrite S1 by lia. clear - R. dlia.
      * rewrite E. clear - R. dlia.
  - intros (x & Rx & <-). rewrite candidate_val by lia.
    assert (P : 0 <= upper) by (destruct (Z.lt_ge_cases upper 0) as [N |]; [pose proof (U2 N); lia | lia]).
    pose proof (U1 P) as E. destruct (x =? 0) eqn:Ex.
    + split; [| left; reflexivity]. assert (sL = 0) by lia. split.
      * destruct (Z.le_gt_cases lower 2) as [A | A]; [lia |]. rewrite S1 in H by lia. clear - H A. dlia.
      * assert (0 < upper / 2) by lia. clear - H0 H2. dlia.
    + split; [| right; split; [lia | apply Z.odd_spec; exists x; lia]]. split.
      * destruct (Z.le_gt_cases lower 2) as [A | A]; [lia |]. rewrite S1 in Rx by lia. clear - Rx. dlia.
      * rewrite E in Rx. clear - Rx. dlia.
Qed.

Lemma filter_perm_length : forall (p : Z -> bool) l l', Permutation l l' -> length (filter p l) = length (filter p l').
Proof.
  intros p l l' H. induction H; cbn [filter]; auto.
  - destruct (p x); cbn [length]; lia.
  - destruct (p x), (p y); reflexivity.
  - congruence.
Qed.
Lemma filter_map_length : forall (p : Z -> bool) f (l : list Z), length (filter p (map f l)) = length (filter (fun x => p (f x)) l).
Proof. intros p f. induction l as [| x l IH]; [reflexivity |]. cbn [map filter]. destruct (p (f x)); cbn [length]; lia. Qed.
Lemma filter_both : forall (p : Z -> bool) l, (length (filter p l) + length (filter (fun x => negb (p x)) l) = length l)%nat.
Proof. intros p. induction l as [| x l IH]; [reflexivity |]. cbn [filter]. destruct (p x); cbn [negb length]; lia. Qed.

Lemma randomPrime_law : forall lower upper cs, is_i64 lower -> is_i64 upper -> is_i64 (4 * (upper - lower)) -> upper <> 2 ->
  NoDup cs -> (forall v, In v cs <-> drawable lower upper v) -> cs <> [] ->
  let n := Z.of_nat (length cs) in let g := Z.of_nat (length (filter taken cs)) in
  let miss := ((inject_Z (n - g) / inject_Z n) ^ Z.min 6400 (4 * (upper - lower)))%Q in
  (Pr (randomPrime lower upper) thrown == miss)%Q /\
  forall p, In p cs -> taken p = true -> (Pr (randomPrime lower upper) (resultIs Z.eq_dec p) == (1 - miss) / inject_Z g)%Q.
Proof.
  intros lower upper cs Hl Hu H4 H2 ND HI NE n g miss.
  destruct (samples lower upper Hl Hu H2) as (S0 & SU & SV).
  set (sL := if lower <=? 2 then 0 else Z.quot lower 2) in *. set (sU := Z.quot upper 2) in *.
  assert (I0 : exists v, In v cs) by (destruct cs as [| v cs']; [contradiction | exists v; left; reflexivity]).
  destruct I0 as [v0 I0]. apply HI in I0. assert (LT : lower < upper) by (destruct I0; lia).
  apply SV in I0. destruct I0 as (x0 & X0 & _). assert (LS : sL < sU) by lia. specialize (SU LT LS).
  set (l := zseq sL (Z.to_nat (sU - sL))).
  assert (PM : Permutation (map candidate l) cs).
  { apply NoDup_Permutation; [| exact ND |].
    - assert (G : forall l', NoDup l' -> (forall x, In x l' -> 0 <= x) -> NoDup (map candidate l')).
      { induction l' as [| x l' IH]; intros N P; [constructor |]. inversion_clear N. cbn [map]. constructor.
        - intro C. apply in_map_iff in C. destruct C as (y & E & Iy). apply candidate_inj in E; [subst; contradiction | |]; apply P; [right; exact Iy | left; reflexivity].
        - apply IH; [assumption |]. intros y Iy. apply P. right. exact Iy. }
      apply G; [apply zseq_NoDup |]. intros x Ix. apply in_zseq in Ix. lia.
    - intro v. rewrite HI, SV, in_map_iff. unfold l. split; intros (x & A & B); exists x.
      + apply in_zseq in B. split; [lia | exact A].
      + split; [exact B | apply in_zseq; lia]. }
  assert (En : n = sU - sL).
  { unfold n. rewrite <- (Permutation_length PM), map_length. unfold l. rewrite zseq_length. lia. }
  assert (Eg : g = Z.of_nat (length (filter (fun z => passes (candidate z)) l))).
  { unfold g. rewrite <- (filter_perm_length taken _ _ PM), filter_map_length. reflexivity. }
  assert (Eb : n - g = Z.of_nat (length (filter (fun z => negb (passes (candidate z))) l))).
  { pose proof (filter_both (fun z => passes (candidate z)) l) as B. rewrite Eg, En.
    assert (Z.of_nat (length l) = sU - sL) by (unfold l; rewrite zseq_length; lia). lia. }
  assert (EM : Z.max 0 (Z.min (Z.of_nat (Z.to_nat 6400)) (4 * (upper - lower) - 0)) = Z.min 6400 (4 * (upper - lower))) by lia.
  assert (RP : randomPrime lower upper =
    (let? r := primeLoop (Z.to_nat 6400) 0 lower upper sL sU in match r with Some p => ret p | None => RRet Throw end)).
  { unfold randomPrime, judgeAssert. replace (lower <? upper) with true by lia. cbn [lift rbind]. fold sL. fold sU.
    replace (sL <? sU) with true by lia. reflexivity. }
  rewrite RP. split.
  - unfold Pr. rewrite expect_bind.
    rewrite (primeLoop_none lower upper sL sU Hu H4 S0 LS SU (Z.to_nat 6400) 0); [| lia | reflexivity | intro; reflexivity].
    rewrite EM. fold l. rewrite <- Eb, <- En. reflexivity.
  - intros p Ip Tp. apply HI in Ip. apply SV in Ip. destruct Ip as (x & Rx & <-). unfold Pr. rewrite expect_bind.
    rewrite (primeLoop_hit lower upper sL sU Hu H4 S0 LS SU x Rx Tp (Z.to_nat 6400) 0); [| lia | reflexivity |].
    + rewrite EM. fold l. rewrite <- Eb, <- En, <- Eg. reflexivity.
    + intro v. cbn [ret expect resultIs]. destruct (Z.eq_dec v (candidate x)) as [-> | N];
      [rewrite Z.eqb_refl; reflexivity | replace (v =? candidate x) with false by lia; reflexivity].
Qed.

(* a range of at most 1600 numbers with a prime *)
Lemma Qpower_range : forall (a b : Q) n, (0 <= a)%Q -> (a <= b)%Q -> 0 <= n -> (0 <= a ^ n /\ a ^ n <= b ^ n)%Q.
Proof.
  intros a b n A B Hn. revert n Hn. apply natlike_ind.
  - cbn. split; lra.
  - intros n Hn [I J]. unfold Z.succ. rewrite !Qpower_plus_nn by lia. change (a ^ 1)%Q with a. change (b ^ 1)%Q with b.
    set (u := (a ^ n)%Q) in *. set (w := (b ^ n)%Q) in *. clearbody u w. split; [apply Qmult_le_0_compat; lra |].
    apply Qle_trans with (w * a)%Q; [apply Qmult_le_compat_r; lra |]. rewrite !(Qmult_comm w). apply Qmult_le_compat_r; lra.
Qed.

Lemma bernoulli : forall a n, 0 <= a -> a ^ Z.of_nat n + Z.of_nat n * a ^ (Z.of_nat n - 1) <= (a + 1) ^ Z.of_nat n.
Proof.
  intros a n Ha. induction n as [| n IH]; [cbn; lia |].
  rewrite Nat2Z.inj_succ. unfold Z.succ. replace (Z.of_nat n + 1 - 1) with (Z.of_nat n) by lia.
  rewrite !Z.pow_add_r by lia. rewrite !Z.pow_1_r.
  assert (P : 0 <= a ^ (Z.of_nat n - 1)) by (apply Z.pow_nonneg; lia).
  assert (E : Z.of_nat n * a ^ Z.of_nat n = Z.of_nat n * (a ^ (Z.of_nat n - 1) * a)).
  { destruct n; [reflexivity |]. f_equal. rewrite <- (Z.pow_1_r a) at 3. rewrite <- Z.pow_add_r by lia. f_equal. lia. }
  set (u := a ^ Z.of_nat n) in *. set (w := a ^ (Z.of_nat n - 1)) in *. set (z := (a + 1) ^ Z.of_nat n) in *.
  assert (Nn : 0 <= Z.of_nat n) by lia. set (m := Z.of_nat n) in *. clearbody u w z m. nia.
Qed.

Lemma half_power : forall n, 1 <= n -> 2 * (n - 1) ^ n <= n ^ n.
Proof.
  intros n Hn. pose proof (bernoulli (n - 1) (Z.to_nat n) ltac:(lia)) as B. rewrite Z2Nat.id in B by lia.
  replace (n - 1 + 1) with n in B by lia.
  assert (E : (n - 1) ^ n = (n - 1) * (n - 1) ^ (n - 1)).
  { rewrite <- (Z.pow_1_r (n - 1)) at 2. rewrite <- Z.pow_add_r by lia. f_equal. lia. }
  assert (0 <= (n - 1) ^ (n - 1)) by (apply Z.pow_nonneg; lia). nia.
Qed.

Lemma inject_Z_power : forall a n, 0 <= n -> (inject_Z (a ^ n) == inject_Z a ^ n)%Q.
Proof.
  intros a n Hn. revert n Hn. apply natlike_ind; [reflexivity |]. intros n Hn IH. unfold Z.succ.
  rewrite Z.pow_add_r, Z.pow_1_r, inject_Z_mult, Qpower_plus_nn by lia. rewrite IH. reflexivity.
Qed.

Lemma miss_small : forall n g T, 1 <= g <= n -> 8 * n - 8 <= T -> 1 <= T ->
  ((inject_Z (n - g) / inject_Z n) ^ T <= 1 # 128)%Q.
Proof.
  intros n g T Hg HT HT1.
  assert (Np : (0 < inject_Z n)%Q) by (change 0%Q with (inject_Z 0); rewrite <- Zlt_Qlt; lia).
  assert (Q0 : (0 <= inject_Z (n - g) / inject_Z n)%Q).
  { apply Qle_shift_div_l; [exact Np |]. rewrite Qmult_0_l. change 0%Q with (inject_Z 0). rewrite <- Zle_Qle. lia. }
  set (t := (inject_Z (n - 1) / inject_Z n)%Q).
  assert (Q1 : (inject_Z (n - g) / inject_Z n <= t)%Q).
  { unfold t, Qdiv. apply Qmult_le_compat_r; [rewrite <- Zle_Qle; lia | apply Qlt_le_weak, Qinv_lt_0_compat, Np]. }
  apply Qle_trans with (t ^ T)%Q; [apply Qpower_range; auto; lia |].
  assert (T0 : (0 <= t)%Q) by (apply Qle_trans with (inject_Z (n - g) / inject_Z n)%Q; assumption).
  assert (T1 : (t <= 1)%Q).
  { apply Qle_shift_div_r; [exact Np |]. rewrite Qmult_1_l. rewrite <- Zle_Qle. lia. }
  assert (TN : (t ^ n <= 1 # 2)%Q).
  { unfold t, Qdiv. rewrite Qmult_power, Qinv_power. rewrite <- !inject_Z_power by lia.
    assert (P : (0 < inject_Z (n ^ n))%Q) by (change 0%Q with (inject_Z 0); rewrite <- Zlt_Qlt; apply Z.pow_pos_nonneg; lia).
    apply Qle_shift_div_r; [exact P |]. pose proof (half_power n ltac:(lia)) as HP. rewrite Zle_Qle, inject_Z_mult in HP.
    change (inject_Z 2) with 2%Q in HP. lra. }
  destruct (Z.lt_ge_cases n 8) as [N4 | N4].
  { replace T with ((Z.max 1 (8 * n - 8)) + (T - (Z.max 1 (8 * n - 8)))) by lia. rewrite Qpower_plus_nn by lia.
    destruct (Qpower_range t 1 (T - (Z.max 1 (8 * n - 8))) T0 T1 ltac:(lia)) as [R0 R1]. rewrite Qpower_1 in R1.
    assert (E8 : (t ^ (Z.max 1 (8 * n - 8)) <= 1 # 128)%Q /\ (0 <= t ^ (Z.max 1 (8 * n - 8)))%Q).
    { unfold t. assert (C : n = 1 \/ n = 2 \/ n = 3 \/ n = 4 \/ n = 5 \/ n = 6 \/ n = 7) by lia. destruct C as [-> | [-> | [-> | [-> | [-> | [-> | ->]]]]]]; vm_compute; split; discriminate. }
    destruct E8 as [E7 E8]. set (u := (t ^ (Z.max 1 (8 * n - 8)))%Q) in *. set (w := (t ^ (T - (Z.max 1 (8 * n - 8))))%Q) in *. clearbody u w.
    apply Qle_trans with (u * 1)%Q; [rewrite !(Qmult_comm u); apply Qmult_le_compat_r; assumption | lra]. }
  replace T with (n * 7 + (T - n * 7)) by lia. rewrite Qpower_plus_nn by lia.
  destruct (Qpower_range t 1 (T - n * 7) T0 T1 ltac:(lia)) as [R0 R1]. rewrite Qpower_1 in R1.
  assert (E7 : (t ^ (n * 7) <= 1 # 128)%Q /\ (0 <= t ^ (n * 7))%Q).
  { rewrite Qpower_mult. destruct (Qpower_range t 1 n T0 T1 ltac:(lia)) as [N0 _].
    destruct (Qpower_range (t ^ n) (1 # 2) 7 N0 TN ltac:(lia)) as [B0 B1]. split; [| exact B0].
    apply Qle_trans with ((1 # 2) ^ 7)%Q; [exact B1 | vm_compute; discriminate]. }
  destruct E7 as [E7 E8]. set (u := (t ^ (n * 7))%Q) in *. set (w := (t ^ (T - n * 7))%Q) in *. clearbody u w.
  apply Qle_trans with (u * 1)%Q; [rewrite !(Qmult_comm u); apply Qmult_le_compat_r; assumption | lra].
Qed.

Lemma drawable_count : forall lower upper cs, NoDup cs -> (forall v, In v cs -> drawable lower upper v) -> lower < upper ->
  2 * Z.of_nat (length cs) <= upper - lower + 2.
Proof.
  intros lower upper cs ND HI L.
  (* v |-> (v - 1) / 2 is injective into [ (lower - 1) / 2, (upper - 2) / 2 ] *)
  set (f := fun v => (v - 1) / 2).
  assert (INJ : NoDup (map f cs)).
  { assert (G : forall l, NoDup l -> (forall v, In v l -> drawable lower upper v) -> NoDup (map f l)).
    { induction l as [| x l IH]; intros N P; [constructor |]. inversion_clear N. cbn [map]. constructor; [| apply IH; [assumption | intros; apply P; right; assumption]].
      intro C. apply in_map_iff in C. destruct C as (y & E & Iy).
      destruct (P x (or_introl eq_refl)) as [_ X]. destruct (P y (or_intror Iy)) as [_ Y]. unfold f in E.
      assert (x = y); [| subst; contradiction].
      destruct X as [-> | [X1 X2]], Y as [-> | [Y1 Y2]]; try reflexivity; rewrite ?Z.odd_spec in *.
      - destruct Y2 as [m ->]. exfalso. clear - E Y1. dlia.
      - destruct X2 as [m ->]. exfalso. clear - E X1. dlia.
      - destruct X2 as [m ->], Y2 as [k ->]. assert (m = k) by (clear - E; dlia). lia. }
    apply G; assumption. }
  set (a := if lower <=? 2 then 0 else lower / 2). set (b := (upper - 2) / 2).
  assert (SUB : incl (map f cs) (zseq a (Z.to_nat (b + 1 - a)))).
  { intros y Iy. apply in_map_iff in Iy. destruct Iy as (x & <- & Ix). destruct (HI x Ix) as [R D]. apply in_zseq.
    assert (2 <= x) by (destruct D; lia). unfold f, a, b. split.
    - destruct (lower <=? 2) eqn:EL; [apply Z.div_pos; lia |]. destruct D as [-> | [D1 D2]]; [lia |].
      rewrite Z.odd_spec in D2. destruct D2 as [m ->]. clear - R. dlia.
    - assert ((x - 1) / 2 <= (upper - 2) / 2) by (apply Z.div_le_mono; lia). lia. }
  pose proof (NoDup_incl_length INJ SUB) as LE. rewrite map_length, zseq_length in LE.
  destruct cs as [| c cs]; [cbn; lia |]. destruct (HI c (or_introl eq_refl)) as [R D].
  assert (2 <= c) by (destruct D; lia).
  assert (Z.of_nat (length (c :: cs)) <= Z.max 0 (b + 1 - a)) by lia.
  assert (B0 : 0 <= b) by (apply Z.div_pos; lia).
  assert (2 * (b + 1 - a) <= upper - lower + 2); [| lia]. unfold a, b in *. destruct (lower <=? 2) eqn:EL; dlia.
Qed.

Lemma randomPrime_rarely : forall lower upper p, is_i64 lower -> is_i64 upper -> upper - lower <= 1600 ->
  prime p -> lower <= p < upper -> upper <> 2 -> (Pr (randomPrime lower upper) thrown <= 1 # 128)%Q.
Proof.
  intros lower upper p Hl Hu HD Hp HR H2.
  set (cs := filter (fun v => (v =? 2) || (2 <? v) && Z.odd v) (zseq lower (Z.to_nat (upper - lower)))).
  assert (HI : forall v, In v cs <-> drawable lower upper v).
  { intro v. unfold cs, drawable. rewrite filter_In, in_zseq, orb_true_iff, andb_true_iff, Z.eqb_eq, Z.ltb_lt.
    assert (lower + Z.of_nat (Z.to_nat (upper - lower)) = upper) by lia. rewrite H. tauto. }
  assert (Dp : drawable lower upper p).
  { split; [exact HR |]. pose proof (prime_ge_2 p Hp). destruct (Z.eq_dec p 2); [auto |]. right. split; [lia |].
    destruct (Z.odd p) eqn:E; [reflexivity |]. exfalso. rewrite <- Z.negb_even in E. apply negb_false_iff in E. apply Z.even_spec in E.
    destruct E as [m Em]. assert (D : (2 | p)) by (exists m; lia). apply n. symmetry. apply (prime_div_prime 2 p); auto using prime_2. }
  assert (ND : NoDup cs) by (apply NoDup_filter, zseq_NoDup).
  assert (NE : cs <> []) by (intro E; apply HI in Dp; rewrite E in Dp; contradiction).
  destruct (randomPrime_law lower upper cs Hl Hu ltac:(mach; lia) H2 ND HI NE) as [-> _].
  assert (TP : taken p = true).
  { unfold taken. destruct (isPrime_accepts_primes p Hp ltac:(mach; lia)) as [-> _]. reflexivity. }
  apply miss_small.
  - assert (IF : In p (filter taken cs)) by (apply filter_In; split; [apply HI; exact Dp | exact TP]).
    pose proof (filter_both taken cs). destruct (filter taken cs); [contradiction |]. cbn [length] in *. lia.
  - pose proof (drawable_count lower upper cs ND (fun v H => proj1 (HI v) H) ltac:(lia)). lia.
  - lia.
Qed.
