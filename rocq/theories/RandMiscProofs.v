From Verif Require Import Tac RndModel RandSeqModel RndLemmas SortLemmas DistinctProofs ShuffleProofs
  MathModel MathProofs MathProofs2.
From Coq Require Import QArith Qfield Permutation Znumtheory.
Open Scope Z_scope.

(* ---- prime ---- *)
Definition candidate (x : Z) : Z := Z.max 2 (Z.lor (2 * x) 1).
Lemma candidate_val : forall x, 0 <= x -> candidate x = if x =? 0 then 2 else 2 * x + 1.
Proof.
  intros x H. unfold candidate. replace (Z.lor (2 * x) 1) with (2 * x + 1).
  - destruct (x =? 0) eqn:E; lia.
  - destruct x; try reflexivity. lia.
Qed.

Section PrimeLoop.
  Variables lower upper sampleL sampleU : Z.
  Hypothesis Hl : is_i64 lower.
  Hypothesis Hu : is_i64 upper.
  Hypothesis H4 : is_i64 (4 * (upper - lower)).
  Hypothesis HsL : 0 <= sampleL.
  Hypothesis Hs : sampleL < sampleU.
  Hypothesis HsU : 2 * sampleU <= upper.

  Lemma upper_bound : 2 * sampleU <= I64_MAX. Proof. mach. lia. Qed.
  Lemma diff_ok : is_i64 (upper - lower). Proof. mach. lia. Qed.


  Lemma primeLoop_S : forall k i, primeLoop (S k) i lower upper sampleL sampleU =
    if i <? 4 * (upper - lower) then
      let? x := rint sampleL sampleU in
      let? x2 := lift (chk (2 * x)) in
      let? ok := lift (isPrime (Z.max 2 (Z.lor x2 1))) in
      if ok : bool then ret (Some (Z.max 2 (Z.lor x2 1)))
      else primeLoop k (i + 1) lower upper sampleL sampleU
    else ret None.
  Proof.
    intros k i. cbn [primeLoop]. rewrite (chk_Ok (upper - lower)) by apply diff_ok. cbn [lift rbind].
    rewrite (chk_Ok (4 * (upper - lower))) by auto. cbn [lift rbind]. reflexivity.
  Qed.

  Lemma draw_ok : forall x, sampleL <= x < sampleU -> is_i64 (2 * x) /\ is_i64 (candidate x).
  Proof.
    intros x Hx. rewrite candidate_val by lia. destruct (x =? 0); mach; lia.
  Qed.

  Lemma primeLoop_always : forall k i,
    always (primeLoop k i lower upper sampleL sampleU)
      (returns (fun r => match r with
                         | Some p => isPrime p = Ok true /\ exists x, sampleL <= x < sampleU /\ p = candidate x
                         | None => True end)).
  Proof.
    induction k; intros i; [apply returns_ret; exact I |]. rewrite primeLoop_S.
    destruct (i <? 4 * (upper - lower)); [| apply returns_ret; exact I].
    eapply returns_bind; [apply returns_rint; exact Hs |]. intros x Hx. cbv beta in Hx.
    destruct (draw_ok x Hx) as [D1 D2]. rewrite (chk_Ok (2 * x)) by exact D1. cbn [lift rbind].
    fold (candidate x).
    destruct (isPrimeWith_total umulMod umulMod_correct (candidate x) D2) as [b Hb].
    change (isPrime (candidate x) = Ok b) in Hb. rewrite Hb. cbn [lift rbind]. destruct b.
    - apply returns_ret. split; [exact Hb |]. exists x. auto.
    - apply IHk.
  Qed.

  Lemma primeLoop_can : forall k i x, i < 4 * (upper - lower) -> sampleL <= x < sampleU ->
    isPrime (candidate x) = Ok true ->
    can (primeLoop (S k) i lower upper sampleL sampleU) (Ok (Some (candidate x))).
  Proof.
    intros k i x Hi Hx Hp. rewrite primeLoop_S. replace (i <? 4 * (upper - lower)) with true by lia.
    unfold rint. replace (sampleL <? sampleU) with true by lia. cbn [rbind can ret].
    exists x. split; [exact Hx |].
    destruct (draw_ok x Hx) as [D1 _]. rewrite (chk_Ok (2 * x)) by exact D1. cbn [lift rbind].
    fold (candidate x). rewrite Hp. cbn [lift rbind]. reflexivity.
  Qed.
End PrimeLoop.

Lemma quot2 : forall a, is_i64 a -> Z.quot a 2 = if 0 <=? a then a / 2 else - ((- a) / 2).
Proof.
  intros a H. destruct (0 <=? a) eqn:E.
  - apply Z.quot_div_nonneg; lia.
  - rewrite <- (Z.opp_involutive a) at 1. rewrite Z.quot_opp_l by lia.
    rewrite Z.quot_div_nonneg by lia. reflexivity.
Qed.

Lemma randomPrime_always : forall lower upper, is_i64 lower -> is_i64 upper ->
  is_i64 (4 * (upper - lower)) -> upper <> 2 ->
  always (randomPrime lower upper)
    (fun o => o = Throw \/ exists v, o = Ok v /\ lower <= v < upper /\ isPrime v = Ok true).
Proof.
  intros lower upper Hl Hu H4 H2. unfold randomPrime, judgeAssert.
  destruct (lower <? upper) eqn:E; cbn [lift rbind always]; [| left; reflexivity].
  set (sL := if lower <=? 2 then 0 else Z.quot lower 2). set (sU := Z.quot upper 2).
  destruct (sL <? sU) eqn:Es; [| left; reflexivity].
  assert (HsL : 0 <= sL /\ (2 < lower -> sL = lower / 2)).
  { unfold sL. destruct (lower <=? 2) eqn:El; [lia |]. rewrite quot2 by auto.
    replace (0 <=? lower) with true by lia. clear - El. dlia. }
  assert (HsU : 0 < upper /\ sU = upper / 2).
  { unfold sU in *. rewrite quot2 in * by auto. destruct (0 <=? upper) eqn:E0.
    - assert (0 < upper / 2) by lia. clear - H. dlia.
    - exfalso. assert (0 <= - upper / 2) by (apply Z.div_pos; lia). lia. }
  destruct HsL as [HsL HsL2]. destruct HsU as [HsU HsU2]. clearbody sL sU.
  eapply returns_bind.
  - apply primeLoop_always; auto; try lia; rewrite HsU2; clear; dlia.
  - intros [p |]; [| left; reflexivity]. intros (Hp & x & Hx & Ep). cbn [always ret].
    right. exists p. split; [reflexivity |]. split; [| exact Hp].
    rewrite Ep, candidate_val by lia. destruct (x =? 0) eqn:E0.
    + split; [| clear - HsU2 Hx E0 H2; dlia].
      destruct (Z.le_gt_cases lower 2); [lia |]. clear - HsL2 H Hx E0. assert (sL = lower / 2) by auto. dlia.
    + split; [| clear - HsU2 Hx; dlia].
      destruct (Z.le_gt_cases lower 2); [lia |]. clear - HsL2 H Hx E0. assert (sL = lower / 2) by auto. dlia.
Qed.

Lemma randomPrime_complete : forall lower upper p, is_i64 lower -> is_i64 upper ->
  is_i64 (4 * (upper - lower)) -> prime p -> lower <= p < upper ->
  can (randomPrime lower upper) (Ok p).
Proof.
  intros lower upper p Hl Hu H4 Hp Hr. unfold randomPrime, judgeAssert.
  replace (lower <? upper) with true by lia. cbn [lift rbind].
  set (sL := if lower <=? 2 then 0 else Z.quot lower 2). set (sU := Z.quot upper 2).
  pose proof (prime_ge_2 p Hp) as P2.
  assert (HsL : 0 <= sL /\ sL <= p / 2 /\ (p = 2 -> sL = 0)).
  { unfold sL. destruct (lower <=? 2) eqn:El; [clear - P2; dlia |]. rewrite quot2 by auto.
    replace (0 <=? lower) with true by lia. clear - El Hr. dlia. }
  assert (HsU : sU = upper / 2).
  { unfold sU. rewrite quot2 by auto. replace (0 <=? upper) with true by lia. reflexivity. }
  assert (Hodd : p = 2 \/ p mod 2 = 1).
  { destruct (Z.eq_dec p 2); auto. right.
    assert (~ (2 | p)). { intros D. apply n. symmetry. apply (prime_div_prime 2 p); auto using prime_2. }
    assert (p mod 2 <> 0) by (intros C; apply H; apply Z.mod_divide; lia).
    clear - H0. dlia. }
  clearbody sL sU. destruct HsL as (S1 & S2 & S3).
  set (x := if p =? 2 then 0 else p / 2).
  assert (Hx : sL <= x < sU).
  { unfold x. destruct (p =? 2) eqn:E.
    - clear - S1 S3 HsU E Hr. dlia.
    - destruct Hodd as [| Ho]; [lia |]. clear - S2 HsU Ho Hr. dlia. }
  assert (Hc : candidate x = p).
  { rewrite candidate_val by lia. unfold x. destruct (p =? 2) eqn:E; [rewrite Z.eqb_refl; lia |].
    destruct Hodd as [| Ho]; [lia |]. destruct (p / 2 =? 0) eqn:E2; clear - Ho E2 P2 E; dlia. }
  replace (sL <? sU) with true by lia.
  eapply can_bind with (a := Some p).
  - change (Z.to_nat 6400) with (S (Z.to_nat 6399)). rewrite <- Hc. apply primeLoop_can; auto; try lia.
    rewrite Hc. refine (proj1 (isPrime_accepts_primes p Hp _)). clear - Hr Hu. mach. lia.
  - reflexivity.
Qed.

(* ---- discrete ---- *)
Lemma upperBound_count : forall ws s i, Forall (fun w => 0 <= w) ws -> (i < length ws)%nat ->
  length (filter (fun v => upperBound (prefixSum ws s) v =? Z.of_nat i) (zseq s (Z.to_nat (fold_right Z.add 0 ws))))
  = Z.to_nat (nth i ws 0).
Proof.
  induction ws as [| w ws IH]; intros s i HF Hi; [simpl in Hi; lia |].
  inversion_clear HF as [| ? ? Hw HF'].
  assert (Hsum : 0 <= fold_right Z.add 0 ws) by (clear - HF'; induction HF'; cbn [fold_right]; lia).
  cbn [fold_right prefixSum].
  replace (Z.to_nat (w + fold_right Z.add 0 ws)) with (Z.to_nat w + Z.to_nat (fold_right Z.add 0%Z ws))%nat by lia.
  rewrite zseq_app, filter_app, app_length. rewrite Z2Nat.id by lia.
  assert (A : forall f n lo, (forall v, lo <= v < lo + Z.of_nat n -> f v = true) -> length (filter f (zseq lo n)) = n).
  { clear. induction n; intros lo H; [reflexivity |]. cbn [zseq filter]. rewrite H by lia. cbn [length].
    rewrite IHn; auto. intros; apply H; lia. }
  assert (B : forall f n lo, (forall v, lo <= v < lo + Z.of_nat n -> f v = false) -> length (filter f (zseq lo n)) = O).
  { clear. induction n; intros lo H; [reflexivity |]. cbn [zseq filter]. rewrite H by lia.
    apply IHn. intros; apply H; lia. }
  assert (NN : forall l v, 0 <= upperBound l v).
  { clear. induction l; intros v; cbn [upperBound]; [lia |]. specialize (IHl v). destruct (v <? a); lia. }
  destruct i as [| i].
  - rewrite A, B; [cbn [nth]; lia | |].
    + intros v Hv. cbn [upperBound]. replace (v <? s + w) with false by lia.
      specialize (NN (prefixSum ws (s + w)) v). lia.
    + intros v Hv. cbn [upperBound]. replace (v <? s + w) with true by lia. reflexivity.
  - rewrite B. 2:{ intros v Hv. cbn [upperBound]. replace (v <? s + w) with true by lia. lia. }
    cbn [nth Nat.add]. rewrite <- (IH (s + w) i) by (auto; simpl in Hi; lia).
    f_equal. apply filter_ext_in. intros v Hv. apply in_zseq in Hv. cbn [upperBound].
    replace (v <? s + w) with false by lia. lia.
Qed.

Lemma prefixSum_last : forall ws s, ws <> [] -> last (prefixSum ws s) 0 = s + fold_right Z.add 0 ws.
Proof.
  induction ws as [| w ws IH]; intros s H; [contradiction |]. destruct ws as [| w' ws].
  - simpl. lia.
  - cbn [prefixSum fold_right]. cbn [prefixSum fold_right] in IH.
    change (last (s + w :: s + w + w' :: prefixSum ws (s + w + w')) 0)
      with (last (s + w + w' :: prefixSum ws (s + w + w')) 0).
    rewrite IH by discriminate. lia.
Qed.

Lemma discrete_prob : forall ws i, Forall (fun w => 0 <= w) ws -> 0 < fold_right Z.add 0 ws ->
  (i < length ws)%nat ->
  (Pr (discrete ws) (resultIs Z.eq_dec (Z.of_nat i)) ==
   inject_Z (nth i ws 0%Z) / inject_Z (fold_right Z.add 0%Z ws))%Q.
Proof.
  intros ws i HF HS Hi. unfold discrete, Pr.
  assert (ws <> []) by (destruct ws; [simpl in Hi; lia | discriminate]).
  rewrite prefixSum_last by auto. rewrite expect_bind, expect_rint by lia.
  rewrite Z.add_0_l, Z.sub_0_r.
  rewrite (qsum_ext _ _ (fun v => if upperBound (prefixSum ws 0) v =? Z.of_nat i then 1%Q else 0%Q)).
  - rewrite qsum_indicator, upperBound_count by auto.
    rewrite Z2Nat.id. { field. apply inject_Z_nonzero. lia. }
    rewrite Forall_forall in HF. apply HF. apply nth_In. exact Hi.
  - intros v _. cbn [expect ret]. unfold resultIs.
    destruct (Z.eq_dec (upperBound (prefixSum ws 0) v) (Z.of_nat i));
    destruct (upperBound (prefixSum ws 0) v =? Z.of_nat i) eqn:E; try reflexivity; lia.
Qed.

Lemma discrete_always : forall ws, Forall (fun w => 0 <= w) ws -> 0 < fold_right Z.add 0 ws ->
  always (discrete ws) (returns (fun i => 0 <= i < alen ws /\ 0 < nth (Z.to_nat i) ws 0)).
Proof.
  intros ws HF HS. unfold discrete.
  assert (ws <> []) by (destruct ws; [simpl in HS; lia | discriminate]).
  rewrite prefixSum_last by auto.
  eapply returns_bind; [apply returns_rint; lia |]. intros v Hv. cbv beta in Hv. apply returns_ret.
  rewrite Z.add_0_l in Hv. clear HS H. unfold alen.
  assert (G : forall ws s, Forall (fun w => 0 <= w) ws -> s <= v < s + fold_right Z.add 0 ws ->
     0 <= upperBound (prefixSum ws s) v < Z.of_nat (length ws) /\
     0 < nth (Z.to_nat (upperBound (prefixSum ws s) v)) ws 0).
  { clear. induction ws as [| w ws IH]; intros s F H; cbn [fold_right] in H; [lia |].
    inversion_clear F as [| ? ? Fw F']. cbn [prefixSum upperBound]. destruct (v <? s + w) eqn:E.
    - cbn [length nth Z.to_nat]. lia.
    - destruct (IH (s + w) F') as [I1 I2]; [lia |]. cbn [length]. split; [lia |].
      replace (Z.to_nat (1 + upperBound (prefixSum ws (s + w)) v))
        with (S (Z.to_nat (upperBound (prefixSum ws (s + w)) v))) by lia.
      exact I2. }
  apply (G ws 0); auto.
Qed.

(* ---- select, rotate, string ---- *)
Lemma select_always : forall A (l : list A), l <> [] -> always (select l) (returns (fun x => In x l)).
Proof.
  intros A l H. unfold select, judgeAssert.
  assert (0 < alen l) by (destruct l; [contradiction | unfold alen; simpl length; lia]).
  replace (0 <? alen l) with true by lia. cbn [lift rbind].
  eapply returns_bind; [apply returns_rint; lia |]. intros i Hi. cbv beta in Hi.
  destruct l as [| d l']; [contradiction |]. rewrite (aget_Ok _ _ i d) by auto.
  apply returns_ret. apply nth_In. unfold alen in Hi. lia.
Qed.

Lemma select_uniform : forall A (dec : forall x y : A, {x = y} + {x <> y}) (l : list A) x, l <> [] ->
  (Pr (select l) (resultIs dec x) ==
   inject_Z (Z.of_nat (count_occ dec l x)) / inject_Z (Z.of_nat (length l)))%Q.
Proof.
  intros A dec l x H. unfold select, judgeAssert, Pr.
  assert (0 < alen l) by (destruct l; [contradiction | unfold alen; simpl length; lia]).
  replace (0 <? alen l) with true by lia. cbn [lift rbind].
  rewrite expect_bind, expect_rint by lia. rewrite Z.sub_0_r. fold (alen l).
  assert (E : (qsum (fun i => expect (lift (aget l i)) (fun o => if resultIs dec x o then 1 else 0)) (zseq 0 (Z.to_nat (alen l)))
    == inject_Z (Z.of_nat (count_occ dec l x)))%Q).
  { unfold alen. rewrite Nat2Z.id. clear H H0. cbn [lift expect].
    assert (G : forall pre suf, l = pre ++ suf ->
       (qsum (fun i => if resultIs dec x (aget l i) then 1 else 0) (zseq (Z.of_nat (length pre)) (length suf))
         == inject_Z (Z.of_nat (count_occ dec suf x)))%Q).
    { intros pre suf. revert pre. induction suf as [| y suf IH]; intros pre E; [reflexivity |].
      cbn [length zseq qsum fold_right]. fold (@qsum Z).
      replace (Z.of_nat (length pre) + 1) with (Z.of_nat (length (pre ++ [y]))) by (rewrite app_length; simpl; lia).
      assert (Ey : aget l (Z.of_nat (length pre)) = Ok y).
      { apply aget_nat. rewrite E, nth_error_app2 by lia. rewrite Nat.sub_diag. reflexivity. }
      rewrite Ey. unfold qsum in IH. rewrite IH by (rewrite E, <- app_assoc; reflexivity).
      cbn [resultIs count_occ]. destruct (dec y x).
      - rewrite Nat2Z.inj_succ. unfold Z.succ. rewrite inject_Z_plus. ring.
      - ring. }
    apply (G [] l eq_refl). }
  rewrite E. reflexivity.
Qed.

Lemma rotate_always : forall A (l : list A), l <> [] ->
  always (rotate l) (returns (fun r => 0 <= fst r < alen l /\
    snd r = skipn (Z.to_nat (fst r)) l ++ firstn (Z.to_nat (fst r)) l)).
Proof.
  intros A l H. unfold rotate.
  assert (0 < alen l) by (destruct l; [contradiction | unfold alen; simpl length; lia]).
  eapply returns_bind; [apply returns_rint; lia |]. intros i Hi. apply returns_ret. auto.
Qed.

Lemma stringLoop_always : forall A n (a : list A), a <> [] ->
  always (stringLoop n a) (returns (fun s => length s = n /\ Forall (fun c => In c a) s)).
Proof.
  induction n; intros a H; cbn [stringLoop]; [apply returns_ret; auto |].
  eapply returns_bind; [apply select_always; exact H |]. intros c Hc.
  eapply returns_bind; [apply IHn; exact H |]. intros s [HL HF]. apply returns_ret.
  split; [simpl; lia | constructor; auto].
Qed.

Lemma stringLoop_uniform : forall A (dec : forall x y : A, {x = y} + {x <> y}) n (a s : list A),
  a <> [] -> NoDup a -> length s = n -> Forall (fun c => In c a) s ->
  (Pr (stringLoop n a) (resultIs (list_eq_dec dec) s) == 1 / inject_Z (Z.of_nat (length a) ^ Z.of_nat n))%Q.
Proof.
  induction n; intros a s H HN HL HF.
  - destruct s; [| discriminate]. unfold Pr. simpl. reflexivity.
  - destruct s as [| v s]; [discriminate |]. inversion_clear HF as [| ? ? Hv HF'].
    cbn [stringLoop]. unfold Pr. rewrite expect_bind.
    set (c := (1 / inject_Z (Z.of_nat (length a) ^ Z.of_nat n))%Q).
    rewrite (expect_ext _ _ _ (fun o => c * (if resultIs dec v o then 1 else 0))%Q).
    + assert (ES : forall B (m : rnd B) q f, (expect m (fun o => q * f o) == q * expect m f)%Q).
      { clear. intros B m q f. induction m as [o | lo hi k IH]; cbn [expect]; [reflexivity |].
        rewrite (qsum_ext _ _ (fun x => q * expect (k x) f)%Q) by (intros; apply IH).
        rewrite qsum_mult. unfold Qdiv. ring. }
      rewrite ES. fold (Pr (select a) (resultIs dec v)). rewrite select_uniform by auto.
      rewrite (proj1 (NoDup_count_occ' dec a) HN v Hv). unfold c.
      rewrite (Nat2Z.inj_succ n), Z.pow_succ_r by lia. rewrite inject_Z_mult.
      assert (0 < Z.of_nat (length a)) by (destruct a; [contradiction | simpl length; lia]).
      assert (0 < Z.of_nat (length a) ^ Z.of_nat n) by (apply Z.pow_pos_nonneg; lia).
      change (inject_Z (Z.of_nat 1)) with 1%Q.
      field. split; apply inject_Z_nonzero; lia.
    + intros [x | | |]; try (cbn [expect resultIs]; ring). rewrite expect_ret_bind. cbn [resultIs].
      destruct (dec x v) as [-> | Nx].
      * rewrite Qmult_1_r. unfold c. rewrite <- (IHn a s); auto. unfold Pr.
        apply expect_ext. intros [l | | |]; try reflexivity. unfold resultIs.
        destruct (list_eq_dec dec (v :: l) (v :: s)), (list_eq_dec dec l s); try reflexivity; congruence.
      * rewrite Qmult_0_r. apply expect_zero. apply always_can. intros [l | | |] _; try reflexivity.
        destruct (list_eq_dec dec (x :: l) (v :: s)); [congruence | reflexivity].
Qed.

Lemma rstring_unfold : forall A n (a : list A), 0 <= n <= 4294967295 -> a <> [] ->
  rstring n a = stringLoop (Z.to_nat n) a.
Proof.
  intros A n a H Ha. unfold rstring, judgeAssert.
  replace ((0 <=? n) && (n <=? 4294967295)) with true by lia. cbn [lift rbind].
  replace (0 <? alen a) with true; [reflexivity |].
  destruct a; [contradiction | unfold alen; simpl length; lia].
Qed.

Lemma rstring_always : forall A n (a : list A), 0 <= n <= 4294967295 -> a <> [] ->
  always (rstring n a) (returns (fun s => Z.of_nat (length s) = n /\ Forall (fun c => In c a) s)).
Proof.
  intros A n a H Ha. rewrite rstring_unfold by auto.
  eapply returns_mono; [| apply stringLoop_always; exact Ha]. intros s [HL HF]. split; [lia | exact HF].
Qed.

Lemma rstring_uniform : forall A (dec : forall x y : A, {x = y} + {x <> y}) n (a s : list A),
  0 <= n <= 4294967295 -> a <> [] -> NoDup a -> Z.of_nat (length s) = n -> Forall (fun c => In c a) s ->
  (Pr (rstring n a) (resultIs (list_eq_dec dec) s) == 1 / inject_Z (Z.of_nat (length a) ^ n))%Q.
Proof.
  intros A dec n a s H Ha HN HL HF. rewrite rstring_unfold by auto.
  rewrite stringLoop_uniform by (auto; lia). rewrite Z2Nat.id by lia. reflexivity.
Qed.
