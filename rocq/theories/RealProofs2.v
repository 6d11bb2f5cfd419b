From Verif Require Import Tac RndModel RndLemmas FloatModel FloatSpec FloatProofs RandIntModel RealModel RealProofs.
From Verif Require Export RealSpec.
From Coq Require Import QArith Qfield Lqa Lia SpecFloat ZArith.
Open Scope Z_scope.

Lemma lor63 : forall w, 0 <= w < 2 ^ 64 -> Z.lor w (2 ^ 63) = 2 ^ 63 + w mod 2 ^ 63.
Proof.
  assert (A : forall x, 0 <= x < 2 ^ 63 -> Z.lor x (2 ^ 63) = x + 2 ^ 63).
  { intros x X. rewrite Z.add_nocarry_lxor.
    - symmetry. apply Z.lxor_lor. apply Z.bits_inj'. intros i I. rewrite Z.land_spec, Z.bits_0, Z.pow2_bits_eqb by lia.
      destruct (Z.eqb_spec 63 i) as [<-|]; [|apply andb_false_r]. rewrite andb_true_r. destruct (Z.eq_dec x 0) as [->|]; [apply Z.bits_0|]. apply Z.bits_above_log2; [lia|]. apply Z.log2_lt_pow2; lia.
    - apply Z.bits_inj'. intros i I. rewrite Z.land_spec, Z.bits_0, Z.pow2_bits_eqb by lia.
      destruct (Z.eqb_spec 63 i) as [<-|]; [|apply andb_false_r]. rewrite andb_true_r. destruct (Z.eq_dec x 0) as [->|]; [apply Z.bits_0|]. apply Z.bits_above_log2; [lia|]. apply Z.log2_lt_pow2; lia. }
  intros w H. destruct (Z_lt_le_dec w (2 ^ 63)).
  - rewrite A by lia. rewrite Z.mod_small by lia. lia.
  - assert (M : w mod 2 ^ 63 = w - 2 ^ 63) by (symmetry; apply Z.mod_unique with 1; lia). rewrite M.
    replace w with (w - 2 ^ 63 + 2 ^ 63) at 1 by lia. rewrite <- (A (w - 2 ^ 63)) by lia. rewrite <- Z.lor_assoc, Z.lor_diag. rewrite A by lia. lia.
Qed.

Lemma P53 : 1 < 53. Proof. lia. Qed.
Lemma E53 : 53 < 1024. Proof. lia. Qed.
Lemma P64 : 1 < prec. Proof. unfold prec. lia. Qed.
Lemma E64 : prec < emax. Proof. unfold prec, emax. lia. Qed.
#[global] Hint Resolve P53 E53 P64 E64 : core.

Lemma inject_pos : forall a, 0 <= a -> (0 <= inject_Z a)%Q.
Proof. intros a H. change 0%Q with (inject_Z 0). rewrite <- Zle_Qle. auto. Qed.
Lemma inject_le : forall a b, a <= b -> (inject_Z a <= inject_Z b)%Q.
Proof. intros a b H. rewrite <- Zle_Qle. auto. Qed.
Lemma scaled_le : forall a b e, a <= b -> (inject_Z a * two e <= inject_Z b * two e)%Q.
Proof. intros a b e H. pose proof (inject_le _ _ H). pose proof (two_pos e). nra. Qed.
Lemma pow_two : forall n e, 0 <= n -> (inject_Z (2 ^ n) * two e == two (n + e))%Q.
Proof. intros n e N. rewrite two_plus, <- two_Z by auto. reflexivity. Qed.

(* a double below 2^emax is converted exactly *)
Lemma widen_val : forall s p e, valid 53 1024 (S754_finite s p e) -> valid prec emax (widen (S754_finite s p e)) /\ exists p' e', widen (S754_finite s p e) = S754_finite s p' e' /\ (inject_Z (Zpos p') * two e' == inject_Z (Zpos p) * two e)%Q.
Proof.
  intros s p e V. apply valid_mantissa in V as (V1 & V2 & V3); auto. unfold widen. unfold emin in V1. apply round_exact; auto.
  - unfold prec. change (2 ^ 64) with (2 ^ 11 * 2 ^ 53). lia.
  - unfold emin, prec, emax. lia.
  - apply Qle_lt_trans with (inject_Z (2 ^ 53) * two e)%Q; [apply scaled_le; lia|]. rewrite pow_two by lia. apply two_lt. unfold emax. lia.
  - reflexivity.
Qed.

Section OneReal.
  Variable m : Z.
  Hypothesis M : 2 ^ 63 <= m < 2 ^ 64.
  Notation q := (rne m 11).
  Lemma q_range : 2 ^ 52 <= q <= 2 ^ 53.
  Proof. split; [apply rne_ge|apply rne_le]; try lia; rewrite <- Z.pow_add_r by lia; change (52 + 11) with 63; change (53 + 11) with 64; lia. Qed.
  Lemma toDouble_val : valid 53 1024 (toDouble m) /\ exists p e, toDouble m = S754_finite false p e /\ (inject_Z (Zpos p) * two e == inject_Z q * two 11)%Q.
  Proof.
    unfold toDouble, binary_normalize. destruct m as [|p|p] eqn:E; try lia. rewrite <- E in *. split; [apply round_valid; auto|].
    rewrite round_norm by auto. assert (L : Z.log2 (Zpos p) = 63) by (rewrite <- E; apply Z.log2_unique; lia).
    assert (T : target 53 1024 (Zpos p) 0 = 11) by (unfold target, fexp, emin; rewrite L; reflexivity). rewrite T, Z.sub_0_r, <- E. pose proof q_range as Q.
    assert (F : isfinite (norm 53 1024 false q 11) = true).
    { apply norm_finite; auto; [lia|unfold emin; lia|intros; change (2 ^ (53 - 1)) with (2 ^ 52); lia|]. apply Qle_lt_trans with (inject_Z (2 ^ 53) * two 11)%Q; [apply scaled_le; lia|]. rewrite pow_two by lia. apply two_lt. lia. }
    destruct (norm_val 53 1024 P53 false q 11 ltac:(lia)) as [(i & X)|(_ & X)]; [rewrite X in F; discriminate|].
    unfold norm in *. destruct (q =? 0) eqn:Q0; [lia|]. destruct (if q =? 2 ^ 53 then (2 ^ (53 - 1), 11 + 1) else (q, 11)) as [q' e']. destruct (e' <=? 1024 - 53); [|discriminate].
    exists (Z.to_pos q'), e'. split; auto. cbn [val] in X. lra.
  Qed.

  Lemma real_exact : forall j, 0 <= j <= 1021 -> valid prec emax (widen (ldexpDouble (toDouble m) (-64 - j))) /\
    exists p e, widen (ldexpDouble (toDouble m) (-64 - j)) = S754_finite false p e /\ (inject_Z (Zpos p) * two e == inject_Z q * two (-53 - j))%Q.
  Proof.
    intros j J. destruct toDouble_val as (_ & p & e & -> & X). pose proof q_range as Q. unfold ldexpDouble, SFldexp.
    destruct (round_exact 53 1024 P53 E53 false p (e + (-64 - j)) q (-53 - j)) as (V & p' & e' & Y1 & Y2).
    - lia.
    - unfold emin. lia.
    - apply Qle_lt_trans with (inject_Z (2 ^ 53) * two (-53 - j))%Q; [apply scaled_le; lia|]. rewrite pow_two by lia. apply two_lt. lia.
    - replace (-53 - j) with (11 + (-64 - j)) by lia. rewrite !two_plus, !Qmult_assoc, X. reflexivity.
    - rewrite Y1 in *. destruct (widen_val _ _ _ V) as (V' & p2 & e2 & Z1 & Z2). split; auto. exists p2, e2. split; auto. rewrite Z2. exact Y2.
  Qed.
  Lemma real_small : forall j c, 0 <= c <= j -> c <= 1074 -> valid prec emax (widen (ldexpDouble (toDouble m) (-64 - j))) /\ isfinite (widen (ldexpDouble (toDouble m) (-64 - j))) = true /\
    (0 <= val (widen (ldexpDouble (toDouble m) (-64 - j))) <= two (- c))%Q.
  Proof.
    intros j c C C'. destruct toDouble_val as (_ & p & e & -> & X). pose proof q_range as Q. unfold ldexpDouble, SFldexp.
    assert (V := round_valid 53 1024 P53 false p (e + (-64 - j))).
    destruct (round_sandwich 53 1024 P53 E53 false p (e + (-64 - j)) 1 (- c)) as (F & v & Y1 & Y2).
    - lia.
    - unfold emin. lia.
    - change (inject_Z 1) with 1%Q. rewrite Qmult_1_l. apply two_lt. lia.
    - change (inject_Z 1) with 1%Q. rewrite Qmult_1_l. rewrite two_plus, Qmult_assoc, X. rewrite <- Qmult_assoc, <- two_plus.
      apply Qle_trans with (inject_Z (2 ^ 53) * two (11 + (-64 - j)))%Q; [apply scaled_le; lia|]. rewrite pow_two by lia. apply two_le. lia.
    - change (inject_Z 1) with 1%Q in Y2. rewrite Qmult_1_l in Y2. destruct (binary_round 53 1024 false p (e + (-64 - j))) as [s|s| |s p' e'] eqn:B; try discriminate F.
      + cbn. split; [reflexivity|]. split; auto. pose proof (two_pos (- c)). lra.
      + destruct (widen_val _ _ _ V) as (V' & p2 & e2 & Z1 & Z2). split; auto. rewrite Z1. split; auto. cbn [val] in *. rewrite Z2. lra.
  Qed.
End OneReal.

(* ---- range ---- *)
Lemma word_always : forall A (f : Z -> rnd A) Q, (forall x, 0 <= x < 2 ^ 64 -> always (f x) Q) -> always (rbind word f) Q.
Proof. intros A f Q H. unfold word. cbn [rbind always]. intros x X. cbn [rbind ret]. auto. Qed.
Lemma exponent_range : forall fuel e, always (exponentLoop fuel e) (orFuel (fun E => e - 64 * Z.of_nat fuel < E <= e)).
Proof.
  induction fuel as [|fuel IH]; intro e; cbn [exponentLoop]; [exact I|]. apply word_always. intros x X. pose proof (zeros_range x). destruct (Z.eqb_spec x 0).
  - eapply always_mono; [|apply IH]. intros [E| | |]; cbn [orFuel]; auto. lia.
  - cbn [always ret orFuel]. pose proof (zeros_nonzero x ltac:(lia)). lia.
Qed.
Lemma orFuel_bind : forall A B (m : rnd A) (f : A -> rnd B) (R : A -> Prop) (R' : B -> Prop),
  always m (orFuel R) -> (forall a, R a -> always (f a) (orFuel R')) -> always (rbind m f) (orFuel R').
Proof.
  intros A B m f R R' H1 H2. apply always_bind. eapply always_mono; [|exact H1]. intros [a| | |] H; cbn in *; auto.
Qed.
Lemma orFuel_mono : forall A (m : rnd A) (R R' : A -> Prop), (forall a, R a -> R' a) -> always m (orFuel R) -> always m (orFuel R').
Proof. intros A m R R' H. apply always_mono. intros [a| | |]; cbn; auto. Qed.

Lemma mantissa_range : forall w, 0 <= w < 2 ^ 64 -> 2 ^ 63 <= Z.lor w (2 ^ 63) < 2 ^ 64.
Proof. intros w H. rewrite lor63 by auto. pose proof (Z.mod_pos_bound w (2 ^ 63) ltac:(lia)). change (2 ^ 64) with (2 ^ 63 + 2 ^ 63). lia. Qed.

Lemma real_range : forall fuel, always (randomReal fuel) (orFuel (fun r => number r /\ (0 <= val r <= 1)%Q)).
Proof.
  intro fuel. unfold randomReal. apply word_always. intros w X. eapply orFuel_bind; [apply exponent_range|]. intros E HE. cbv beta in HE. cbn [always ret orFuel].
  unfold realFrom. replace E with (-64 - (-64 - E)) by lia. destruct (real_small _ (mantissa_range w X) (-64 - E) 0) as (A & B & C); [lia|lia|]. split; [split|]; auto.
Qed.
Lemma real_positive : forall fuel, (fuel <= 15)%nat -> always (randomReal fuel) (orFuel (fun r => (two (-64 * Z.of_nat fuel) <= val r)%Q)).
Proof.
  intros fuel F. unfold randomReal. apply word_always. intros w X. eapply orFuel_bind; [apply exponent_range|]. intros E HE. cbv beta in HE. cbn [always ret orFuel].
  unfold realFrom. replace E with (-64 - (-64 - E)) by lia. pose proof (mantissa_range w X) as M. pose proof (q_range _ M) as Q.
  destruct (real_exact _ M (-64 - E) ltac:(lia)) as (V & p & e & -> & Y). cbn [val]. rewrite Y, Qmult_1_l.
  apply Qle_trans with (inject_Z (2 ^ 52) * two (-53 - (-64 - E)))%Q; [|apply scaled_le; lia]. rewrite pow_two by lia. apply two_le. lia.
Qed.

(* ---- distribution ---- *)
Lemma expect_linear : forall A (m : rnd A) f c g, (expect m (fun o => f o + c * g o) == expect m f + c * expect m g)%Q.
Proof.
  intros A m f c g. induction m as [o|lo hi k IH]; cbn [expect]; [reflexivity|].
  rewrite (qsum_ext _ _ (fun x => expect (k x) f + c * expect (k x) g)%Q) by (intros; apply IH). rewrite qsum_plus, qsum_mult. unfold Qdiv. ring.
Qed.
(* the mantissas from which on the result is at least M *)
Definition cutoff (M : Z) : Z := 2048 * M - 1024 + (if Z.odd M then 1 else 0).
Lemma rne_cutoff : forall m M, 0 < m -> (M <= rne m 11 <-> cutoff M <= m).
Proof.
  intros m M H. unfold rne, cutoff. change (11 <=? 0) with false. cbn iota. change (2 ^ 11) with 2048.
  pose proof (Z.div_mod m 2048 ltac:(lia)) as D. pose proof (Z.mod_pos_bound m 2048 ltac:(lia)) as B. set (q := m / 2048) in *. set (r := m mod 2048) in *.
  destruct (Z.compare_spec (2 * r) 2048) as [C|C|C].
  - destruct (Z.even q) eqn:EV.
    + destruct (Z.odd M) eqn:O; [lia|]. split; [lia|]. intro. assert (q <> M - 1); [|lia]. intro E. rewrite E, Z.even_sub in EV. rewrite <- Z.negb_even in O. destruct (Z.even M); discriminate.
    + destruct (Z.odd M) eqn:O; [|lia]. split; [|lia]. intro. assert (q <> M - 1); [|lia]. intro E. rewrite E, Z.even_sub in EV. rewrite <- Z.negb_even in O. destruct (Z.even M); discriminate.
  - destruct (Z.odd M); lia.
  - destruct (Z.odd M); lia.
Qed.

Lemma real_event : forall m k M j, 2 ^ 63 <= m < 2 ^ 64 -> 0 <= k <= 1021 -> 2 ^ 52 < M <= 2 ^ 53 -> 0 <= j ->
  Qle_bool (inject_Z M * two (-53 - k)) (val (widen (ldexpDouble (toDouble m) (-64 - j)))) = (j <? k) || ((j <? k + 1) && (cutoff M <=? m)).
Proof.
  intros m k M j H K MM J. pose proof (q_range m H) as Q. pose proof (rne_cutoff m M ltac:(lia)) as RC.
  destruct (Z_lt_le_dec j (k + 1)) as [L|L].
  - destruct (real_exact m H j ltac:(lia)) as (V & p & e & -> & Y). cbn [val]. apply Bool.eq_iff_eq_true. rewrite Qle_bool_iff, Y, Qmult_1_l.
    destruct (Z.ltb_spec j (k + 1)); [|lia]. cbn [andb]. destruct (Z.ltb_spec j k); cbn [orb].
    + split; auto. intros _. apply Qle_trans with (inject_Z (2 ^ 53) * two (-53 - k))%Q; [apply scaled_le; lia|]. apply Qle_trans with (inject_Z (2 ^ 52) * two (-53 - j))%Q; [|apply scaled_le; lia].
      rewrite !pow_two by lia. apply two_le. lia.
    + replace j with k by lia. rewrite Z.leb_le, <- RC. rewrite Qmult_le_r by apply two_pos. rewrite <- Zle_Qle. reflexivity.
  - destruct (real_small m H j (k + 1) ltac:(lia) ltac:(lia)) as (_ & _ & _ & Y). destruct (Z.ltb_spec j k); [lia|]. destruct (Z.ltb_spec j (k + 1)); [lia|]. cbn [orb andb].
    apply not_true_is_false. intro C. apply Qle_bool_iff in C. assert (X : (inject_Z (2 ^ 52) * two (-53 - k) < inject_Z M * two (-53 - k))%Q).
    { rewrite Qmult_lt_r by apply two_pos. rewrite <- Zlt_Qlt. lia. }
    rewrite pow_two in X by lia. replace (52 + (-53 - k)) with (- (k + 1)) in X by lia. lra.
Qed.

(* the words whose mantissa is at least c *)
Lemma word_mantissa : forall c, 2 ^ 63 <= c <= 2 ^ 64 -> (qsum (fun w => if (c <=? Z.lor w (2 ^ 63))%Z then 1 else 0) (zseq 0 W) == inject_Z (2 * (2 ^ 64 - c)))%Q.
Proof.
  intros c C. assert (H : exists h, W = (h + h)%nat /\ Z.of_nat h = 2 ^ 63) by (exists (Z.to_nat (2 ^ 63)); rewrite <- W_nat; split; [rewrite <- Z2Nat.inj_add by lia; f_equal|apply Z2Nat.id; lia]).
  destruct H as (h & -> & HZ). rewrite zseq_app, qsum_app, HZ.
  rewrite (qsum_ext _ _ (fun w => if (c - 2 ^ 63 <=? w)%Z then 1 else 0)%Q).
  - rewrite (qsum_ext _ _ (fun w => if (c <=? w)%Z then 1 else 0)%Q (zseq (0 + 2 ^ 63) h)).
    + rewrite !count_ge by lia. rewrite <- inject_Z_plus, HZ. replace (0 + 2 ^ 63 - (c - 2 ^ 63) + (0 + 2 ^ 63 + 2 ^ 63 - c)) with (2 * (2 ^ 64 - c)) by lia. reflexivity.
    + intros w I. apply in_zseq in I. rewrite lor63 by lia. assert (D : w mod 2 ^ 63 = w - 2 ^ 63) by (symmetry; apply Z.mod_unique with 1; lia). rewrite D. replace (2 ^ 63 + (w - 2 ^ 63)) with w by lia. reflexivity.
  - intros w I. apply in_zseq in I. rewrite lor63 by lia. rewrite Z.mod_small by lia. destruct (Z.leb_spec c (2 ^ 63 + w)), (Z.leb_spec (c - 2 ^ 63) w); try lia; reflexivity.
Qed.

Lemma real_distribution : forall fuel k M, 0 <= k <= 1021 -> k < 64 * Z.of_nat fuel -> 2 ^ 52 < M <= 2 ^ 53 ->
  (Pr (randomReal fuel) (atLeast (inject_Z M * two (-53 - k))) == 1 - inject_Z M * two (-53 - k) + two (-54 - k) - (if Z.odd M then two (-64 - k) else 0))%Q.
Proof.
  intros fuel k M K F MM. unfold Pr, randomReal. rewrite expect_bind, word_expect. cbv beta iota.
  rewrite (qsum_ext _ _ (fun w => (1 - two (- k)) + (two (- k) - two (- (k + 1))) * (if (cutoff M <=? Z.lor w (2 ^ 63))%Z then 1 else 0))%Q).
  - rewrite qsum_plus, qsum_const, zseq_length, qsum_mult, W_Z. rewrite word_mantissa by (unfold cutoff; destruct (Z.odd M); lia).
    assert (N : ~ (inject_Z (2 ^ 64) == 0)%Q) by (apply inject_Z_nonzero; lia).
    assert (A1 : (two (- (k + 1)) == two (- k) * (1 # 2))%Q) by (replace (- (k + 1)) with (- k + -1) by lia; rewrite two_plus; reflexivity).
    assert (A2 : (two (-53 - k) * inject_Z (2 ^ 64) == two (- k) * inject_Z 2048)%Q) by (rewrite <- two_Z by lia; change (inject_Z 2048) with (inject_Z (2 ^ 11)); rewrite <- (two_Z 11), <- !two_plus by lia; replace (-53 - k + 64) with (- k + 11) by lia; reflexivity).
    assert (A3 : (two (-54 - k) * inject_Z (2 ^ 64) == two (- k) * inject_Z 1024)%Q) by (rewrite <- two_Z by lia; change (inject_Z 1024) with (inject_Z (2 ^ 10)); rewrite <- (two_Z 10), <- !two_plus by lia; replace (-54 - k + 64) with (- k + 10) by lia; reflexivity).
    assert (A4 : (two (-64 - k) * inject_Z (2 ^ 64) == two (- k))%Q) by (rewrite <- two_Z by lia; rewrite <- !two_plus by lia; replace (-64 - k + 64) with (- k) by lia; reflexivity).
    apply Qmult_inj_r with (inject_Z (2 ^ 64)); auto.
    assert (B : (inject_Z (2 * (2 ^ 64 - cutoff M)) == 2 * (inject_Z (2 ^ 64) - inject_Z 2048 * inject_Z M + inject_Z 1024 - (if Z.odd M then 1 else 0)))%Q).
    { unfold cutoff. rewrite inject_Z_mult. change (inject_Z 2) with 2%Q. replace (2 ^ 64 - (2048 * M - 1024 + (if Z.odd M then 1 else 0))) with (2 ^ 64 + - (2048 * M) + 1024 + - (if Z.odd M then 1 else 0)) by lia.
      rewrite !inject_Z_plus, !inject_Z_opp, inject_Z_mult. destruct (Z.odd M); [change (inject_Z 1) with 1%Q|change (inject_Z 0) with 0%Q]; ring. }
    rewrite B, A1. clear B. set (t := two (- k)) in *. set (w := inject_Z (2 ^ 64)) in *.
    transitivity (w - t * inject_Z 2048 * inject_Z M + t * inject_Z 1024 - (if Z.odd M then t else 0))%Q.
    + destruct (Z.odd M); field; auto.
    + rewrite <- A2, <- A3. destruct (Z.odd M); [rewrite <- A4|]; ring.
  - intros w I. apply in_zseq in I. rewrite W_Z in I. pose proof (mantissa_range w ltac:(lia)) as MR. rewrite expect_bind.
    rewrite (expect_ext_always _ _ _ (fun o => ind (above (-64 - k) o) + (if (cutoff M <=? Z.lor w (2 ^ 63))%Z then 1 else 0) * (ind (above (-64 - (k + 1)) o) + - (1) * ind (above (-64 - k) o)))%Q).
    + rewrite !expect_linear. rewrite !exponent_above by lia. destruct (cutoff M <=? Z.lor w (2 ^ 63)); ring.
    + eapply always_mono; [|apply exponent_range]. intros [E| | |] HE; cbn in HE; try contradiction; [|cbn; destruct (cutoff M <=? _); ring].
      cbn [expect ret atLeast]. unfold realFrom. replace E with (-64 - (-64 - E)) by lia. rewrite real_event by (auto; lia). unfold above, ind.
      destruct (Z.ltb_spec (-64 - E) k), (Z.ltb_spec (-64 - E) (k + 1)), (cutoff M <=? Z.lor w (2 ^ 63)), (Z.ltb_spec (-64 - k) (-64 - (-64 - E))), (Z.ltb_spec (-64 - (k + 1)) (-64 - (-64 - E))); try lia; cbn [orb andb]; ring.
Qed.
