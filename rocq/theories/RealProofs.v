From Verif Require Import Tac RndModel RndLemmas FloatModel FloatSpec FloatProofs RandIntModel RealModel.
From Coq Require Import QArith Qfield Lqa Lia SpecFloat ZArith.
Open Scope Z_scope.

(* ---- zeros: the number of trailing zeros ---- *)
Fixpoint tz (k : nat) (x : Z) : Z := match k with O => 0 | S k => if Z.odd x then 0 else 1 + tz k (x / 2) end.
Lemma popcount_mod : forall k K x, (k <= K)%nat -> popcount k (x mod 2 ^ Z.of_nat K) = popcount k x.
Proof.
  induction k as [|k IH]; intros K x H; [reflexivity|]. cbn [popcount].
  assert (P : 2 ^ Z.of_nat K = 2 * 2 ^ Z.of_nat (K - 1)) by (rewrite <- Z.pow_succ_r by lia; f_equal; lia).
  assert (PP : 0 < 2 ^ Z.of_nat (K - 1)) by (apply Z.pow_pos_nonneg; lia).
  assert (D : x mod 2 ^ Z.of_nat K = x mod 2 + 2 * ((x / 2) mod 2 ^ Z.of_nat (K - 1))).
  { rewrite P. rewrite Z.rem_mul_r by lia. reflexivity. }
  assert (O : Z.odd (x mod 2 ^ Z.of_nat K) = Z.odd x).
  { rewrite D. rewrite Z.odd_add_mul_2. rewrite Zmod_odd. destruct (Z.odd x); reflexivity. }
  rewrite O. f_equal. rewrite D. replace ((x mod 2 + 2 * ((x / 2) mod 2 ^ Z.of_nat (K - 1))) / 2) with ((x / 2) mod 2 ^ Z.of_nat (K - 1)).
  - apply IH. lia.
  - rewrite Z.mul_comm, Z.div_add by lia. pose proof (Z.mod_pos_bound x 2 ltac:(lia)). rewrite (Z.div_small (x mod 2)) by lia. lia.
Qed.
Lemma land_mod : forall a b n, 0 <= n -> Z.land (a mod 2 ^ n) (b mod 2 ^ n) = (Z.land a b) mod 2 ^ n.
Proof.
  intros a b n N. rewrite <- !Z.land_ones by auto. apply Z.bits_inj'. intros i I. rewrite !Z.land_spec. destruct (Z.testbit a i), (Z.testbit b i), (Z.testbit (Z.ones n) i); reflexivity.
Qed.
Lemma land_double : forall a b c d : bool, forall x y, (a = Z.odd x) -> (b = Z.odd y) -> Z.odd (Z.land x y) = andb a b.
Proof. intros a b _ _ x y -> ->. rewrite <- !Z.bit0_odd. apply Z.land_spec. Qed.
Lemma land_half : forall x y, Z.land x y / 2 = Z.land (x / 2) (y / 2).
Proof. intros x y. rewrite <- !Z.div2_div. rewrite !Z.div2_spec. apply Z.shiftr_land. Qed.
Lemma popcount_zero : forall k, popcount k 0 = 0.
Proof. induction k as [|k IH]; [reflexivity|]. cbn [popcount]. change (0 / 2) with 0. rewrite IH. reflexivity. Qed.
Lemma popcount_tz : forall k x, popcount k (Z.land (Z.lnot x) (x - 1)) = tz k x.
Proof.
  induction k as [|k IH]; intro x; [reflexivity|]. cbn [popcount tz].
  assert (O1 : Z.odd (Z.lnot x) = negb (Z.odd x)) by (rewrite <- !Z.bit0_odd; apply Z.lnot_spec; lia).
  assert (O2 : Z.odd (x - 1) = negb (Z.odd x)) by (rewrite Z.odd_sub; destruct (Z.odd x); reflexivity).
  rewrite (land_double _ _ true true _ _ eq_refl eq_refl), O1, O2, land_half.
  assert (L : Z.lnot x / 2 = Z.lnot (x / 2)) by (unfold Z.lnot; dlia). rewrite L.
  destruct (Z.odd x) eqn:O; cbn [negb andb].
  - apply Z.odd_spec in O as (y & ->). replace ((2 * y + 1 - 1) / 2) with y by dlia. replace ((2 * y + 1) / 2) with y by dlia. rewrite Z.land_comm, Z.land_lnot_diag. rewrite popcount_zero. reflexivity.
  - assert (E : Z.even x = true) by (rewrite <- Z.negb_odd, O; reflexivity). apply Z.even_spec in E as (y & ->).
    replace ((2 * y - 1) / 2) with (y - 1) by dlia. replace ((2 * y) / 2) with y by dlia. rewrite IH. reflexivity.
Qed.
Lemma zeros_tz : forall x, zeros x = tz 64 x.
Proof.
  intro x. unfold zeros. change (u64 (Z.lnot x)) with (Z.lnot x mod 2 ^ Z.of_nat 64). change (u64 (x - 1)) with ((x - 1) mod 2 ^ Z.of_nat 64).
  rewrite land_mod by lia. rewrite popcount_mod by lia. apply popcount_tz.
Qed.
Lemma tz_range : forall k x, 0 <= tz k x <= Z.of_nat k.
Proof. induction k as [|k IH]; intro x; cbn [tz]; [lia|]. destruct (Z.odd x); [lia|]. specialize (IH (x / 2)). lia. Qed.
Lemma tz_spec : forall k x j, 0 <= j <= Z.of_nat k -> (j <= tz k x <-> x mod 2 ^ j = 0).
Proof.
  induction k as [|k IH]; intros x j J; cbn [tz].
  - replace j with 0 by lia. rewrite Z.mod_1_r. lia.
  - destruct (Z.eq_dec j 0) as [->|J0]. { rewrite Z.mod_1_r. pose proof (tz_range k (x / 2)). destruct (Z.odd x); lia. }
    assert (P : 2 ^ j = 2 * 2 ^ (j - 1)) by (rewrite <- Z.pow_succ_r by lia; f_equal; lia). assert (0 < 2 ^ (j - 1)) by (apply Z.pow_pos_nonneg; lia).
    rewrite P, Z.rem_mul_r by lia. pose proof (Z.mod_pos_bound (x / 2) (2 ^ (j - 1)) ltac:(lia)). rewrite Zmod_odd. destruct (Z.odd x); [lia|].
    specialize (IH (x / 2) (j - 1) ltac:(lia)). lia.
Qed.
Lemma zeros_spec : forall x j, 0 <= j <= 64 -> (j <= zeros x <-> x mod 2 ^ j = 0).
Proof. intros x j J. rewrite zeros_tz. apply tz_spec. lia. Qed.
Lemma zeros_range : forall x, 0 <= zeros x <= 64.
Proof. intro x. rewrite zeros_tz. pose proof (tz_range 64 x). lia. Qed.
Lemma zeros_nonzero : forall x, 0 < x < 2 ^ 64 -> zeros x <= 63.
Proof.
  intros x X. apply Z.nlt_ge. intro H. assert (C : x mod 2 ^ 64 = 0) by (apply zeros_spec; lia). rewrite Z.mod_small in C by lia. lia.
Qed.

(* ---- counting in intervals ---- *)
Lemma count_ge : forall n lo c, lo <= c <= lo + Z.of_nat n -> (qsum (fun x => if c <=? x then 1 else 0) (zseq lo n) == inject_Z (lo + Z.of_nat n - c))%Q.
Proof.
  intros n lo c C. replace n with (Z.to_nat (c - lo) + Z.to_nat (lo + Z.of_nat n - c))%nat at 1 by lia. rewrite zseq_app, qsum_app.
  rewrite qsum_zero. 2:{ intros x I. apply in_zseq in I. destruct (Z.leb_spec c x); [lia|reflexivity]. }
  rewrite (qsum_ext _ _ (fun _ => 1%Q)). 2:{ intros x I. apply in_zseq in I. destruct (Z.leb_spec c x); [reflexivity|lia]. }
  rewrite qsum_const, zseq_length, Z2Nat.id by lia. ring.
Qed.
Lemma count_mult : forall d n j, 0 < d -> (qsum (fun x => if x mod d =? 0 then 1 else 0) (zseq (d * j) (Z.to_nat d * n)) == inject_Z (Z.of_nat n))%Q.
Proof.
  intros d n. induction n as [|n IH]; intros j D.
  - rewrite Nat.mul_0_r. cbn. reflexivity.
  - replace (Z.to_nat d * S n)%nat with (Z.to_nat d + Z.to_nat d * n)%nat by lia. rewrite zseq_app, qsum_app. replace (d * j + Z.of_nat (Z.to_nat d)) with (d * (j + 1)) by lia. rewrite IH by auto.
    replace (Z.to_nat d) with (S (Z.to_nat (d - 1))) by lia. cbn [zseq]. unfold qsum at 1. cbn [fold_right]. fold (qsum (fun x => if x mod d =? 0 then 1 else 0)%Q (zseq (d * j + 1) (Z.to_nat (d - 1)))).
    rewrite qsum_zero. 2:{ intros x I. apply in_zseq in I. destruct (Z.eqb_spec (x mod d) 0) as [M|M]; [|reflexivity]. exfalso. apply Z.mod_divide in M as (q & ->); [|lia]. assert (q = j \/ q < j \/ j < q) by lia. nia. }
    rewrite Z.mul_comm, Z.mod_mul by lia. rewrite Nat2Z.inj_succ. unfold Z.succ. rewrite inject_Z_plus. change (0 =? 0) with true. cbn iota. change (inject_Z 1) with 1%Q. ring.
Qed.

(* ---- one word ---- *)
Lemma W_sig : {n : nat | Z.of_nat n = 2 ^ 64 /\ n = Z.to_nat (2 ^ 64)}.
Proof. exists (Z.to_nat (2 ^ 64)). split; [apply Z2Nat.id; lia|reflexivity]. Qed.
Definition W : nat := proj1_sig W_sig.
Lemma W_Z : Z.of_nat W = 2 ^ 64.
Proof. exact (proj1 (proj2_sig W_sig)). Qed.
Lemma W_nat : Z.to_nat (2 ^ 64) = W.
Proof. symmetry. exact (proj2 (proj2_sig W_sig)). Qed.
Lemma word_expect : forall f, (expect word f == qsum (fun x => f (Ok x)) (zseq 0 W) / inject_Z (2 ^ 64))%Q.
Proof. intro f. unfold word. rewrite <- W_nat. generalize (2 ^ 64). intro hi. unfold expect, ret. rewrite Z.sub_0_r. reflexivity. Qed.
Opaque W.
Definition ind (b : bool) : Q := if b then 1 else 0.

(* words that are divisible by 2^k *)
Lemma word_div : forall k, 0 <= k <= 64 -> (qsum (fun x => if x mod 2 ^ k =? 0 then 1 else 0) (zseq 0 W) == inject_Z (2 ^ (64 - k)))%Q.
Proof.
  intros k K. pose proof (count_mult (2 ^ k) (Z.to_nat (2 ^ (64 - k))) 0 (Z.pow_pos_nonneg 2 k ltac:(lia) ltac:(lia))) as C. rewrite Z.mul_0_r in C.
  assert (P1 : 0 < 2 ^ k) by (apply Z.pow_pos_nonneg; lia). assert (P2 : 0 < 2 ^ (64 - k)) by (apply Z.pow_pos_nonneg; lia).
  assert (E : (Z.to_nat (2 ^ k) * Z.to_nat (2 ^ (64 - k)))%nat = W).
  { apply Nat2Z.inj. rewrite W_Z, Nat2Z.inj_mul, !Z2Nat.id by lia. rewrite <- Z.pow_add_r by lia. f_equal. lia. }
  rewrite E in C. rewrite Z2Nat.id in C by lia. exact C.
Qed.
Lemma word_zero : forall (f : Z -> Q) c, (forall x, 0 < x < 2 ^ 64 -> (f x == c)%Q) -> (qsum f (zseq 0 W) == inject_Z (2 ^ 64 - 1) * c + f 0%Z)%Q.
Proof.
  intros f c H. replace W with (S (W - 1))%nat by (pose proof W_Z; lia). cbn [zseq]. unfold qsum. cbn [fold_right]. fold (qsum f (zseq (0 + 1) (W - 1))).
  rewrite (qsum_ext _ f (fun _ => c)). 2:{ intros x I. apply in_zseq in I. apply H. pose proof W_Z. lia. }
  rewrite qsum_const, zseq_length. replace (Z.of_nat (W - 1)) with (2 ^ 64 - 1) by (pose proof W_Z; lia). ring.
Qed.

(* ---- the exponent ---- *)
Definition above (b : Z) (o : outcome Z) : bool := match o with Ok e => b <? e | _ => false end.
Lemma two_neg : forall k, (two (- k) * two k == 1)%Q.
Proof. intro k. rewrite <- two_plus. replace (- k + k) with 0 by lia. reflexivity. Qed.
Lemma exponent_above : forall fuel e k, 0 <= k <= 64 * Z.of_nat fuel ->
  (expect (exponentLoop fuel e) (fun o => ind (above (e - k) o)) == 1 - two (- k))%Q.
Proof.
  induction fuel as [|fuel IH]; intros e k K.
  - replace k with 0 by lia. reflexivity.
  - cbn [exponentLoop]. rewrite expect_bind, word_expect. cbv beta iota.
    assert (N : ~ (inject_Z (2 ^ 64) == 0)%Q) by (apply inject_Z_nonzero; lia).
    destruct (Z_le_gt_dec k 64) as [K64|K64].
    + rewrite (qsum_ext _ _ (fun x => 1 + - (1) * (if x mod 2 ^ k =? 0 then 1 else 0))%Q).
      * rewrite qsum_plus, qsum_const, zseq_length, qsum_mult, word_div by lia. rewrite W_Z.
        replace (- k) with (- k + 64 - 64) by lia. 
        assert (T : (inject_Z (2 ^ (64 - k)) == two (- k) * inject_Z (2 ^ 64))%Q).
        { rewrite <- !two_Z by lia. rewrite <- two_plus. replace (- k + 64) with (64 - k) by lia. reflexivity. }
        rewrite T. replace (- k + 64 - 64) with (- k) by lia. field. auto.
      * intros x I. apply in_zseq in I. rewrite W_Z in I. destruct (Z.eqb_spec x 0) as [->|X0].
        -- rewrite Z.mod_0_l by (pose proof (Z.pow_pos_nonneg 2 k); lia). cbn [Z.eqb]. rewrite (expect_ext_always _ _ _ (fun _ => 0%Q)).
           ++ rewrite <- (expect_ext _ _ (fun _ => 0 * 0)%Q) by reflexivity. clear. generalize (exponentLoop fuel (e - zeros 0)). intro m.
              assert (Z0 : (expect m (fun _ => 0) == 0)%Q). { induction m as [o|lo hi kk IHm]; cbn [expect]; [reflexivity|]. rewrite qsum_zero by (intros; apply IHm). unfold Qdiv. ring. }
              rewrite (expect_ext _ m _ (fun _ => 0%Q)) by (intro; ring). rewrite Z0. ring.
           ++ assert (ZE : zeros 0 = 64) by reflexivity. rewrite ZE. assert (B : e - 64 <= e - k) by lia. revert B. generalize (e - 64) as e1. generalize (e - k) as b. clear.
              induction fuel as [|fuel IH]; intros b e1 B; cbn [exponentLoop]; [reflexivity|]. unfold word. cbn [rbind always]. intros x X. cbn [rbind ret]. pose proof (zeros_range x). destruct (x =? 0).
              ** apply IH. lia.
              ** cbn [always above ret]. unfold above. destruct (Z.ltb_spec b (e1 - zeros x)); [lia|reflexivity].
        -- cbn [expect above ret]. pose proof (zeros_spec x k ltac:(lia)) as ZS. unfold ind, above. destruct (Z.ltb_spec (e - k) (e - zeros x)), (Z.eqb_spec (x mod 2 ^ k) 0); try reflexivity; exfalso; lia.
    + rewrite (word_zero _ 1%Q).
      * cbv beta. change (0 =? 0) with true. cbn iota. assert (ZE : zeros 0 = 64) by reflexivity. rewrite ZE. replace (e - k) with (e - 64 - (k - 64)) by lia. rewrite IH by lia.
        assert (T : (two (- (k - 64)) == two (- k) * inject_Z (2 ^ 64))%Q) by (rewrite <- two_Z by lia; rewrite <- two_plus; replace (- (k - 64)) with (- k + 64) by lia; reflexivity).
        rewrite T. replace (2 ^ 64 - 1) with (2 ^ 64 + -1) by lia. rewrite inject_Z_plus. change (inject_Z (-1)) with (- (1))%Q. field. auto.
      * intros x X. destruct (Z.eqb_spec x 0); [lia|]. cbn [expect ret]. unfold ind, above. pose proof (zeros_nonzero x X). destruct (Z.ltb_spec (e - k) (e - zeros x)); [reflexivity|lia].
Qed.
