(* How far floatEqual is from the comparison of the exact values. *)
From Verif Require Import Tac FloatModel FloatSpec FloatProofs FloatProofs2 RealProofs2 RealProofs3 RealProofs6 FloatProofs3 InputProofs3 RealSpec.
From Coq Require Import QArith Qabs Qfield Lqa Lia ZArith SpecFloat.
Open Scope Z_scope.

Notation lowest := (emin prec emax).
Notation rounds := (isRound prec emax).

Lemma lowest_val : lowest = -16445. Proof. reflexivity. Qed.

(* a number is a mantissa times a power of two *)
Lemma number_form : forall x, number x -> exists m f, 0 <= m < 2 ^ prec /\ lowest <= f <= emax - prec /\ (lowest < f -> 2 ^ (prec - 1) <= m) /\ (Qabs (val x) == inject_Z m * two f)%Q /\
  (val x == inject_Z m * two f \/ val x == - (inject_Z m * two f))%Q.
Proof.
  intros x (V & F). destruct x as [s|s| |s m f]; try discriminate.
  - exists 0, lowest. split; [split; reflexivity || (unfold prec; lia)|]. split; [unfold prec, emax, emin; lia|]. split; [lia|]. change (inject_Z 0) with 0%Q. cbn [val]. split; [|left]; rewrite Qmult_0_l; reflexivity.
  - apply valid_mantissa in V as (A & B & C); auto. exists (Zpos m), f. split; [lia|]. split; [auto|]. split; [auto|]. cbn [val]. split; [apply abs_sign; pose proof (val_pos m f); lra|]. destruct s; [right|left]; ring.
Qed.
Lemma number_multiple : forall x, number x -> exists k, (val x == inject_Z k * two lowest)%Q.
Proof.
  intros x N. destruct (number_form x N) as (m & f & M & F & _ & _ & [V|V]).
  - exists (m * 2 ^ (f - lowest)). rewrite V, inject_Z_mult, <- Qmult_assoc, pow_two by lia. replace (f - lowest + lowest) with f by lia. reflexivity.
  - exists (- (m * 2 ^ (f - lowest))). rewrite V, inject_Z_opp, inject_Z_mult. setoid_replace (- (inject_Z m * inject_Z (2 ^ (f - lowest))) * two lowest)%Q with (- (inject_Z m * (inject_Z (2 ^ (f - lowest)) * two lowest)))%Q by ring.
    rewrite pow_two by lia. replace (f - lowest + lowest) with f by lia. reflexivity.
Qed.
Lemma abs_multiple : forall x k, (x == inject_Z k * two lowest)%Q -> (Qabs x == inject_Z (Z.abs k) * two lowest)%Q.
Proof.
  intros x k H. rewrite H, Qabs_Qmult. rewrite (Qabs_pos (two lowest)) by (pose proof (two_pos lowest); lra). reflexivity.
Qed.
Lemma diff_multiple : forall g e, number g -> number e -> exists k, 0 <= k /\ (Qabs (val g - val e) == inject_Z k * two lowest)%Q.
Proof.
  intros g e G E. destruct (number_multiple g G) as (i & I), (number_multiple e E) as (j & J). exists (Z.abs (i - j)). split; [lia|]. apply abs_multiple. rewrite I, J. unfold Zminus. rewrite inject_Z_plus, inject_Z_opp. ring.
Qed.

Lemma sub_rounds : forall g e, number g -> number e -> rounds (Qabs (val g - val e)) (rsub g e).
Proof. intros g e (VG & FG) (VE & FE). apply sub_isRound; auto. Qed.
Lemma div_rounds : forall y e, number y -> number e -> ~ (val e == 0)%Q -> rounds (Qabs (val y) / Qabs (val e)) (rdiv y e).
Proof. intros y e (VY & FY) (VE & FE) NZ. apply div_isRound; auto. Qed.

Lemma two_prec : forall f, (inject_Z (2 ^ prec) * two f == two (prec + f))%Q.
Proof. intro f. rewrite pow_two; [reflexivity|unfold prec; lia]. Qed.
Lemma below_emax : forall m f, 0 <= m < 2 ^ prec -> f <= emax - prec -> (inject_Z m * two f < two emax)%Q.
Proof.
  intros m f M F. pose proof (two_pos f). assert (inject_Z m < inject_Z (2 ^ prec))%Q by (rewrite <- Zlt_Qlt; lia).
  apply Qlt_le_trans with (inject_Z (2 ^ prec) * two f)%Q; [apply Qmult_lt_compat_r; auto|]. rewrite two_prec. apply two_le. lia.
Qed.

(* upwards: what is below a number is rounded to below the number *)
Lemma rounds_le : forall x y r, rounds x y -> number r -> (x <= val r)%Q -> (0 <= val r)%Q -> number y /\ (Qabs (val y) <= val r)%Q.
Proof.
  intros x y r (V & N & H) R L P. destruct (number_form r R) as (m & f & M & F & _ & VR & _). rewrite Qabs_pos in VR by auto.
  destruct (H m f ltac:(lia) ltac:(lia)) as (H1 & _). destruct H1 as (F1 & A); [rewrite <- VR; auto|apply below_emax; lia|]. rewrite <- VR in A. split; [split; auto|auto].
Qed.

(* downwards: if the rounding is not above a number r, the value is below the next number *)
Lemma rounds_next : forall x y r, rounds x y -> number y -> number r -> (Qabs (val y) <= Qabs (val r))%Q ->
  exists m f, 0 <= m < 2 ^ prec /\ lowest <= f /\ (lowest < f -> 2 ^ (prec - 1) <= m) /\ (Qabs (val r) == inject_Z m * two f)%Q /\ (x < inject_Z (m + 1) * two f)%Q.
Proof.
  intros x y r (V & N & H) (VY & FY) R L. destruct (number_form r R) as (m & f & M & F & NM & VR & _). exists m, f. split; [auto|]. split; [lia|]. split; [auto|]. split; [auto|].
  apply Qnot_le_lt. intro K. destruct (H (m + 1) f ltac:(lia) ltac:(lia)) as (_ & H2). specialize (H2 K FY). rewrite inject_Z_plus in H2. change (inject_Z 1) with 1%Q in H2. pose proof (two_pos f). lra.
Qed.
Lemma eps_normal : forall m f, 2 ^ (prec - 1) <= m -> (two f <= two (-63) * (inject_Z m * two f))%Q.
Proof.
  intros m f H. assert (inject_Z (2 ^ (prec - 1)) <= inject_Z m)%Q by (rewrite <- Zle_Qle; auto). pose proof (two_pos f). pose proof (two_pos (-63)).
  apply Qle_trans with (two (-63) * (inject_Z (2 ^ (prec - 1)) * two f))%Q.
  - rewrite pow_two by (unfold prec; lia). rewrite <- two_plus. replace (-63 + (prec - 1 + f)) with f by (unfold prec; lia). apply Qle_refl.
  - rewrite !(Qmult_comm (two (-63))). apply Qmult_le_compat_r; [|lra]. apply Qmult_le_compat_r; lra.
Qed.
Lemma scaled_pos : forall m f, 0 <= m -> (0 <= two (-63) * (inject_Z m * two f))%Q.
Proof. intros m f H. pose proof (two_pos f). pose proof (two_pos (-63)). apply Qmult_le_0_compat; [lra|]. apply Qmult_le_0_compat; [apply inject_pos; auto|lra]. Qed.
Ltac revert_lowest := generalize dependent (two lowest); generalize dependent (two (-63)); intros.
(* the value is hardly above the rounding, for multiples of the smallest number *)
Lemma rounds_above : forall x y r k, rounds x y -> number y -> number r -> (Qabs (val y) <= Qabs (val r))%Q -> (x == inject_Z k * two lowest)%Q ->
  (x <= (1 + two (-63)) * Qabs (val r))%Q.
Proof.
  intros x y r k H Y R L K. destruct (rounds_next x y r H Y R L) as (m & f & M & F & NM & VR & N). rewrite VR. rewrite inject_Z_plus in N. change (inject_Z 1) with 1%Q in N. pose proof (two_pos f). pose proof (two_pos (-63)).
  destruct (Z_le_gt_dec (2 ^ (prec - 1)) m) as [B|B]; [pose proof (eps_normal m f B); lra|]. assert (f = lowest) by lia. subst f.
  assert (N' : (inject_Z k * two lowest < inject_Z (m + 1) * two lowest)%Q) by (rewrite inject_Z_plus; change (inject_Z 1) with 1%Q; lra).
  apply Qmult_lt_r in N'; auto. rewrite <- Zlt_Qlt in N'. pose proof (scaled_le k m lowest ltac:(lia)). pose proof (scaled_pos m lowest ltac:(lia)). revert_lowest. lra.
Qed.
Lemma rounds_normal : forall x y r, rounds x y -> number y -> number r -> (Qabs (val y) <= Qabs (val r))%Q -> (two (-65) <= Qabs (val r))%Q -> (x <= (1 + two (-63)) * Qabs (val r))%Q.
Proof.
  intros x y r H Y R L B. destruct (rounds_next x y r H Y R L) as (m & f & M & F & NM & VR & N). rewrite VR. rewrite inject_Z_plus in N. change (inject_Z 1) with 1%Q in N.
  destruct (Z_le_gt_dec (2 ^ (prec - 1)) m) as [C|C]; [pose proof (eps_normal m f C); lra|]. assert (f = lowest) by lia. subst f. exfalso.
  assert (X : (inject_Z m * two lowest < inject_Z (2 ^ (prec - 1)) * two lowest)%Q) by (apply Qmult_lt_compat_r; [apply two_pos|rewrite <- Zlt_Qlt; lia]).
  rewrite pow_two in X by (unfold prec; lia). pose proof (two_le (prec - 1 + lowest) (-65) ltac:(unfold prec, emax, emin; lia)). lra.
Qed.
Lemma inject_minus1 : forall m, (inject_Z (m - 1) == inject_Z m - 1)%Q.
Proof. intro m. unfold Zminus. rewrite inject_Z_plus. reflexivity. Qed.
(* and hardly below it *)
Lemma rounds_below : forall x y k, rounds x y -> number y -> (0 <= x)%Q -> (x == inject_Z k * two lowest)%Q -> ((1 - two (-63)) * Qabs (val y) <= x)%Q.
Proof.
  intros x y k H Y X0 K. destruct (number_form y Y) as (m & f & M & F & NM & VY & _). rewrite VY. pose proof (two_pos f). pose proof (two_pos (-63)).
  destruct (Z.eq_dec m 0) as [->|M0]; [change (inject_Z 0) with 0%Q; lra|].
  assert (N : (inject_Z (m - 1) * two f < x)%Q).
  { apply Qnot_le_lt. intro L. destruct H as (_ & _ & H). destruct (H (m - 1) f ltac:(lia) ltac:(lia)) as (L1 & _). destruct (L1 L) as (_ & A); [apply below_emax; lia|].
    rewrite VY in A. apply Qmult_le_r in A; auto. rewrite <- Zle_Qle in A. lia. }
  rewrite inject_minus1 in N.
  destruct (Z_le_gt_dec (2 ^ (prec - 1)) m) as [B|B]; [pose proof (eps_normal m f B); lra|]. assert (f = lowest) by lia. subst f.
  assert (N' : (inject_Z (m - 1) * two lowest < inject_Z k * two lowest)%Q) by (rewrite inject_minus1; lra).
  apply Qmult_lt_r in N'; auto. rewrite <- Zlt_Qlt in N'. pose proof (scaled_le m k lowest ltac:(lia)). pose proof (scaled_pos m lowest ltac:(lia)). revert_lowest. lra.
Qed.

(* ---- the comparisons of the program ---- *)
Lemma abs_number : forall y, number y -> number (SFabs y) /\ (val (SFabs y) == Qabs (val y))%Q.
Proof.
  intros [s|s| |s m e] (V & F); try discriminate.
  - split; [split; reflexivity|reflexivity].
  - split; [split; [exact V|reflexivity]|]. cbn [SFabs val]. rewrite abs_sign by (pose proof (val_pos m e); lra). ring.
Qed.
Lemma leb_abs : forall y r, number y -> number r -> SFleb (SFabs y) r = true <-> (Qabs (val y) <= val r)%Q.
Proof.
  intros y r Y R. destruct (abs_number y Y) as ((VA & FA) & A). destruct R as (VR & FR). rewrite rle by auto. rewrite A. reflexivity.
Qed.
Lemma leb_abs_number : forall y r, realOk y -> number r -> SFleb (SFabs y) r = true -> number y.
Proof. intros [s|s| |s m e] r V (VR & FR) H; try (split; auto; reflexivity); destruct r; discriminate. Qed.
Lemma nonneg_good : forall a, number a -> goodTol a <-> (0 <= val a)%Q.
Proof. intros a (V & F). unfold goodTol. rewrite (rle rzero a) by (auto; reflexivity). reflexivity. Qed.
Lemma floatEqual_numbers : forall g e a r, number g -> number e ->
  floatEqual g e a r = Ok true <-> goodTol a /\ goodTol r /\ (SFleb (SFabs (rsub g e)) a = true \/ SFleb (SFabs (rdiv (rsub g e) e)) r = true).
Proof.
  intros g e a r (_ & FG) (_ & FE). unfold floatEqual, goodTol. rewrite FG, FE. destruct (SFleb rzero a), (SFleb rzero r); cbn [judgeAssert bind andb]; try (split; [discriminate|intros (?&?&?); discriminate]).
  cbv zeta. rewrite <- orb_true_iff. destruct (_ || _); split; try tauto; try discriminate. intros (_ & _ & ?). discriminate.
Qed.

Lemma floatEqual_abs : forall g e a r, number g -> number e -> number a -> goodTol r -> (Qabs (val g - val e) <= val a)%Q -> floatEqual g e a r = Ok true.
Proof.
  intros g e a r G E A R L. assert (A0 : (0 <= val a)%Q) by (pose proof (Qabs_nonneg (val g - val e)); lra). apply floatEqual_numbers; auto. split; [apply nonneg_good; auto|]. split; [auto|]. left.
  destruct (rounds_le _ _ a (sub_rounds g e G E) A L A0) as (Y & LY). apply leb_abs; auto.
Qed.
Lemma rsub_realOk : forall g e, number g -> number e -> realOk (rsub g e).
Proof. intros g e (VG & _) (VE & _). apply rsub_valid; auto. Qed.

Lemma floatEqual_same : forall g e a r, number g -> number e -> goodTol a -> goodTol r -> (val g == val e)%Q -> floatEqual g e a r = Ok true.
Proof.
  intros g e a r G E A R H. apply floatEqual_numbers; auto. split; auto. split; auto. left.
  assert (Z0 : number rzero) by (split; reflexivity). destruct (rounds_le _ _ rzero (sub_rounds g e G E) Z0) as (Y & LY); [|change (val rzero) with 0%Q; lra|].
  { change (val rzero) with 0%Q. rewrite H. setoid_replace (val e - val e)%Q with 0%Q by ring. apply Qle_refl. }
  destruct (rsub g e) as [s|s| |s m f] eqn:D; try (destruct Y; discriminate); [exact A|]. exfalso. destruct (abs_number _ Y) as (_ & X). change (val rzero) with 0%Q in LY. rewrite <- X in LY. cbn [SFabs val] in LY. pose proof (val_pos m f). lra.
Qed.
Lemma floatEqual_rel : forall g e a r, number g -> number e -> goodTol a -> number r -> goodTol r -> (val r * Qabs (val e) < two emax)%Q ->
  (Qabs (val g - val e) <= (1 - two (-63)) * (val r * Qabs (val e)))%Q -> floatEqual g e a r = Ok true.
Proof.
  intros g e a r G E A R GR B L. assert (R0 : (0 <= val r)%Q) by (apply nonneg_good; auto). pose proof (Qabs_nonneg (val g - val e)) as D0. pose proof (Qabs_nonneg (val e)) as E0.
  assert (T : (0 < two (-63) <= 1)%Q) by (split; [apply two_pos|apply (two_le (-63) 0); lia]).
  destruct (Qeq_dec (val e) 0) as [EZ|EZ].
  { apply floatEqual_same; auto. assert (X : (Qabs (val g - val e) <= 0)%Q) by (rewrite EZ in L at 2; change (Qabs 0) with 0%Q in L; lra). pose proof (Qle_Qabs (val g - val e)). pose proof (Qle_Qabs (- (val g - val e))) as Q2. rewrite Qabs_opp in Q2. lra. }
  assert (EP : (0 < Qabs (val e))%Q). { destruct (Qlt_le_dec 0 (Qabs (val e))) as [K|K]; auto. exfalso. apply EZ. pose proof (Qle_Qabs (val e)). pose proof (Qle_Qabs (- val e)) as Q2. rewrite Qabs_opp in Q2. lra. }
  destruct (diff_multiple g e G E) as (k & K0 & K). pose proof (sub_rounds g e G E) as SR.
  assert (Y : number (rsub g e)).
  { split; [apply rsub_realOk; auto|]. destruct SR as (_ & _ & H). destruct (H (2 ^ prec - 1) (emax - prec)) as (H1 & _); [unfold prec; lia|unfold prec, emax, emin; lia|]. apply H1.
    - apply Qle_trans with ((1 - two (-63)) * two emax)%Q. { eapply Qle_trans; [exact L|]. rewrite !(Qmult_comm (1 - two (-63))). apply Qmult_le_compat_r; lra. }
      rewrite inject_minus1. setoid_replace ((inject_Z (2 ^ prec) - 1) * two (emax - prec))%Q with (inject_Z (2 ^ prec) * two (emax - prec) - two (emax - prec))%Q by ring.
      rewrite two_prec. replace (prec + (emax - prec)) with emax by lia. setoid_replace ((1 - two (-63)) * two emax)%Q with (two emax - two (-63) * two emax)%Q by ring. rewrite <- two_plus. pose proof (two_le (emax - prec) (-63 + emax) ltac:(unfold prec; lia)). lra.
    - apply below_emax; unfold prec; lia. }
  pose proof (rounds_below _ _ k SR Y D0 K) as LB. set (D := Qabs (val g - val e)) in *. set (Ay := Qabs (val (rsub g e))) in *.
  assert (AY : (Ay <= val r * Qabs (val e))%Q).
  { assert (T1 : (0 < 1 - two (-63))%Q) by (pose proof (two_le (-63) (-1) ltac:(lia)); change (two (-1)) with (1 # 2)%Q in *; lra). apply (Qmult_le_l _ _ (1 - two (-63))); auto. lra. }
  apply floatEqual_numbers; auto. split; auto. split; auto. right.
  destruct (rounds_le _ _ r (div_rounds _ e Y E EZ) R) as (Z1 & Z2); auto. { fold Ay. apply Qle_shift_div_r; auto. }
  apply leb_abs; auto.
Qed.

(* two different numbers are not closer than half a unit of the last place *)
Lemma number_gap : forall g e, number g -> number e -> ~ (val g == val e)%Q -> exists h, lowest <= h <= emax - prec /\ (two h <= Qabs (val g - val e))%Q /\ (Qabs (val e) * two (-65) <= two h)%Q.
Proof.
  intros g e G E NE. destruct (number_form e E) as (m & f & M & F & NM & AE & VE). 
  assert (U : (Qabs (val e) <= two (64 + f))%Q). { rewrite AE. apply Qle_trans with (inject_Z (2 ^ prec) * two f)%Q; [apply scaled_le; lia|]. rewrite two_prec. apply Qle_refl. }
  assert (MUL : forall h i j, (val g == inject_Z i * two h)%Q -> (val e == inject_Z j * two h)%Q -> (two h <= Qabs (val g - val e))%Q).
  { intros h i j I J. setoid_replace (val g - val e)%Q with (inject_Z (i - j) * two h)%Q by (rewrite I, J; unfold Zminus; rewrite inject_Z_plus, inject_Z_opp; ring). rewrite Qabs_Qmult. rewrite (Qabs_pos (two h)) by (pose proof (two_pos h); lra).
    change (Qabs (inject_Z (i - j))) with (inject_Z (Z.abs (i - j))). assert (i <> j) by (intros ->; apply NE; rewrite I, J; reflexivity). pose proof (scaled_le 1 (Z.abs (i - j)) h ltac:(lia)) as X. change (inject_Z 1) with 1%Q in X. lra. }
  destruct (Z.eq_dec f lowest) as [->|FL].
  - exists lowest. split; [lia|]. destruct (number_multiple g G) as (i & I), (number_multiple e E) as (j & J). split; [eapply MUL; eauto|].
    apply Qle_trans with (two (64 + lowest) * two (-65))%Q; [apply Qmult_le_compat_r; auto; pose proof (two_pos (-65)); lra|]. rewrite <- two_plus. apply two_le. lia.
  - specialize (NM ltac:(lia)). exists (f - 1). split; [lia|].
    assert (UB : (Qabs (val e) * two (-65) <= two (f - 1))%Q). { apply Qle_trans with (two (64 + f) * two (-65))%Q; [apply Qmult_le_compat_r; auto; pose proof (two_pos (-65)); lra|]. rewrite <- two_plus. apply two_le. lia. }
    split; auto. destruct (number_form g G) as (m' & f' & M' & F' & NM' & AG & VG).
    destruct (Z_lt_le_dec f' (f - 1)) as [C|C].
    + assert (GS : (Qabs (val g) <= two (62 + f))%Q). { rewrite AG. apply Qle_trans with (inject_Z (2 ^ prec) * two f')%Q; [apply scaled_le; lia|]. rewrite two_prec. apply two_le. unfold prec. lia. }
      assert (ES : (two (63 + f) <= Qabs (val e))%Q). { rewrite AE. apply Qle_trans with (inject_Z (2 ^ (prec - 1)) * two f)%Q; [rewrite pow_two by (unfold prec; lia); apply Qle_refl|apply scaled_le; lia]. }
      pose proof (Qabs_triangle (val e - val g) (val g)) as TR. setoid_replace (val e - val g + val g)%Q with (val e) in TR by ring. setoid_replace (val e - val g)%Q with (- (val g - val e))%Q in TR by ring. rewrite Qabs_opp in TR.
      assert (S1 : (two (63 + f) == 2 * two (62 + f))%Q) by (replace (63 + f) with (1 + (62 + f)) by lia; rewrite two_plus; reflexivity). pose proof (two_le (f - 1) (62 + f) ltac:(lia)). lra.
    + assert (FORM : forall x n z, (val x == inject_Z n * two z \/ val x == - (inject_Z n * two z))%Q -> f - 1 <= z -> exists i, (val x == inject_Z i * two (f - 1))%Q).
      { intros x n z [X|X] Z1.
        - exists (n * 2 ^ (z - (f - 1))). rewrite X, inject_Z_mult, <- Qmult_assoc, pow_two by lia. replace (z - (f - 1) + (f - 1)) with z by lia. reflexivity.
        - exists (- (n * 2 ^ (z - (f - 1)))). rewrite X, inject_Z_opp, inject_Z_mult. setoid_replace (- (inject_Z n * inject_Z (2 ^ (z - (f - 1)))) * two (f - 1))%Q with (- (inject_Z n * (inject_Z (2 ^ (z - (f - 1))) * two (f - 1))))%Q by ring.
          rewrite pow_two by lia. replace (z - (f - 1) + (f - 1)) with z by lia. reflexivity. }
      destruct (FORM g m' f' VG C) as (i & I), (FORM e m f VE ltac:(lia)) as (j & J). eapply MUL; eauto.
Qed.

Lemma floatEqual_sound : forall g e a r, number g -> number e -> number a -> number r -> floatEqual g e a r = Ok true ->
  (Qabs (val g - val e) <= (1 + two (-63)) * val a)%Q \/ (Qabs (val g - val e) <= (1 + two (-61)) * (val r * Qabs (val e)))%Q.
Proof.
  intros g e a r G E A R H. apply floatEqual_numbers in H as (GA & GR & H); auto. assert (A0 : (0 <= val a)%Q) by (apply nonneg_good; auto). assert (R0 : (0 <= val r)%Q) by (apply nonneg_good; auto).
  pose proof (sub_rounds g e G E) as SR. destruct (diff_multiple g e G E) as (k & K0 & K). pose proof (rsub_realOk g e G E) as V. destruct H as [H|H].
  - left. pose proof (leb_abs_number _ _ V A H) as Y. apply leb_abs in H; auto. pose proof (rounds_above _ _ a k SR Y A) as X. rewrite (Qabs_pos (val a)) in X by auto. auto.
  - destruct (Qeq_dec (val g) (val e)) as [EQ|NE].
    { left. rewrite EQ. setoid_replace (val e - val e)%Q with 0%Q by ring. change (Qabs 0) with 0%Q. apply Qmult_le_0_compat; auto. pose proof (two_pos (-63)). lra. }
    right. assert (EZ : ~ (val e == 0)%Q).
    { intro EZ. destruct e as [s|s| |s m f]; try (destruct E; discriminate); [|cbn [val] in EZ; destruct s; pose proof (val_pos m f); lra].
      destruct r as [s'|s'| |s' m' f'], (rsub g (S754_zero s)) as [t|t| |t n i]; try (destruct R; discriminate); cbn in H; discriminate. }
    assert (VZ : realOk (rdiv (rsub g e) e)) by (apply div_valid; auto; apply E).
    pose proof (leb_abs_number _ _ VZ R H) as Z1. apply leb_abs in H; auto.
    assert (Y : number (rsub g e)).
    { split; auto. destruct (rsub g e) as [s|s| |s m f]; auto; destruct e as [s'|s'| |s' m' f']; try (destruct E; discriminate); try (destruct Z1; discriminate). }
    pose proof (div_rounds _ e Y E EZ) as DR. set (D := Qabs (val g - val e)) in *.
    assert (EP : (0 < Qabs (val e))%Q). { destruct (Qlt_le_dec 0 (Qabs (val e))) as [Q1|Q1]; auto. exfalso. apply EZ. pose proof (Qle_Qabs (val e)). pose proof (Qle_Qabs (- val e)) as Q2. rewrite Qabs_opp in Q2. lra. }
    destruct (number_gap g e G E NE) as (h & HB & H1 & H2). fold D in H1.
    assert (AY : (two h <= Qabs (val (rsub g e)))%Q).
    { destruct SR as (_ & _ & S). destruct (S 1 h) as (_ & S2); [unfold prec; lia|lia|]. change (inject_Z 1) with 1%Q in S2. rewrite Qmult_1_l in S2. apply S2; auto. apply Y. }
    assert (RB : (two (-65) <= val r)%Q).
    { destruct DR as (_ & _ & S). destruct (S 1 (-65)) as (_ & S2); [unfold prec; lia|rewrite lowest_val; lia|]. change (inject_Z 1) with 1%Q in S2. rewrite Qmult_1_l in S2.
      assert (two (-65) <= Qabs (val (rdiv (rsub g e) e)))%Q by (apply S2; [apply Qle_shift_div_l; auto; lra|apply Z1]). lra. }
    pose proof (rounds_normal _ _ r DR Z1 R) as N1. rewrite (Qabs_pos (val r)) in N1 by auto. specialize (N1 H RB).
    pose proof (rounds_above _ _ _ k SR Y Y (Qle_refl _) K) as N2. fold D in N2. set (Ay := Qabs (val (rsub g e))) in *.
    assert (N3 : (Ay <= (1 + two (-63)) * val r * Qabs (val e))%Q). { setoid_replace Ay with (Ay / Qabs (val e) * Qabs (val e))%Q by (field; lra). apply Qmult_le_compat_r; lra. }
    assert (T : (0 < two (-63))%Q) by apply two_pos.
    eapply Qle_trans; [exact N2|]. apply Qle_trans with ((1 + two (-63)) * ((1 + two (-63)) * val r * Qabs (val e)))%Q.
    { rewrite !(Qmult_comm (1 + two (-63))). apply Qmult_le_compat_r; [|lra]. rewrite (Qmult_comm (val r)). auto. }
    setoid_replace ((1 + two (-63)) * ((1 + two (-63)) * val r * Qabs (val e)))%Q with (((1 + two (-63)) * (1 + two (-63))) * (val r * Qabs (val e)))%Q by ring.
    apply Qmult_le_compat_r; [|apply Qmult_le_0_compat; lra]. vm_compute. discriminate.
Qed.
Lemma floatEqual_exact : forall g e, number g -> number e -> floatEqual g e rzero rzero = Ok true <-> (val g == val e)%Q.
Proof.
  intros g e G E. assert (Z0 : number rzero) by (split; reflexivity). split; [|apply floatEqual_same; auto; reflexivity].
  intro H. apply floatEqual_sound in H; auto. change (val rzero) with 0%Q in H. pose proof (Qle_Qabs (val g - val e)). pose proof (Qle_Qabs (- (val g - val e))) as Q2. rewrite Qabs_opp in Q2. destruct H as [H|H]; lra.
Qed.
Lemma floatEqual_everything : forall g e r, number g -> number e -> goodTol r -> floatEqual g e (S754_infinity false) r = Ok true.
Proof.
  intros g e r G E R. apply floatEqual_numbers; auto. split; [reflexivity|]. split; auto. left. destruct (sub_rounds g e G E) as (_ & N & _). destruct (rsub g e) as [s|s| |s m f]; try discriminate; reflexivity.
Qed.

(* the largest numbers *)
Definition huge (s : bool) : real := S754_finite s 0xFFFFFFFFFFFFFFFF 16320.
Definition three : real := S754_finite false 0xC000000000000000 (-62).
Lemma huge_apart : (Qabs (val (huge false) - val (huge true))< (1 - two (-63)) * (val three * Qabs (val (huge true))))%Q.
Proof.
  cbn [val huge]. assert (X : (0 < inject_Z 0xFFFFFFFFFFFFFFFF * two 16320)%Q) by apply (FloatProofs.val_pos 0xFFFFFFFFFFFFFFFF 16320). generalize dependent (inject_Z 0xFFFFFFFFFFFFFFFF * two 16320)%Q. intros x X.
  setoid_replace (1 * x - - (1) * x)%Q with (2 * x)%Q by ring. setoid_replace (- (1) * x)%Q with (- x)%Q by ring. rewrite Qabs_opp, !Qabs_pos by lra. change (val three) with (1 * (0xC000000000000000 * two (-62)))%Q. 
  change (two (-63)) with (1 # 0x8000000000000000)%Q. change (two (-62)) with (1 # 0x4000000000000000)%Q. lra.
Qed.
