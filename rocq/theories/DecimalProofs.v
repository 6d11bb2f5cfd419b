(* toReal gives the nearest number. *)
From Verif Require Import Tac FloatModel FloatSpec FloatProofs FloatProofs2 RealProofs2 RealProofs3 RealProofs6 FloatProofs3 InputProofs3 RealSpec FloatEqProofs DecimalSpec DecimalModel.
From Coq Require Import QArith Qabs Qfield Lqa Lia ZArith SpecFloat.
Open Scope Z_scope.

Lemma nearestInt_half : forall n d, 0 < d -> 2 * Z.abs (nearestInt n d * d - n) <= d.
Proof.
  intros n d D. unfold nearestInt. pose proof (Z.div_mod n d ltac:(lia)) as E. pose proof (Z.mod_pos_bound n d D) as B. set (k := n / d) in *. set (r := n mod d) in *. clearbody k r. subst n. cbv zeta.
  destruct (Z.compare_spec (2 * r) d); [destruct (Z.even k)| |]; try (replace (k * d - (d * k + r)) with (- r) by ring; lia); replace ((k + 1) * d - (d * k + r)) with (d - r) by ring; lia.
Qed.
Lemma nearestInt_best : forall n d j, 0 < d -> Z.abs (nearestInt n d * d - n) <= Z.abs (j * d - n).
Proof.
  intros n d j D. pose proof (nearestInt_half n d D) as H. destruct (Z.eq_dec j (nearestInt n d)) as [->|NE]; [lia|].
  set (k := nearestInt n d) in *. assert (X : d <= Z.abs ((j - k) * d)) by (rewrite Z.abs_mul, (Z.abs_eq d) by lia; nia). replace ((j - k) * d) with ((j * d - n) - (k * d - n)) in X by ring. lia.
Qed.

Lemma abs_cases : forall x, ((0 <= x /\ Qabs x == x) \/ (x <= 0 /\ Qabs x == - x))%Q.
Proof. intro x. destruct (Qlt_le_dec x 0); [right|left]; (split; [lra|]); [apply Qabs_neg|apply Qabs_pos]; lra. Qed.
Lemma reverse_triangle : forall w x (neg : bool), (0 <= x)%Q -> (Qabs (Qabs w - x) <= Qabs (w - (if neg then - x else x)))%Q.
Proof.
  intros w x neg X. apply Qabs_Qle_condition. destruct (abs_cases w) as [(A & ->)|(A & ->)]; destruct neg;
    [destruct (abs_cases (w - - x)) as [(B & ->)|(B & ->)]|destruct (abs_cases (w - x)) as [(B & ->)|(B & ->)]|destruct (abs_cases (w - - x)) as [(B & ->)|(B & ->)]|destruct (abs_cases (w - x)) as [(B & ->)|(B & ->)]]; split; lra.
Qed.
Section Ratio.
  Variables n d : Z.
  Hypothesis N : 0 < n.
  Hypothesis D : 0 < d.
  Definition ratio : Q := (inject_Z n / inject_Z d)%Q.
  Lemma dpos : (0 < inject_Z d)%Q. Proof. change 0%Q with (inject_Z 0). rewrite <- Zlt_Qlt. auto. Qed.
  Lemma npos : (0 < inject_Z n)%Q. Proof. change 0%Q with (inject_Z 0). rewrite <- Zlt_Qlt. auto. Qed.
  Lemma ratio_n : (ratio * inject_Z d == inject_Z n)%Q.
  Proof. unfold ratio. pose proof dpos. field. lra. Qed.
  Lemma ratio_pos : (0 < ratio)%Q.
  Proof. unfold ratio. pose proof dpos. pose proof npos. apply Qlt_shift_div_l; lra. Qed.
  Lemma up_pos : forall e, 0 < up e. Proof. intro e. unfold up. apply Z.pow_pos_nonneg; lia. Qed.
  Lemma up_two : forall e, (inject_Z (up e) == two e * inject_Z (up (- e)))%Q.
  Proof. intro e. unfold up. rewrite <- !two_Z by lia. rewrite <- two_plus. replace (e + Z.max (- e) 0) with (Z.max e 0) by lia. reflexivity. Qed.
  (* comparing a multiple of 2^e with the ratio *)
  Lemma scaled_diff : forall j e, (inject_Z (j * (d * up e) - n * up (- e)) == (inject_Z j * two e - ratio) * (inject_Z d * inject_Z (up (- e))))%Q.
  Proof.
    intros j e. unfold Zminus. rewrite inject_Z_plus, inject_Z_opp, !inject_Z_mult, <- ratio_n, (up_two e). ring.
  Qed.
  Lemma scale_pos : forall e, (0 < inject_Z d * inject_Z (up (- e)))%Q.
  Proof. intro e. pose proof dpos. assert (0 < inject_Z (up (- e)))%Q by (change 0%Q with (inject_Z 0); rewrite <- Zlt_Qlt; apply up_pos). nra. Qed.
  Lemma scaled_abs : forall j e, (inject_Z (Z.abs (j * (d * up e) - n * up (- e))) == Qabs (inject_Z j * two e - ratio) * (inject_Z d * inject_Z (up (- e))))%Q.
  Proof.
    intros j e. rewrite <- (Qabs_pos (inject_Z d * inject_Z (up (- e)))) by (pose proof (scale_pos e); lra). rewrite <- Qabs_Qmult, <- scaled_diff. reflexivity.
  Qed.
  Lemma two_le_ratio : forall l, (two l <= ratio)%Q <-> d * up l <= n * up (- l).
  Proof.
    intro l. pose proof (scaled_diff 1 l) as S. rewrite Z.mul_1_l in S. change (inject_Z 1) with 1%Q in S. rewrite Qmult_1_l in S. pose proof (scale_pos l) as P. split; intro H.
    - enough (d * up l - n * up (- l) <= 0) by lia. rewrite Zle_Qle, S. change (inject_Z 0) with 0%Q. nra.
    - assert (X : (inject_Z (d * up l - n * up (- l)) <= 0)%Q) by (change 0%Q with (inject_Z 0); rewrite <- Zle_Qle; lia). rewrite S in X. nra.
  Qed.
  Lemma log_bounds : (two (ratioLog n d) <= ratio < two (ratioLog n d + 1))%Q.
  Proof.
    pose proof (log2_bounds n N) as (N1 & N2). pose proof (log2_bounds d D) as (D1 & D2). set (l := Z.log2 n - Z.log2 d).
    pose proof (Z.log2_nonneg n). pose proof (Z.log2_nonneg d). pose proof dpos as DP. pose proof ratio_n as R. pose proof ratio_pos as RP.
    assert (A : (ratio < two (l + 1))%Q).
    { apply Qnot_le_lt. intro K. assert (X : (two (l + 1) * two (Z.log2 d) <= inject_Z n)%Q).
      { rewrite <- R. apply Qle_trans with (ratio * two (Z.log2 d))%Q; [apply Qmult_le_compat_r; auto; pose proof (two_pos (Z.log2 d)); lra|]. rewrite two_Z by lia.
        assert (inject_Z (2 ^ Z.log2 d) <= inject_Z d)%Q by (rewrite <- Zle_Qle; auto). nra. }
      rewrite <- two_plus in X. replace (l + 1 + Z.log2 d) with (Z.log2 n + 1) in X by (unfold l; lia). rewrite two_Z in X by lia. rewrite <- Zle_Qle in X. lia. }
    assert (B : (two (l - 1) < ratio)%Q).
    { apply Qnot_le_lt. intro K. assert (X : (inject_Z n < two (l - 1) * two (Z.log2 d + 1))%Q).
      { rewrite <- R. apply Qle_lt_trans with (two (l - 1) * inject_Z d)%Q; [apply Qmult_le_compat_r; auto; lra|]. rewrite (two_Z (Z.log2 d + 1)) by lia.
        assert (inject_Z d < inject_Z (2 ^ (Z.log2 d + 1)))%Q by (rewrite <- Zlt_Qlt; auto). pose proof (two_pos (l - 1)). nra. }
      rewrite <- two_plus in X. replace (l - 1 + (Z.log2 d + 1)) with (Z.log2 n) in X by (unfold l; lia). rewrite two_Z in X by lia. rewrite <- Zlt_Qlt in X. lia. }
    unfold ratioLog. fold l. destruct (Z.leb_spec (d * up l) (n * up (- l))) as [H1|H1].
    - split; auto. apply two_le_ratio. auto.
    - replace (l - 1 + 1) with l by lia. split; [lra|]. apply Qnot_le_lt. intro K. apply two_le_ratio in K. lia.
  Qed.
  Definition expo : Z := Z.max (ratioLog n d - 63) (-16445).
  Definition mant : Z := nearestInt (n * up (- expo)) (d * up expo).
  Lemma den_pos : 0 < d * up expo. Proof. pose proof (up_pos expo). nia. Qed.
  Lemma mant_half : (2 * Qabs (inject_Z mant * two expo - ratio) <= two expo)%Q.
  Proof.
    pose proof (nearestInt_half (n * up (- expo)) (d * up expo) den_pos) as H. fold mant in H. rewrite Zle_Qle, inject_Z_mult, scaled_abs in H. change (inject_Z 2) with 2%Q in H.
    rewrite inject_Z_mult, (up_two expo) in H. pose proof (scale_pos expo) as P. set (c := (inject_Z d * inject_Z (up (- expo)))%Q) in *.
    apply Qmult_lt_0_le_reg_r with c; auto. setoid_replace (two expo * c)%Q with (inject_Z d * (two expo * inject_Z (up (- expo))))%Q by (unfold c; ring). lra.
  Qed.
  Lemma mant_best : forall j, (Qabs (inject_Z mant * two expo - ratio) <= Qabs (inject_Z j * two expo - ratio))%Q.
  Proof.
    intro j. pose proof (nearestInt_best (n * up (- expo)) (d * up expo) j den_pos) as H. fold mant in H. rewrite Zle_Qle, !scaled_abs in H. apply Qmult_lt_0_le_reg_r in H; auto. apply scale_pos.
  Qed.
  Lemma ratio_upper : (ratio < inject_Z (2 ^ 64) * two expo)%Q.
  Proof.
    destruct log_bounds as (_ & H). apply Qlt_le_trans with (1 := H). rewrite pow_two by lia. apply two_le. unfold expo. lia.
  Qed.
  Lemma ratio_lower : -16445 < expo -> (inject_Z (2 ^ 63) * two expo <= ratio)%Q.
  Proof. intro H. destruct log_bounds as (L & _). rewrite pow_two by lia. replace (63 + expo) with (ratioLog n d) by (unfold expo in *; lia). auto. Qed.
  Lemma mant_range : 0 <= mant <= 2 ^ 64.
  Proof.
    pose proof (nearestInt_half (n * up (- expo)) (d * up expo) den_pos) as H. fold mant in H. pose proof (up_pos (- expo)). pose proof den_pos as DP.
    pose proof ratio_upper as U. pose proof (scaled_diff (2 ^ 64) expo) as S. pose proof (scale_pos expo) as P.
    assert (X : n * up (- expo) <= 2 ^ 64 * (d * up expo)).
    { enough (0 <= 2 ^ 64 * (d * up expo) - n * up (- expo)) by lia. rewrite Zle_Qle, S. change (inject_Z 0) with 0%Q. apply Qmult_le_0_compat; lra. }
    assert (0 < n * up (- expo)) by nia. set (dd := d * up expo) in *. set (nn := n * up (- expo)) in *. clearbody dd nn. clear - H DP X H1. split.
    - assert (- dd < mant * dd) by lia. nia.
    - assert (mant * dd < (2 ^ 64 + 1) * dd) by lia. nia.
  Qed.
  (* no number is nearer *)
  Lemma core : forall m f, 0 <= m < 2 ^ prec -> lowest <= f -> (Qabs (inject_Z mant * two expo - ratio) <= Qabs (inject_Z m * two f - ratio))%Q.
  Proof.
    intros m f M F. rewrite lowest_val in F. change prec with 64 in M. destruct (Z_le_dec expo f) as [L|L].
    - eapply Qle_trans; [apply (mant_best (m * 2 ^ (f - expo)))|]. rewrite inject_Z_mult, <- Qmult_assoc, pow_two by lia. replace (f - expo + expo) with f by lia. apply Qle_refl.
    - assert (E : -16445 < expo) by (unfold expo in *; lia). pose proof (ratio_lower E) as RL. eapply Qle_trans; [apply (mant_best (2 ^ 63))|].
      assert (W : (inject_Z m * two f <= inject_Z (2 ^ 63) * two expo)%Q).
      { apply (scale_le _ f _ expo f); [lia|lia|]. rewrite Z.sub_diag, Z.pow_0_r, Z.mul_1_r. assert (2 ^ 1 <= 2 ^ (expo - f)) by (apply Z.pow_le_mono_r; lia). change (2 ^ 1) with 2 in *. nia. }
      rewrite !Qabs_neg by lra. lra.
  Qed.
  Lemma toReal_value : forall neg, number (toReal neg n d) -> (val (toReal neg n d) == (if neg then - (1) else 1) * (inject_Z mant * two expo))%Q.
  Proof.
    intros neg NV. unfold toReal in *. cbv zeta in *. fold expo in *. fold mant in *. pose proof mant_range as MR. destruct mant as [|p|p] eqn:EM; [|clear MR; pose proof mant_range as MR; rewrite EM in MR|lia].
    - cbn [val]. change (inject_Z 0) with 0%Q. ring.
    - assert (EL : emin prec emax <= expo) by (rewrite lowest_val; unfold expo; lia).
      destruct (Qlt_le_dec (inject_Z (Zpos p) * two expo) (two emax)) as [L|L].
      + destruct (round_exact prec emax P64 E64 neg p expo (Zpos p) expo) as (_ & p' & e' & X & V); [change prec with 64; lia|auto|auto|reflexivity|]. rewrite X. cbn [val]. rewrite V. reflexivity.
      + exfalso. destruct (round_isRound prec emax P64 E64 neg p expo) as (_ & _ & R). destruct (R (Zpos p) expo) as (_ & R2); [change prec with 64; lia|auto|]. specialize (R2 (Qle_refl _) (proj2 NV)).
        destruct (number_form _ NV) as (m & f & M & F & _ & V & _). rewrite V in R2. pose proof (below_emax m f M ltac:(lia)). lra.
  Qed.
  Lemma toReal_valid : forall neg, realOk (toReal neg n d).
  Proof. intro neg. unfold toReal. cbv zeta. destruct (nearestInt _ _); try reflexivity. apply round_valid. apply P64. Qed.
  Lemma toReal_nearest : forall neg, isfinite (toReal neg n d) = true -> nearest (if neg then - ratio else ratio) (toReal neg n d).
  Proof.
    intros neg F. assert (NV : number (toReal neg n d)) by (split; auto; apply toReal_valid). split; auto. intros w W. pose proof (toReal_value neg NV) as V.
    destruct (number_form w W) as (m & f & M & FF & _ & A & _). pose proof (core m f M ltac:(lia)) as C. rewrite <- A in C.
    assert (X : (Qabs (Qabs (val w) - ratio) <= Qabs (val w - (if neg then - ratio else ratio)))%Q).
    { apply reverse_triangle. pose proof ratio_pos. lra. }
    eapply Qle_trans; [|exact X]. eapply Qle_trans; [|exact C]. destruct neg.
    - rewrite V. setoid_replace (- (1) * (inject_Z mant * two expo) - - ratio)%Q with (- (inject_Z mant * two expo - ratio))%Q by ring. rewrite Qabs_opp. apply Qle_refl.
    - rewrite V. rewrite Qmult_1_l. apply Qle_refl.
  Qed.
  Lemma largest_form : (val largest == inject_Z (2 ^ 64 - 1) * two 16320)%Q.
  Proof. unfold largest. cbn [val]. change (Zpos 18446744073709551615) with (2 ^ 64 - 1). ring. Qed.
  Lemma smallest_form : (val smallest == two (-16445))%Q.
  Proof. unfold smallest. cbn [val]. change (inject_Z 1) with 1%Q. ring. Qed.
  Lemma toReal_in_range : forall neg, (val smallest <= ratio <= val largest)%Q -> exists s p e, toReal neg n d = S754_finite s p e.
  Proof.
    intros neg (S & L). pose proof mant_range as MR. rewrite largest_form in L. rewrite smallest_form in S.
    assert (M0 : mant <> 0).
    { intro E. pose proof (core 1 (-16445) ltac:(change prec with 64; lia) ltac:(rewrite lowest_val; lia)) as C. rewrite E in C. change (inject_Z 0) with 0%Q in C. change (inject_Z 1) with 1%Q in C.
      rewrite Qmult_0_l, Qmult_1_l in C. pose proof (two_pos (-16445)). generalize dependent (two (-16445)). intros t S C T. rewrite !Qabs_neg in C by lra. lra. }
    assert (B : (inject_Z mant * two expo < two emax)%Q).
    { pose proof (core (2 ^ 64 - 1) 16320 ltac:(change prec with 64; lia) ltac:(rewrite lowest_val; lia)) as C. pose proof (below_emax (2 ^ 64 - 1) 16320 ltac:(change prec with 64; lia) ltac:(change prec with 64; change emax with 16384; lia)) as BE.
      set (b := (inject_Z (2 ^ 64 - 1) * two 16320)%Q) in *. set (k := (inject_Z mant * two expo)%Q) in *. clearbody b k. apply Qnot_le_lt. intro K. rewrite !Qabs_pos in C by lra. lra. }
    unfold toReal. cbv zeta. fold expo. fold mant. destruct mant as [|p|p] eqn:EM; [lia| |lia].
    destruct (round_exact prec emax P64 E64 neg p expo (Zpos p) expo) as (_ & p' & e' & X & _); [change prec with 64; lia|rewrite lowest_val; unfold expo; lia|auto|reflexivity|]. eauto.
  Qed.
  (* the distance *)
  Lemma mant_error : (Qabs (inject_Z mant * two expo - ratio) <= two (-64) * ratio + two (-16446))%Q.
  Proof.
    pose proof mant_half as H. destruct log_bounds as (L & _). pose proof (two_pos (-64)). pose proof (two_pos (-16446)). pose proof ratio_pos.
    assert (X : (two expo <= 2 * (two (-64) * ratio + two (-16446)))%Q).
    { unfold expo. destruct (Z.max_spec (ratioLog n d - 63) (-16445)) as [(_ & ->)|(_ & ->)].
      - replace (-16445) with (1 + -16446) by lia. rewrite two_plus. change (two 1) with 2%Q. generalize dependent (two (-16446)). generalize dependent (two (-64)). intros a A b B. nra.
      - replace (ratioLog n d - 63) with (1 + (-64 + ratioLog n d)) by lia. rewrite !two_plus. change (two 1) with 2%Q. generalize dependent (two (-16446)). generalize dependent (two (-64)). intros a A b B. nra. }
    lra.
  Qed.
End Ratio.
