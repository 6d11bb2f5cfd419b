(* Multiplying colours with a factor. *)
From Verif Require Import Tac FloatModel FloatSpec FloatProofs FloatProofs2 RealModel RealProofs2 RealProofs3 FloatProofs3 RealSpec FloatEqProofs DecimalProofs PngModel PngSpec ColorModel ColorSpec.
From Coq Require Import QArith Qabs Qminmax Qround Qfield Lqa Lia ZArith SpecFloat.
Open Scope Z_scope.

(* ---- rounding of products ---- *)
Lemma rmul_isRound : forall x y, number x -> number y -> isRound prec emax (Qabs (val x * val y)) (rmul x y).
Proof.
  intros x y (VX & FX) (VY & FY). destruct x as [s1|s1| |s1 m1 e1], y as [s2|s2| |s2 m2 e2]; try discriminate;
    try (eapply isRound_ext; [|apply isRound_self; reflexivity]; cbn [val rmul SFmul]; rewrite ?Qmult_0_l, ?Qmult_0_r; reflexivity).
  rewrite rmul_norm by auto. eapply isRound_ext; [|apply (norm_isRound prec emax P64 E64) with (x := (inject_Z (Zpos (m1 * m2)) * two (e1 + e2))%Q); [lia|auto]].
  cbn [val]. rewrite Qabs_Qmult. pose proof (val_pos m1 e1). pose proof (val_pos m2 e2). rewrite !abs_sign by lra. rewrite two_plus, Pos2Z.inj_mul, inject_Z_mult. ring.
Qed.
Lemma norm_sign : forall s q e, isfinite (norm prec emax s q e) = true -> 0 <= q <= 2 ^ prec -> if s then (val (norm prec emax s q e) <= 0)%Q else (0 <= val (norm prec emax s q e))%Q.
Proof.
  intros s q e F H. destruct (norm_val prec emax P64 s q e H) as [(i & W)|(_ & W)]; [rewrite W in F; discriminate|].
  assert (0 <= inject_Z q * two e)%Q. { pose proof (two_pos e). apply Qmult_le_0_compat; [|lra]. change 0%Q with (inject_Z 0). rewrite <- Zle_Qle. lia. }
  destruct s; rewrite W; lra.
Qed.
Lemma rmul_sign : forall x y, number x -> number y -> isfinite (rmul x y) = true ->
  ((0 <= val x * val y -> 0 <= val (rmul x y)) /\ (val x * val y <= 0 -> val (rmul x y) <= 0))%Q.
Proof.
  intros x y (VX & FX) (VY & FY) F. destruct x as [s1|s1| |s1 m1 e1], y as [s2|s2| |s2 m2 e2]; try discriminate; try (split; intros; cbn [val rmul SFmul]; lra).
  rewrite rmul_norm in * by auto. destruct (rne_pow prec emax P64 (Zpos (m1 * m2)) (e1 + e2) ltac:(lia)) as (R1 & R2).
  pose proof (norm_sign _ _ _ F R1) as S1. cbn [val]. pose proof (val_pos m1 e1) as P1. pose proof (val_pos m2 e2) as P2.
  assert (P : (0 < inject_Z (Zpos m1) * two e1 * (inject_Z (Zpos m2) * two e2))%Q) by nra.
  destruct s1, s2; cbn [xorb] in *; split; intro; auto; nra.
Qed.

(* ---- llround ---- *)
Lemma half_up : forall m e a, a = (if 0 <=? e then Zpos m * 2 ^ e else (2 * Zpos m + 2 ^ (- e)) / 2 ^ (- e + 1)) ->
  0 <= a /\ (inject_Z a - (1 # 2) <= inject_Z (Zpos m) * two e /\ inject_Z (Zpos m) * two e < inject_Z a + (1 # 2))%Q.
Proof.
  intros m e a ->. destruct (Z.leb_spec 0 e) as [L|L].
  - rewrite inject_Z_mult, two_Z by auto. split; [|lra]. apply Z.mul_nonneg_nonneg; [lia|apply Z.pow_nonneg; lia].
  - set (D := 2 ^ (- e)). assert (P : 0 < D) by (apply Z.pow_pos_nonneg; lia). replace (2 ^ (- e + 1)) with (2 * D) by (unfold D; rewrite Z.pow_add_r by lia; lia).
    set (a := (2 * Zpos m + D) / (2 * D)). assert (A1 : 2 * D * a <= 2 * Zpos m + D) by (unfold a; apply Z.mul_div_le; lia).
    assert (A2 : 2 * Zpos m + D < 2 * D * (a + 1)) by (unfold a; rewrite Z.mul_comm; rewrite Z.add_1_r; rewrite Z.mul_comm; apply Z.mul_succ_div_gt; lia).
    split; [unfold a; apply Z.div_pos; lia|]. clearbody a.
    assert (T : (inject_Z D * two e == 1)%Q) by (unfold D; rewrite <- two_Z by lia; rewrite <- two_plus; replace (- e + e) with 0 by lia; reflexivity).
    assert (PD : (0 < inject_Z D)%Q) by (change 0%Q with (inject_Z 0); rewrite <- Zlt_Qlt; auto). clearbody D.
    assert (V : (inject_Z (Zpos m) * two e * inject_Z D == inject_Z (Zpos m))%Q) by (rewrite <- (Qmult_1_r (inject_Z (Zpos m))) at 2; rewrite <- T; ring).
    rewrite Zle_Qle in A1. rewrite Zlt_Qlt in A2. rewrite !inject_Z_mult, !inject_Z_plus, !inject_Z_mult in A1, A2. change (inject_Z 2) with 2%Q in *. rewrite <- V in A1, A2. change (inject_Z 1) with 1%Q in *.
    set (v := (inject_Z (Zpos m) * two e)%Q) in *. clearbody v. clear T V. split; [apply Qnot_lt_le; intro K; assert (0 < inject_Z D * (inject_Z a - (1 # 2) - v))%Q by (apply Qmult_lt_0_compat; lra)|
      apply Qnot_le_lt; intro K; assert (0 <= inject_Z D * (v - inject_Z a - (1 # 2)))%Q by (apply Qmult_le_0_compat; lra)]; rewrite ?inject_Z_plus in A2; change (inject_Z 1) with 1%Q in A2; lra.
Qed.
Lemma roundAway_ok : forall y, number y -> exists k, roundAway y = Some k /\
  ((0 <= val y)%Q -> 0 <= k /\ (inject_Z k - (1 # 2) <= val y /\ val y < inject_Z k + (1 # 2))%Q) /\
  ((val y <= 0)%Q -> k <= 0 /\ (val y - (1 # 2) <= inject_Z k)%Q).
Proof.
  intros y (V & F). destruct y as [s|s| |s m e]; try discriminate.
  - exists 0. split; [reflexivity|]. cbn [val]. change (inject_Z 0) with 0%Q. split; intros _; (split; [lia|lra]).
  - cbn [roundAway]. eexists. split; [reflexivity|]. cbv zeta. pose proof (half_up m e _ eq_refl) as (A & B & C). set (a := if 0 <=? e then _ else _) in *. clearbody a.
    pose proof (val_pos m e). cbn [val]. destruct s; (split; intro S); try lra.
    + split; [lia|]. rewrite inject_Z_opp. lra.
    + split; [lia|]. lra.
Qed.

(* ---- one part ---- *)
Lemma byte_val : forall c, byte c -> number (ofZ c) /\ (val (ofZ c) == inject_Z c)%Q /\ (0 <= inject_Z c <= 255)%Q.
Proof.
  intros c B. unfold byte in B. destruct (ofZ_val c) as (N & V); [lia|]. split; [|split]; auto. change 0%Q with (inject_Z 0). change 255%Q with (inject_Z 255). rewrite <- !Zle_Qle. lia.
Qed.
Lemma two56 : (inject_Z (2 ^ 56) * two (-56) == 1)%Q. Proof. reflexivity. Qed.
(* a product below 256 is off by at most 2^-56 *)
Lemma product_near : forall x y, number x -> number y -> (0 <= val x * val y < 256)%Q ->
  number (rmul x y) /\ (0 <= val (rmul x y))%Q /\ (Qabs (val (rmul x y) - val x * val y) <= two (-56))%Q.
Proof.
  intros x y X Y H. assert (IR := isRound_ext _ _ _ _ _ (Qabs_pos (val x * val y) ltac:(lra)) (rmul_isRound x y X Y)). destruct IR as (V & N & R). set (p := (val x * val y)%Q) in *.
  set (j := Qround.Qfloor (p * inject_Z (2 ^ 56))). pose proof (Qround.Qfloor_le (p * inject_Z (2 ^ 56))) as J1. pose proof (Qround.Qlt_floor (p * inject_Z (2 ^ 56))) as J2. fold j in J1, J2. rewrite inject_Z_plus in J2.
  pose proof (two_pos (-56)) as T0. pose proof two56 as T. set (t := two (-56)) in *. assert (K0 : (0 < inject_Z (2 ^ 56))%Q) by reflexivity. set (K := inject_Z (2 ^ 56)) in *.
  assert (J3 : 0 <= j). { unfold j. change 0 with (Qround.Qfloor 0). apply Qround.Qfloor_resp_le. apply Qmult_le_0_compat; lra. }
  assert (J4 : j < 2 ^ 64). { rewrite Zlt_Qlt. eapply Qle_lt_trans; [exact J1|]. setoid_replace (inject_Z (2 ^ 64)) with (256 * K)%Q by reflexivity. apply Qmult_lt_compat_r; lra. }
  assert (J5 : (inject_Z j * t <= p)%Q). { setoid_replace p with (p * K * t)%Q by (rewrite <- Qmult_assoc, T; ring). apply Qmult_le_compat_r; lra. }
  assert (J6 : (p <= (inject_Z j + 1) * t)%Q). { setoid_replace p with (p * K * t)%Q by (rewrite <- Qmult_assoc, T; ring). apply Qmult_le_compat_r; [|lra]. change (inject_Z 1) with 1%Q in J2. lra. }
  assert (EM : emin prec emax <= -56) by (vm_compute; discriminate).
  assert (J7 : ((inject_Z j + 1) * t <= 256)%Q).
  { setoid_replace 256%Q with (inject_Z (2 ^ 64) * t)%Q by reflexivity. apply Qmult_le_compat_r; [|lra]. change 1%Q with (inject_Z 1). rewrite <- inject_Z_plus, <- Zle_Qle. lia. }
  destruct (R j (-56) ltac:(unfold prec; lia) EM) as (_ & R1). destruct (R (j + 1) (-56) ltac:(unfold prec; lia) EM) as (R2 & _). fold t in R1, R2. rewrite inject_Z_plus in R2. change (inject_Z 1) with 1%Q in R2.
  assert (BIG : (256 < two emax)%Q). { change 256%Q with (inject_Z (2 ^ 8)). rewrite <- two_Z by lia. apply two_lt. unfold emax. lia. }
  destruct (R2 J6) as (F & R3); [lra|]. specialize (R1 J5 F). destruct (rmul_sign x y X Y F) as (S & _). specialize (S ltac:(fold p; lra)).
  rewrite Qabs_pos in R1, R3 by auto. split; [split; auto|]. split; auto. apply Qabs_Qle_condition. split; lra.
Qed.

Lemma clamp_low : forall k, k <= 0 -> clampColor k = 0. Proof. intros k H. unfold clampColor. repeat case Z.ltb_spec; lia. Qed.
Lemma clamp_high : forall k, 255 <= k -> clampColor k = 255. Proof. intros k H. unfold clampColor. repeat case Z.ltb_spec; lia. Qed.
Lemma clamp_id : forall k, 0 <= k <= 255 -> clampColor k = k. Proof. intros k H. unfold clampColor. repeat case Z.ltb_spec; lia. Qed.
Lemma clamp_byte : forall k, byte (clampColor k). Proof. intro k. unfold byte, clampColor. repeat case Z.ltb_spec; lia. Qed.
Lemma tiny : (0 < two (-56) < 1 # 4)%Q. Proof. split; reflexivity. Qed.
Lemma sat_low : forall q, (q <= 0)%Q -> (saturated q == 0)%Q.
Proof. intros q H. unfold saturated. destruct (Q.min_spec 255 q) as [(A & ->)|(A & ->)]; destruct (Q.max_spec 0 q) as [(B & E)|(B & E)]; try lra. Qed.
Lemma sat_mid : forall q, (0 <= q <= 255)%Q -> (saturated q == q)%Q.
Proof. intros q H. unfold saturated. destruct (Q.min_spec 255 q) as [(A & ->)|(A & ->)]; [destruct (Q.max_spec 0 255) as [(B & E)|(B & E)]|destruct (Q.max_spec 0 q) as [(B & E)|(B & E)]]; lra. Qed.
Lemma sat_high : forall q, (255 <= q)%Q -> (saturated q == 255)%Q.
Proof. intros q H. unfold saturated. destruct (Q.min_spec 255 q) as [(A & ->)|(A & ->)]; [destruct (Q.max_spec 0 255) as [(B & E)|(B & E)]|destruct (Q.max_spec 0 q) as [(B & E)|(B & E)]]; lra. Qed.

Section Scale.
  Variable unspecified : real -> Z.
  Notation scalePart := (scalePart unspecified).
  Lemma scalePart_byte : forall c f, byte (scalePart c f).
  Proof. intros. apply clamp_byte. Qed.
  Lemma llround_in : forall y k, roundAway y = Some k -> - 2 ^ 63 <= k < 2 ^ 63 -> llround unspecified y = k.
  Proof. intros y k E H. unfold llround. rewrite E. destruct (Z.leb_spec (- 2 ^ 63) k), (Z.ltb_spec k (2 ^ 63)); try lia. reflexivity. Qed.
  Lemma inject_ge : forall k z, (inject_Z z - 1 < inject_Z k)%Q -> z <= k.
  Proof. intros k z H. destruct (Z_lt_le_dec k z) as [L|L]; auto. assert (X : k + 1 <= z) by lia. rewrite Zle_Qle, inject_Z_plus in X. change (inject_Z 1) with 1%Q in X. lra. Qed.

  Lemma scalePart_ok : forall c f, byte c -> number f -> (Qabs (val f) <= two 55)%Q -> rounded (scalePart c f) (saturated (inject_Z c * val f)).
  Proof.
    intros c f B F L. destruct (byte_val c B) as (N & V & C). unfold ColorModel.scalePart, clampReal. pose proof tiny as T. apply Qabs_Qle_condition in L.
    assert (VV : (val (ofZ c) * val f == inject_Z c * val f)%Q) by (rewrite V; reflexivity). set (q := (inject_Z c * val f)%Q) in *. unfold rounded.
    assert (BIG : (- (255 * two 55) <= q <= 255 * two 55)%Q).
    { unfold q. assert (0 < two 55)%Q by apply two_pos. split; nra. }
    assert (FIN : number (rmul (ofZ c) f) /\ (Qabs (val (rmul (ofZ c) f)) <= 255 * two 55)%Q).
    { destruct (rmul_isRound _ _ N F) as (RV & _ & R). destruct (R 255 55) as (R1 & _); [unfold prec; lia|vm_compute; discriminate|]. destruct R1 as (R1 & R2).
      - change (inject_Z 255) with 255%Q. rewrite VV. apply Qabs_Qle_condition. auto.
      - change (inject_Z 255) with 255%Q. apply Qlt_le_trans with (two 63); [reflexivity|]. apply two_le. unfold emax. lia.
      - split; [split|]; auto. }
    destruct FIN as (NY & YB). destruct (rmul_sign _ _ N F (proj2 NY)) as (S1 & S2). rewrite VV in S1, S2. destruct (roundAway_ok _ NY) as (k & RA & K1 & K2).
    set (y := rmul (ofZ c) f) in *. assert (KK : (255 * two 55 < inject_Z (2 ^ 63) - 1)%Q) by reflexivity. apply Qabs_Qle_condition in YB.
    destruct (Qlt_le_dec q 0) as [Q0|Q0].
    { destruct K2 as (K3 & K4); [apply S2; lra|]. rewrite (llround_in y k RA). 2:{ split; [|lia]. apply inject_ge. rewrite inject_Z_opp. lra. }
      rewrite clamp_low by auto. rewrite (sat_low q) by lra. apply Qabs_Qle_condition. change (inject_Z 0) with 0%Q. lra. }
    destruct K1 as (K3 & K4 & K5); [auto|]. rewrite (llround_in y k RA). 2:{ split; [lia|]. rewrite Zlt_Qlt. lra. }
    destruct (Qlt_le_dec q 256) as [Q1|Q1].
    - destruct (product_near (ofZ c) f N F) as (_ & _ & NE); [rewrite VV; auto|]. fold y in NE. rewrite VV in NE. apply Qabs_Qle_condition in NE.
      destruct (Qlt_le_dec 255 q) as [Q2|Q2].
      + rewrite (sat_high q) by lra. rewrite clamp_high; [apply Qabs_Qle_condition; change (inject_Z 255) with 255%Q; lra|]. apply inject_ge. change (inject_Z 255) with 255%Q. lra.
      + rewrite (sat_mid q) by lra. rewrite clamp_id; [apply Qabs_Qle_condition; lra|]. split; auto. apply inject_ge. change (inject_Z 255) with 255%Q. lra.
    - rewrite (sat_high q) by lra. assert (256 <= val y)%Q.
      { destruct (rmul_isRound _ _ N F) as (_ & _ & R). destruct (R 256 0) as (_ & R1); [unfold prec; lia|vm_compute; discriminate|]. fold y in R1. change (inject_Z 256 * two 0)%Q with 256%Q in R1. rewrite VV in R1. rewrite !Qabs_pos in R1 by auto. apply R1; auto. apply NY. }
      rewrite clamp_high; [apply Qabs_Qle_condition; change (inject_Z 255) with 255%Q; lra|]. apply inject_ge. change (inject_Z 255) with 255%Q. lra.
  Qed.
End Scale.
