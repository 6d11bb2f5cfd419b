(* Interpolating colours, and the colours of the svg visualizer. *)
From Verif Require Import Tac FloatModel FloatSpec FloatProofs FloatProofs2 RealModel RealProofs2 RealProofs3 FloatProofs3 RealSpec FloatEqProofs DecimalProofs PngModel PngSpec ColorModel ColorSpec ColorProofs.
From Coq Require Import QArith Qabs Qminmax Qround Qfield Lqa Lia ZArith SpecFloat List.
Import ListNotations.
Open Scope Z_scope.

Lemma normalize_sign : forall z e, 0 <= z -> isfinite (binary_normalize prec emax z e false) = true -> (0 <= val (binary_normalize prec emax z e false))%Q.
Proof.
  intros [|p|p] e H F; cbn [binary_normalize] in *; [cbn [val]; lra| |lia]. rewrite (round_norm prec emax P64) in *.
  destruct (rne_pow prec emax P64 (Zpos p) e ltac:(lia)) as (R1 & R2). apply (norm_sign false _ _ F R1).
Qed.
Lemma rone_val : number rone /\ (val rone == 1)%Q. Proof. split; [split|]; reflexivity. Qed.
Lemma rsub_sign : forall x y, number x -> number y -> isfinite (rsub x y) = true -> (val y <= val x)%Q -> (0 <= val (rsub x y))%Q.
Proof.
  intros x y (VX & FX) (VY & FY) F L. destruct x as [s1|s1| |s1 m1 e1], y as [s2|s2| |s2 m2 e2]; try discriminate.
  - unfold rsub, SFsub. destruct (Bool.eqb s1 (negb s2)); cbn [val]; lra.
  - unfold rsub, SFsub. cbn [val] in *. destruct s2; cbn [negb]; lra.
  - unfold rsub, SFsub. cbn [val] in *. destruct s1; lra.
  - unfold rsub, SFsub in *. apply normalize_sign; auto. set (z := Z.min e1 e2) in *.
    pose proof (cond_val s1 m1 e1 z ltac:(lia)) as C1. pose proof (cond_val s2 m2 e2 z ltac:(lia)) as C2. rewrite <- C1, <- C2 in L. pose proof (two_pos z).
    cut (cond_Zopp s2 (Zpos (fst (shl_align m2 e2 z))) <= cond_Zopp s1 (Zpos (fst (shl_align m1 e1 z)))); [lia|]. rewrite Zle_Qle. apply Qmult_le_r in L; auto.
Qed.
(* 1 - f *)
Lemma rest_ok : forall f, number f -> (0 <= val f <= 1)%Q ->
  number (rsub rone f) /\ (0 <= val (rsub rone f) <= 1)%Q /\ (Qabs (val (rsub rone f) - (1 - val f)) <= two (-64))%Q.
Proof.
  intros f N H. destruct rone_val as (NO & VO). assert (P : (Qabs (val rone - val f) == 1 - val f)%Q) by (rewrite VO; apply Qabs_pos; lra).
  assert (IR := isRound_ext _ _ _ _ _ P (sub_isRound prec emax P64 E64 rone f (proj1 NO) (proj1 N) (proj2 NO) (proj2 N))). destruct IR as (V & _ & R). fold (rsub rone f) in V, R. set (p := (1 - val f)%Q) in *.
  set (j := Qfloor (p * inject_Z (2 ^ 64))). pose proof (Qfloor_le (p * inject_Z (2 ^ 64))) as J1. pose proof (Qlt_floor (p * inject_Z (2 ^ 64))) as J2. fold j in J1, J2. rewrite inject_Z_plus in J2.
  pose proof (two_pos (-64)) as T0. assert (T : (inject_Z (2 ^ 64) * two (-64) == 1)%Q) by reflexivity. set (t := two (-64)) in *. assert (K0 : (0 < inject_Z (2 ^ 64))%Q) by reflexivity. 
  assert (PB : (0 <= p <= 1)%Q) by (unfold p; lra).
  assert (EM : emin prec emax <= -64) by (vm_compute; discriminate).
  assert (BIG : (1 < two emax)%Q). { change 1%Q with (two 0). apply two_lt. unfold emax. lia. }
  destruct (R (2 ^ 64) (-64) ltac:(unfold prec; lia) EM) as (R0 & _). fold t in R0. rewrite T in R0. destruct R0 as (F & U); [lra|auto|].
  pose proof (rsub_sign rone f NO N F ltac:(rewrite VO; lra)) as S. rewrite Qabs_pos in U by auto. split; [split; auto|]. split; [lra|].
  assert (J3 : 0 <= j). { unfold j. change 0 with (Qfloor 0). apply Qfloor_resp_le. apply Qmult_le_0_compat; lra. }
  assert (J4 : j <= 2 ^ 64). { rewrite Zle_Qle. eapply Qle_trans; [exact J1|]. rewrite <- (Qmult_1_l (inject_Z (2 ^ 64))) at 2. apply Qmult_le_compat_r; lra. }
  assert (J5 : (inject_Z j * t <= p)%Q). { setoid_replace p with (p * inject_Z (2 ^ 64) * t)%Q by (rewrite <- Qmult_assoc, T; ring). apply Qmult_le_compat_r; lra. }
  assert (J6 : (p <= (inject_Z j + 1) * t)%Q). { setoid_replace p with (p * inject_Z (2 ^ 64) * t)%Q by (rewrite <- Qmult_assoc, T; ring). apply Qmult_le_compat_r; [|lra]. change (inject_Z 1) with 1%Q in J2. lra. }
  destruct (R j (-64) ltac:(unfold prec; lia) EM) as (_ & R1). fold t in R1. specialize (R1 J5 F). rewrite Qabs_pos in R1 by auto. apply Qabs_Qle_condition. split; [lra|].
  destruct (Z.eq_dec j (2 ^ 64)) as [E|NE].
  - rewrite E, T in J5. lra.
  - destruct (R (j + 1) (-64) ltac:(unfold prec; lia) EM) as (R2 & _). fold t in R2. rewrite inject_Z_plus in R2. change (inject_Z 1) with 1%Q in R2. destruct (R2 J6) as (_ & R3).
    + apply Qle_lt_trans with 1%Q; auto. apply Qle_trans with (inject_Z (2 ^ 64) * t)%Q; [|rewrite T; lra]. apply Qmult_le_compat_r; [|lra]. change 1%Q with (inject_Z 1). rewrite <- inject_Z_plus, <- Zle_Qle. lia.
    + rewrite Qabs_pos in R3 by auto. lra.
Qed.

Section Lerp.
  Variable unspecified : real -> Z.
  Notation scalePart := (scalePart unspecified).
  Notation scaleColor := (scaleColor unspecified).
  Notation scaleRgb := (scaleRgb unspecified).

  Lemma unit_small : forall f, (0 <= val f <= 1)%Q -> (Qabs (val f) <= two 55)%Q.
  Proof. intros f H. rewrite Qabs_pos by lra. apply Qle_trans with 1%Q; [lra|]. discriminate. Qed.
  (* 0 <= f <= 1 : no saturation *)
  Lemma scalePart_unit : forall c f, byte c -> number f -> (0 <= val f <= 1)%Q -> rounded (scalePart c f) (inject_Z c * val f) /\ 0 <= scalePart c f <= c.
  Proof.
    intros c f B F H. pose proof (scalePart_ok unspecified c f B F (unit_small f H)) as R. destruct (byte_val c B) as (_ & _ & C). unfold rounded in *. rewrite (sat_mid (inject_Z c * val f)) in R by (split; nra).
    split; auto. apply Qabs_Qle_condition in R. pose proof tiny as T. split; [apply (scalePart_byte unspecified c f)|].
    apply inject_ge. assert (inject_Z c * val f <= inject_Z c)%Q by nra. lra.
  Qed.
  Lemma scalePart_one : forall c f, byte c -> number f -> (val f == 1)%Q -> scalePart c f = c.
  Proof.
    intros c f B F H. destruct (scalePart_unit c f B F ltac:(rewrite H; lra)) as (R & R2). unfold rounded in R. rewrite H, Qmult_1_r in R. apply Qabs_Qle_condition in R. pose proof tiny. apply Z.le_antisymm; [lia|]. apply inject_ge. lra.
  Qed.
  Lemma scalePart_zero : forall c f, byte c -> number f -> (val f == 0)%Q -> scalePart c f = 0.
  Proof.
    intros c f B F H. destruct (scalePart_unit c f B F ltac:(rewrite H; lra)) as (R & R2). unfold rounded in R. rewrite H, Qmult_0_r in R. apply Qabs_Qle_condition in R. pose proof tiny. apply Z.le_antisymm; [|lia]. apply inject_ge. change (inject_Z 0) with 0%Q. lra.
  Qed.
  (* one part of the interpolation *)
  Definition lerpPart (a b : Z) (f : real) : Z := clampColor (scalePart a f + scalePart b (rsub rone f)).
  Lemma lerpPart_ok : forall a b f, byte a -> byte b -> number f -> (0 <= val f <= 1)%Q -> interpolated (lerpPart a b f) (mix a b (val f)).
  Proof.
    intros a b f A B F H. destruct (rest_ok f F H) as (NG & G & GE). destruct (scalePart_unit a f A F H) as (RA & SA). destruct (scalePart_unit b _ B NG G) as (RB & SB).
    destruct (byte_val a A) as (_ & _ & CA). destruct (byte_val b B) as (_ & _ & CB). unfold rounded, interpolated, mix, lerpPart in *. set (x := scalePart a f) in *. set (y := scalePart b (rsub rone f)) in *. set (g := val (rsub rone f)) in *. set (v := val f) in *. clearbody x y g v.
    apply Qabs_Qle_condition in RA. apply Qabs_Qle_condition in RB. apply Qabs_Qle_condition in GE.
    assert (T1 : (two (-54) == 4 * two (-56))%Q) by reflexivity. assert (T2 : (256 * two (-64) == two (-56))%Q) by reflexivity. pose proof tiny as T. set (t := two (-56)) in *. set (w := two (-64)) in *. clearbody t w.
    set (ia := inject_Z a) in *. set (ib := inject_Z b) in *. clearbody ia ib. set (u := (g - (1 - v))%Q) in *.
    assert (EB : (- t <= ib * u <= t)%Q) by (split; nra).
    assert (EG : (ib * g == ib * (1 - v) + ib * u)%Q) by (unfold u; ring). rewrite EG in RB.
    assert (MX : (0 <= ia * v + ib * (1 - v) <= 255)%Q) by (split; nra). set (m1 := (ia * v)%Q) in *. set (m2 := (ib * (1 - v))%Q) in *. clearbody m1 m2.
    rewrite T1. clear T1 T2. destruct (Z_le_gt_dec (x + y) 255) as [L|L].
    - rewrite clamp_id by lia. rewrite inject_Z_plus. apply Qabs_Qle_condition. split; lra.
    - rewrite clamp_high by lia. assert (L' : 256 <= x + y) by lia. rewrite Zle_Qle, inject_Z_plus in L'. change (inject_Z 256) with 256%Q in L'. change (inject_Z 255) with 255%Q. apply Qabs_Qle_condition. split; lra.
  Qed.
  Lemma lerpPart_one : forall a b f, byte a -> byte b -> number f -> (val f == 1)%Q -> lerpPart a b f = a.
  Proof.
    intros a b f A B F H. destruct (rest_ok f F ltac:(rewrite H; lra)) as (NG & G & GE). unfold lerpPart. rewrite scalePart_one by auto.
    assert (G0 : scalePart b (rsub rone f) = 0).
    { destruct (scalePart_unit b _ B NG G) as (R & R2). rewrite H in GE. apply Qabs_Qle_condition in GE. unfold rounded in R. apply Qabs_Qle_condition in R. pose proof tiny as T. destruct (byte_val b B) as (_ & _ & C).
      assert (T2 : (two (-64) < 1 # 1024)%Q) by reflexivity. apply Z.le_antisymm; [|lia]. apply inject_ge. change (inject_Z 0) with 0%Q. assert (inject_Z b * val (rsub rone f) <= 1 # 4)%Q by nra. lra. }
    rewrite G0, Z.add_0_r. unfold byte in A. apply clamp_id. lia.
  Qed.
  Lemma lerpPart_zero : forall a b f, byte a -> byte b -> number f -> (val f == 0)%Q -> lerpPart a b f = b.
  Proof.
    intros a b f A B F H. destruct (rest_ok f F ltac:(rewrite H; lra)) as (NG & G & GE). unfold lerpPart. rewrite (scalePart_zero a) by auto.
    assert (G0 : scalePart b (rsub rone f) = b).
    { destruct (scalePart_unit b _ B NG G) as (R & R2). rewrite H in GE. apply Qabs_Qle_condition in GE. unfold rounded in R. apply Qabs_Qle_condition in R. pose proof tiny as T. destruct (byte_val b B) as (_ & _ & C).
      assert (T2 : (two (-64) < 1 # 1024)%Q) by reflexivity. apply Z.le_antisymm; [lia|]. apply inject_ge. assert (inject_Z b - (1 # 4) <= inject_Z b * val (rsub rone f))%Q by nra. lra. }
    rewrite G0, Z.add_0_l. unfold byte in B. apply clamp_id. lia.
  Qed.

  (* the test of the factor *)
  Lemma unit_test : forall f, realOk f -> SFleb rzero f && SFleb f rone = true <-> number f /\ (0 <= val f <= 1)%Q.
  Proof.
    intros f V. destruct rone_val as (NO & VO). destruct (isfinite f) eqn:F.
    - rewrite Bool.andb_true_iff, (leb_val prec emax P64 E64 rzero f), (leb_val prec emax P64 E64 f rone) by (auto; try apply NO; reflexivity). rewrite VO. change (val rzero) with 0%Q. unfold number. tauto.
    - split; [|intros ((_ & A) & _); congruence]. destruct f as [s|[]| |s m e]; try discriminate.
  Qed.

  Lemma scaleColor_byte : forall f c, isColor (scaleColor f c).
  Proof. intros. repeat split; apply clamp_byte. Qed.
  Lemma scaleRgb_byte : forall f c, isRgb (scaleRgb f c).
  Proof. intros. repeat split; apply clamp_byte. Qed.
  Lemma scale_any : forall f c, isColor c -> number f -> (Qabs (val f) <= two 55)%Q -> parts (fun x z => rounded z (saturated (inject_Z x * val f))) c (scaleColor f c).
  Proof. intros f c (A & B & C & D) N L. repeat apply conj; apply scalePart_ok; auto. Qed.
  Lemma scale_unit : forall f c, isColor c -> number f -> (0 <= val f <= 1)%Q ->
    parts (fun x z => rounded z (inject_Z x * val f) /\ 0 <= z <= x) c (scaleColor f c) /\ ((val f == 1)%Q -> scaleColor f c = c) /\ ((val f == 0)%Q -> scaleColor f c = TRANSPARENT).
  Proof.
    intros f [r g b a] (A & B & C & D) N L. cbn [cr cg cb ca] in *. split; [repeat apply conj; apply scalePart_unit; auto|]. split; intro H; unfold ColorModel.scaleColor; cbn [cr cg cb ca].
    - rewrite !scalePart_one by auto. reflexivity.
    - rewrite !scalePart_zero by auto. reflexivity.
  Qed.
  Lemma lerp_ok : forall a b f, isColor a -> isColor b -> realOk f ->
    (lerp unspecified a b f <> Throw <-> number f /\ (0 <= val f <= 1)%Q) /\
    (number f -> (0 <= val f <= 1)%Q -> exists r, lerp unspecified a b f = Ok r /\ isColor r /\ parts3 (fun x y z => interpolated z (mix x y (val f))) a b r /\
       ((val f == 1)%Q -> r = a) /\ ((val f == 0)%Q -> r = b)).
  Proof.
    intros a b f (A1 & A2 & A3 & A4) (B1 & B2 & B3 & B4) V. unfold lerp. pose proof (unit_test f V) as U. split.
    - destruct (SFleb rzero f && SFleb f rone) eqn:T; split; intro H; try discriminate; try (apply U; reflexivity); try congruence. apply U in H. discriminate.
    - intros N L. rewrite (proj2 U (conj N L)). eexists. split; [reflexivity|]. split; [repeat apply conj; apply clamp_byte|]. split; [repeat apply conj; apply lerpPart_ok; auto|].
      unfold addColor, ColorModel.scaleColor. cbn [cr cg cb ca]. split; intro H.
      + change (Build_Color (lerpPart (cr a) (cr b) f) (lerpPart (cg a) (cg b) f) (lerpPart (cb a) (cb b) f) (lerpPart (ca a) (ca b) f) = a). rewrite !lerpPart_one by auto. destruct a; reflexivity.
      + change (Build_Color (lerpPart (cr a) (cr b) f) (lerpPart (cg a) (cg b) f) (lerpPart (cb a) (cb b) f) (lerpPart (ca a) (ca b) f) = b). rewrite !lerpPart_zero by auto. destruct b; reflexivity.
  Qed.
  Lemma svg_ok : forall a b f, isRgb a -> isRgb b -> realOk f ->
    isRgb (scaleRgb f a) /\
    (number f -> (Qabs (val f) <= two 55)%Q -> rparts (fun x z => rounded z (saturated (inject_Z x * val f))) a (scaleRgb f a)) /\
    (number f -> (val f == 1)%Q -> scaleRgb f a = a) /\
    (lerpRgb unspecified a b f <> Throw <-> number f /\ (0 <= val f <= 1)%Q) /\
    (number f -> (0 <= val f <= 1)%Q -> exists r, lerpRgb unspecified a b f = Ok r /\ isRgb r /\ rparts3 (fun x y z => interpolated z (mix x y (val f))) a b r /\
       ((val f == 1)%Q -> r = a) /\ ((val f == 0)%Q -> r = b)).
  Proof.
    intros a b f (A1 & A2 & A3) (B1 & B2 & B3) V. unfold lerpRgb. pose proof (unit_test f V) as U. split; [apply scaleRgb_byte|]. split; [intros; repeat apply conj; apply scalePart_ok; auto|].
    split; [intros N H; unfold ColorModel.scaleRgb; rewrite !scalePart_one by auto; destruct a; reflexivity|]. split.
    - destruct (SFleb rzero f && SFleb f rone) eqn:T; split; intro H; try discriminate; try (apply U; reflexivity); try congruence. apply U in H. discriminate.
    - intros N L. rewrite (proj2 U (conj N L)). eexists. split; [reflexivity|]. split; [repeat apply conj; apply clamp_byte|]. split; [repeat apply conj; apply lerpPart_ok; auto|].
      unfold addRgb, ColorModel.scaleRgb. cbn [sr sg sb]. split; intro H.
      + change (mkRgb (lerpPart (sr a) (sr b) f) (lerpPart (sg a) (sg b) f) (lerpPart (sb a) (sb b) f) = a). rewrite !lerpPart_one by auto. destruct a; reflexivity.
      + change (mkRgb (lerpPart (sr a) (sr b) f) (lerpPart (sg a) (sg b) f) (lerpPart (sb a) (sb b) f) = b). rewrite !lerpPart_zero by auto. destruct b; reflexivity.
  Qed.
End Lerp.

(* ---- text ---- *)
Lemma hexDigit_value : forall d, 0 <= d < 16 -> hexValue (hexDigit d) = Some d.
Proof.
  intros d H. unfold hexDigit, hexValue. destruct (Z.ltb_spec d 10).
  - destruct (Z.leb_spec 48 (48 + d)), (Z.leb_spec (48 + d) 57); try lia. cbn [andb]. replace (48 + d - 48) with d by lia. reflexivity.
  - destruct (Z.leb_spec (87 + d) 57); [lia|]. rewrite Bool.andb_false_r. destruct (Z.leb_spec 97 (87 + d)), (Z.leb_spec (87 + d) 102); try lia. cbn [andb]. replace (87 + d - 87) with d by lia. reflexivity.
Qed.
Lemma padded_pair : forall v, byte v -> exists x y, padded (hexText v) = [x; y] /\ hexPair x y = Some v.
Proof.
  intros v B. unfold byte in B. unfold hexText. destruct (Z.ltb_spec v 16).
  - exists 48, (hexDigit v). split; [reflexivity|]. unfold hexPair. rewrite hexDigit_value by lia. reflexivity.
  - exists (hexDigit (v / 16)), (hexDigit (v mod 16)). split; [reflexivity|]. unfold hexPair. pose proof (Z.mod_pos_bound v 16). assert (0 <= v / 16 < 16) by (split; [apply Z.div_pos; lia|apply Z.div_lt_upper_bound; lia]).
    rewrite !hexDigit_value by lia. f_equal. symmetry. apply Z.div_mod. lia.
Qed.
Lemma text_ok : forall c, isRgb c -> cssColor (rgbText c) = Some (sr c, sg c, sb c).
Proof.
  intros c (A & B & C). unfold rgbText. destruct (padded_pair _ A) as (a1 & a2 & -> & E1). destruct (padded_pair _ B) as (b1 & b2 & -> & E2). destruct (padded_pair _ C) as (c1 & c2 & -> & E3).
  cbn [app cssColor]. rewrite E1, E2, E3. reflexivity.
Qed.
Lemma text_injective : forall c d, isRgb c -> isRgb d -> rgbText c = rgbText d -> c = d.
Proof. intros [r g b] [r' g' b'] C D H. apply text_ok in C. apply text_ok in D. rewrite H, D in C. cbn in C. inversion C. subst. reflexivity. Qed.
Lemma rgb_parts : forall r g b, byte r -> byte g -> byte b -> ofRgb (r * 65536 + g * 256 + b) = mkRgb r g b.
Proof.
  intros r g b R G B. unfold byte in *. unfold ofRgb. change 255 with (Z.ones 8). rewrite !Z.land_ones, !Z.shiftr_div_pow2 by lia. f_equal; dlia.
Qed.
Lemma rgb_equal : forall a b, rgbEq a b = true <-> a = b.
Proof.
  intros [r g b] [r' g' b']. unfold rgbEq. cbn [sr sg sb]. rewrite !Bool.andb_true_iff, !Z.eqb_eq. split; [intros ((-> & ->) & ->); reflexivity|intro E; inversion E; auto].
Qed.
Lemma rgb_notEqual : forall a b, rgbNe a b = negb (rgbEq a b).
Proof. intros. unfold rgbNe, rgbEq. rewrite !Bool.negb_andb. reflexivity. Qed.
Lemma rgb_index : forall c i, (rgbGet c i = Throw <-> ~ 0 <= i <= 2) /\
  (forall v j, 0 <= i <= 2 -> exists d, rgbSet c i v = Ok d /\ rgbGet d j = if j =? i then Ok v else rgbGet c j).
Proof.
  intros c i. split.
  - unfold rgbGet. destruct (Z.eqb_spec i 0), (Z.eqb_spec i 1), (Z.eqb_spec i 2); split; intro; try lia; try discriminate; reflexivity.
  - intros v j H. unfold rgbGet, rgbSet. destruct (Z.eqb_spec i 0) as [->|N0]; [|destruct (Z.eqb_spec i 1) as [->|N1]; [|destruct (Z.eqb_spec i 2) as [->|N2]; [|lia]]]; (eexists; split; [reflexivity|]); cbn [sr sg sb]; 
      destruct (Z.eqb_spec j 0), (Z.eqb_spec j 1), (Z.eqb_spec j 2); subst; try lia; reflexivity.
Qed.
Lemma rgb_saturating : forall a b, isRgb a -> isRgb b ->
  addRgb a b = mkRgb (Z.min 255 (sr a + sr b)) (Z.min 255 (sg a + sg b)) (Z.min 255 (sb a + sb b)) /\
  subRgb a b = mkRgb (Z.max 0 (sr a - sr b)) (Z.max 0 (sg a - sg b)) (Z.max 0 (sb a - sb b)).
Proof.
  intros a b (A1 & A2 & A3) (B1 & B2 & B3). unfold byte in *. unfold addRgb, subRgb, clampColor. split; f_equal; repeat case Z.ltb_spec; lia.
Qed.
