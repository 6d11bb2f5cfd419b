From Verif Require Import Tac RndModel RndLemmas FloatModel FloatSpec FloatProofs RandIntModel RealModel RealProofs RealProofs2.
From Coq Require Import QArith Qfield Lqa Lia SpecFloat ZArith.
Open Scope Z_scope.

(* ---- validity of the operations ---- *)
Lemma normalize_valid : forall z e s, realOk (binary_normalize prec emax z e s).
Proof. intros [|p|p] e s; cbn [binary_normalize]; [reflexivity| |]; apply (round_valid prec emax P64). Qed.
Lemma ofZ_valid : forall z, realOk (ofZ z).
Proof. intro z. apply normalize_valid. Qed.
Lemma radd_valid : forall x y, realOk x -> realOk y -> realOk (radd x y).
Proof.
  intros x y X Y. destruct x as [[]|[]| |s1 m1 e1], y as [[]|[]| |s2 m2 e2]; unfold radd, SFadd; auto; try reflexivity. apply normalize_valid.
Qed.
Lemma rsub_valid : forall x y, realOk x -> realOk y -> realOk (rsub x y).
Proof.
  intros x y X Y. destruct x as [[]|[]| |s1 m1 e1], y as [[]|[]| |s2 m2 e2]; unfold rsub, SFsub; auto; try reflexivity. apply normalize_valid.
Qed.
Lemma mul_target : forall s1 m1 e1 s2 m2 e2, realOk (S754_finite s1 m1 e1) -> realOk (S754_finite s2 m2 e2) -> 0 <= target prec emax (Zpos (m1 * m2)) (e1 + e2) - (e1 + e2).
Proof.
  intros s1 m1 e1 s2 m2 e2 V1 V2. apply (valid_mantissa prec emax P64) in V1 as (A1 & A2 & A3). apply (valid_mantissa prec emax P64) in V2 as (B1 & B2 & B3).
  unfold target, fexp. destruct (Z_lt_le_dec (emin prec emax) e1) as [L|L].
  - specialize (A3 L). assert (prec - 1 <= Z.log2 (Zpos (m1 * m2))) by (apply Z.log2_le_pow2; [lia|]; rewrite Pos2Z.inj_mul; clear - A3; nia). lia.
  - destruct (Z_lt_le_dec (emin prec emax) e2) as [L'|L'].
    + specialize (B3 L'). assert (prec - 1 <= Z.log2 (Zpos (m1 * m2))) by (apply Z.log2_le_pow2; [lia|]; rewrite Pos2Z.inj_mul; clear - B3; nia). lia.
    + assert (emin prec emax < 0) by (unfold emin, prec, emax; lia). lia.
Qed.
Lemma rmul_norm : forall s1 m1 e1 s2 m2 e2, realOk (S754_finite s1 m1 e1) -> realOk (S754_finite s2 m2 e2) ->
  rmul (S754_finite s1 m1 e1) (S754_finite s2 m2 e2) = norm prec emax (xorb s1 s2) (rne (Zpos (m1 * m2)) (target prec emax (Zpos (m1 * m2)) (e1 + e2) - (e1 + e2))) (target prec emax (Zpos (m1 * m2)) (e1 + e2)).
Proof. intros s1 m1 e1 s2 m2 e2 V1 V2. unfold rmul, SFmul. apply (round_aux_norm prec emax P64); [lia|]. eapply mul_target; eauto. Qed.
Lemma rmul_valid : forall x y, realOk x -> realOk y -> realOk (rmul x y).
Proof.
  intros x y X Y. destruct x as [s1|s1| |s1 m1 e1], y as [s2|s2| |s2 m2 e2]; try reflexivity. rewrite rmul_norm by auto.
  destruct (rne_pow prec emax P64 (Zpos (m1 * m2)) (e1 + e2) ltac:(lia)). apply (norm_valid prec emax P64); auto. apply target_min.
Qed.

(* ---- multiplication with a number of [0, 1] ---- *)
Lemma rmul_shrinks : forall x y, number x -> number y -> (0 <= val y)%Q -> (0 <= val x <= 1)%Q -> number (rmul x y) /\ (0 <= val (rmul x y) <= val y)%Q.
Proof.
  intros x y (VX & FX) (VY & FY) Y X. assert (V := rmul_valid _ _ VX VY). destruct x as [s1|s1| |s1 m1 e1], y as [s2|s2| |s2 m2 e2]; try discriminate; cbn [val] in *;
    try (split; [split; auto|cbn [val rmul SFmul]; lra]; fail).
  pose proof (val_pos m1 e1) as P1. pose proof (val_pos m2 e2) as P2. destruct s1; [lra|]. destruct s2; [lra|].
  unfold number. rewrite rmul_norm in * by auto. cbn [xorb] in *. set (t := target prec emax (Zpos (m1 * m2)) (e1 + e2)) in *. set (q := rne (Zpos (m1 * m2)) (t - (e1 + e2))) in *.
  destruct (rne_pow prec emax P64 (Zpos (m1 * m2)) (e1 + e2) ltac:(lia)) as (R1 & R2). fold t in R1, R2. fold q in R1, R2.
  destruct (valid_mantissa prec emax P64 _ _ _ VY) as (B1 & B2 & B3).
  assert (L : (inject_Z q * two t <= inject_Z (Zpos m2) * two e2)%Q).
  { apply (rounded_le prec emax P64); try lia. rewrite two_plus. rewrite Pos2Z.inj_mul, inject_Z_mult. nra. }
  assert (U : (inject_Z (Zpos m2) * two e2 < two emax)%Q).
  { apply Qlt_le_trans with (inject_Z (2 ^ prec) * two e2)%Q; [apply Qmult_lt_r; [apply two_pos|]; rewrite <- Zlt_Qlt; auto|]. rewrite pow_two by (unfold prec; lia). apply two_le. lia. }
  assert (F : isfinite (norm prec emax false q t) = true) by (apply norm_finite; auto; [apply target_min|lra]).
  destruct (norm_val prec emax P64 false q t R1) as [(i & W)|(_ & W)]; [rewrite W in F; discriminate|]. split; [split; auto|]. rewrite W.
  pose proof (two_pos t). pose proof (inject_pos q ltac:(lia)). nra.
Qed.

(* ---- integers ---- *)
Lemma ofZ_val : forall z, 0 <= z <= 2 ^ 64 -> number (ofZ z) /\ (val (ofZ z) == inject_Z z)%Q.
Proof.
  intros z H. unfold number. split; [split; [apply ofZ_valid|]|]; unfold ofZ, binary_normalize; destruct z as [|p|p]; try lia; try reflexivity;
  destruct (round_exact prec emax P64 E64 false p 0 (Zpos p) 0) as (V & p' & e' & -> & Y); unfold prec, emax, emin in *; try lia; try reflexivity;
    try (rewrite Qmult_1_r; rewrite two_Z by lia; rewrite <- Zlt_Qlt; apply Z.le_lt_trans with (2 ^ 64); [lia|]; apply Z.pow_lt_mono_r; lia).
  - cbn [val]. rewrite Y. change (two 0) with 1%Q. ring.
Qed.
Lemma ltb_nan : forall x y, SFltb x y = true -> isnan x = false /\ isnan y = false.
Proof. intros x y H. destruct x, y; try discriminate; auto. Qed.
Lemma between_finite : forall a x b, isfinite a = true -> isfinite b = true -> SFleb a x = true -> SFltb x b = true -> isfinite x = true.
Proof. intros a x b A B H1 H2. destruct x as [s|[]| |s m e]; auto; destruct a as [s1|s1| |s1 m1 e1], b as [s2|s2| |s2 m2 e2]; try discriminate; auto. Qed.
Notation rlt := (ltb_val prec emax P64 E64).
Notation rle := (leb_val prec emax P64 E64).

(* truncation of a number that is not negative is its integer part *)
Lemma truncZ_floor : forall x, isfinite x = true -> (0 <= val x)%Q -> exists z, truncZ x = Some z /\ 0 <= z /\ (inject_Z z <= val x < inject_Z (z + 1))%Q.
Proof.
  intros x F H. destruct x as [s|s| |s m e]; try discriminate; cbn [truncZ val] in *.
  - exists 0. repeat split; try lia; unfold Qle, Qlt; cbn; lia.
  - pose proof (val_pos m e). destruct s; [lra|]. unfold signed. destruct (Z.leb_spec 0 e).
    + eexists. split; [reflexivity|]. split; [pose proof (Z.pow_nonneg 2 e); lia|]. rewrite two_Z by lia. rewrite Qmult_1_l, <- inject_Z_mult. rewrite <- Zle_Qle, <- Zlt_Qlt. lia.
    + eexists. split; [reflexivity|]. pose proof (Z.pow_pos_nonneg 2 (- e) ltac:(lia) ltac:(lia)) as P. rewrite Z.quot_div_nonneg by lia.
      pose proof (Z.div_mod (Zpos m) (2 ^ (- e)) ltac:(lia)) as D. pose proof (Z.mod_pos_bound (Zpos m) (2 ^ (- e)) ltac:(lia)) as B. split; [apply Z.div_pos; lia|].
      set (q := Zpos m / 2 ^ (- e)) in *. assert (TE : (two e * inject_Z (2 ^ (- e)) == 1)%Q) by (rewrite <- two_Z by lia; rewrite <- two_plus; replace (e + - e) with 0 by lia; reflexivity).
      assert (MQ : (inject_Z (2 ^ (- e)) * inject_Z q <= inject_Z (Zpos m) < inject_Z (2 ^ (- e)) * inject_Z (q + 1))%Q) by (rewrite <- !inject_Z_mult, <- Zle_Qle, <- Zlt_Qlt; lia).
      rewrite Qmult_1_l. pose proof (two_pos e) as TP. set (T := two e) in *. set (N := inject_Z (2 ^ (- e))) in *. set (mm := inject_Z (Zpos m)) in *. set (q0 := inject_Z q) in *. set (q1 := inject_Z (q + 1)) in *.
      split.
      * setoid_replace q0 with (T * N * q0)%Q by (rewrite TE; ring). nra.
      * setoid_replace q1 with (T * N * q1)%Q by (rewrite TE; ring). nra.
Qed.

(* ---- real(upper), real(lower, upper) ---- *)
Lemma realBelow_range : forall fuel upper, number upper -> (0 < val upper)%Q -> always (realBelow fuel upper) (orFuel (fun r => number r /\ (0 <= val r < val upper)%Q)).
Proof.
  intros fuel upper (VU & FU) U. unfold realBelow. rewrite FU. cbn [judgeAssert lift rbind].
  assert (Z0 : realOk rzero) by reflexivity. assert (C : SFltb rzero upper = true) by (apply rlt; auto). rewrite C. cbn [judgeAssert lift rbind].
  generalize fuel at 2. induction fuel as [|fuel IH]; intro fuel'; cbn [realBelowLoop]; [exact I|].
  eapply orFuel_bind; [apply real_range|]. intros x ((VX & FX) & X). cbv beta in *. assert (V := rmul_valid _ _ VX VU).
  destruct (SFleb rzero (rmul x upper)) eqn:L1; cbn [andb]; [|apply IH]. destruct (SFltb (rmul x upper) upper) eqn:L2; [|apply IH].
  cbn [always ret orFuel]. assert (F : isfinite (rmul x upper) = true) by (eapply between_finite; [| |exact L1|exact L2]; auto). split; [split; auto|].
  apply rle in L1; auto. apply rlt in L2; auto.
Qed.
Lemma realIn_range : forall fuel lower upper, number lower -> number upper -> (val lower < val upper)%Q ->
  always (realIn fuel lower upper) (orFuel (fun r => number r /\ (val lower <= val r < val upper)%Q)).
Proof.
  intros fuel lower upper (VL & FL) (VU & FU) U. unfold realIn. rewrite FL, FU. cbn [judgeAssert lift rbind].
  assert (C : SFltb lower upper = true) by (apply rlt; auto). rewrite C. cbn [judgeAssert lift rbind].
  generalize fuel at 2. induction fuel as [|fuel IH]; intro fuel'; cbn [realInLoop]; [exact I|].
  eapply orFuel_bind; [apply real_range|]. intros x ((VX & FX) & X). cbv beta in *. set (res := radd _ _).
  assert (V : realOk res) by (apply radd_valid; apply rmul_valid; auto; apply rsub_valid; auto; apply ofZ_valid).
  destruct (SFleb lower res) eqn:L1; cbn [andb]; [|apply IH]. destruct (SFltb res upper) eqn:L2; [|apply IH].
  cbn [always ret orFuel]. assert (F : isfinite res = true) by (eapply between_finite; [| |exact L1|exact L2]; auto). split; [split; auto|].
  apply rle in L1; auto. apply rlt in L2; auto.
Qed.
Lemma realIn_throws : forall fuel lower upper, realOk lower -> realOk upper -> isfinite lower = false \/ isfinite upper = false \/ (val upper <= val lower)%Q -> realIn fuel lower upper = RRet Throw.
Proof.
  intros fuel lower upper VL VU H. unfold realIn. destruct (isfinite lower) eqn:FL; [|reflexivity]. destruct (isfinite upper) eqn:FU; [|reflexivity]. cbn [judgeAssert lift rbind].
  destruct (SFltb lower upper) eqn:C; [|reflexivity]. apply rlt in C; auto. exfalso. destruct H as [H|[H|H]]; try discriminate. lra.
Qed.
Lemma realBelow_throws : forall fuel upper, realOk upper -> isfinite upper = false \/ (val upper <= 0)%Q -> realBelow fuel upper = RRet Throw.
Proof.
  intros fuel upper VU H. unfold realBelow. destruct (isfinite upper) eqn:FU; [|reflexivity]. cbn [judgeAssert lift rbind].
  destruct (SFltb rzero upper) eqn:C; [|reflexivity]. apply rlt in C; auto; [|reflexivity]. exfalso. cbn [val rzero] in C. destruct H as [H|H]; try discriminate. lra.
Qed.
