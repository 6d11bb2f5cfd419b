(* normal, exponential. *)
From Verif Require Import Tac RndModel RndLemmas FloatModel FloatSpec FloatProofs FloatProofs2 RandIntModel RandIntProofs RealModel RealSpec RealProofs RealProofs2 RealProofs3 RealProofs4 RealProofs5.
From Coq Require Import QArith Qpower Qfield Lqa Lia ZArith SpecFloat.
Open Scope Z_scope.

(* ---- rounding keeps lower bounds of the format ---- *)
Lemma normalize_ge : forall x m e, number x -> (val x <= inject_Z m * two e)%Q -> isfinite (binary_normalize prec emax m e false) = true ->
  (val x <= val (binary_normalize prec emax m e false))%Q.
Proof.
  intros x m e (VX & FX) H F. destruct m as [|p|p]; cbn [binary_normalize] in *.
  - change (inject_Z 0) with 0%Q in H. cbn [val]. lra.
  - rewrite round_norm in * by apply P64. destruct (rne_pow prec emax P64 (Zpos p) e ltac:(lia)) as (R1 & _).
    destruct (norm_val prec emax P64 false _ (target prec emax (Zpos p) e) R1) as [(i & I)|(_ & ->)]; [rewrite I in F; discriminate|]. rewrite Qmult_1_l.
    destruct x as [s|s| |[] mx ex]; try discriminate; cbn [val] in *.
    + apply Qmult_le_0_compat; [apply inject_pos; lia|]. pose proof (two_pos (target prec emax (Zpos p) e)). lra.
    + pose proof (val_pos mx ex). assert (0 <= inject_Z (rne (Zpos p) (target prec emax (Zpos p) e - e)) * two (target prec emax (Zpos p) e))%Q; [|lra].
      apply Qmult_le_0_compat; [apply inject_pos; lia|]. pose proof (two_pos (target prec emax (Zpos p) e)). lra.
    + rewrite Qmult_1_l in *. destruct (valid_mantissa prec emax P64 _ _ _ VX) as (V1 & V2 & _). apply rounded_ge; auto; try apply P64; lia.
  - rewrite round_norm in * by apply P64. destruct (rne_pow prec emax P64 (Zpos p) e ltac:(lia)) as (R1 & _).
    destruct (norm_val prec emax P64 true _ (target prec emax (Zpos p) e) R1) as [(i & I)|(_ & ->)]; [rewrite I in F; discriminate|].
    pose proof (val_pos p e) as PP. assert (NP : (inject_Z (Zneg p) == - inject_Z (Zpos p))%Q) by reflexivity. rewrite NP in H.
    destruct x as [s|s| |[] mx ex]; try discriminate; cbn [val] in *.
    + lra.
    + destruct (valid_mantissa prec emax P64 _ _ _ VX) as (V1 & V2 & _).
      assert (K : (inject_Z (rne (Zpos p) (target prec emax (Zpos p) e - e)) * two (target prec emax (Zpos p) e) <= inject_Z (Zpos mx) * two ex)%Q) by (apply rounded_le; auto; try apply P64; try lia; lra). lra.
    + pose proof (val_pos mx ex). lra.
Qed.
Lemma shl_align_val : forall m e f, f <= e -> (inject_Z (Zpos (fst (shl_align m e f))) * two f == inject_Z (Zpos m) * two e)%Q.
Proof.
  intros m e f H. unfold shl_align. destruct (f - e) as [|d|d] eqn:D; cbn [fst].
  - replace f with e by lia. reflexivity.
  - lia.
  - rewrite shift_pos_pow, inject_Z_mult, <- two_Z by lia. rewrite <- Qmult_assoc, <- two_plus. replace (Zpos d + f) with e by lia. reflexivity.
Qed.
Lemma rsub_ge : forall x y, number x -> notPositive y -> isfinite (rsub x y) = true -> (val x <= val (rsub x y))%Q.
Proof.
  intros x y NX NY F. destruct y as [s|[]| |[] m e]; cbn in NY; try contradiction.
  - assert (E : rsub x (S754_zero s) = x \/ exists s', rsub x (S754_zero s) = S754_zero s' /\ val x = 0%Q).
    { destruct NX as (_ & FX). destruct x as [s1|s1| |s1 m e]; try discriminate; unfold rsub, SFsub; auto. right. destruct (Bool.eqb s1 (negb s)); eexists; split; reflexivity. }
    destruct E as [->|(s' & -> & ->)]; cbn [val]; lra.
  - destruct NX as (_ & FX). destruct x; discriminate.
  - destruct NX as (VX & FX). pose proof (val_pos m e) as PM. destruct x as [s1|s1| |s1 m1 e1] eqn:EX; try discriminate.
    + cbn [rsub SFsub SFopp negb val] in *. cbn [val]. lra.
    + unfold rsub, SFsub in *. apply normalize_ge; [split; auto| |exact F]. set (z := Z.min e1 e) in *. unfold Zminus. rewrite inject_Z_plus, inject_Z_opp. cbn [cond_Zopp].
      rewrite (inject_Z_opp (Zpos _)). assert (A1 := shl_align_val m1 e1 z ltac:(lia)). assert (A2 := shl_align_val m e z ltac:(lia)).
      assert (A3 : (inject_Z (cond_Zopp s1 (Zpos (fst (shl_align m1 e1 z)))) * two z == val (S754_finite s1 m1 e1))%Q).
      { cbn [val]. destruct s1; cbn [cond_Zopp]; [rewrite inject_Z_opp|]; setoid_rewrite <- A1; ring. }
      setoid_rewrite <- A3. setoid_rewrite <- A2 in PM. lra.
Qed.
(* x - y for y that is not positive does not fall below x, and is -infinity for no x *)
Lemma normalize_not_low : forall x m e, number x -> (val x <= inject_Z m * two e)%Q -> binary_normalize prec emax m e false <> S754_infinity true.
Proof.
  intros x m e (VX & FX) H. destruct m as [|p|p]; cbn [binary_normalize]; try discriminate.
  - pose proof (round_norm prec emax P64 false p e) as R. rewrite R. unfold norm. repeat match goal with |- context [if ?c then _ else _] => destruct c end; discriminate.
  - assert (NP : (inject_Z (Zneg p) == - inject_Z (Zpos p))%Q) by reflexivity. rewrite NP in H. pose proof (val_pos p e) as PP.
    destruct x as [s|s| |[] mx ex]; try discriminate; cbn [val] in H; [lra| |pose proof (val_pos mx ex); lra].
    destruct (valid_mantissa prec emax P64 _ _ _ VX) as (V1 & V2 & _).
    destruct (round_sandwich prec emax P64 E64 true p e (Zpos mx) ex) as (F & _); auto; try lia; try lra.
    + assert (X : (inject_Z (Zpos mx) * two ex < inject_Z 1 * two emax)%Q).
      { apply (scale_lt _ _ _ _ ex); try lia. { unfold prec, emax in *. lia. } rewrite Z.sub_diag. change (2 ^ 0) with 1. pose proof (Z.pow_le_mono_r 2 prec (emax - ex) ltac:(lia)). unfold prec in *. lia. }
      change (inject_Z 1) with 1%Q in X. lra.
    + intro K. rewrite K in F. discriminate.
Qed.
Lemma rsub_finite : forall x y z, number x -> notPositive y -> SFltb (rsub x y) z = true -> isfinite (rsub x y) = true.
Proof.
  intros x y z NX NY B. assert (N1 : rsub x y <> S754_infinity false) by (intro K; rewrite K in B; destruct z as [|[]| |[]]; discriminate).
  assert (N2 : rsub x y <> S754_nan) by (intro K; rewrite K in B; destruct z as [|[]| |[]]; discriminate).
  assert (N3 : rsub x y <> S754_infinity true); [|destruct (rsub x y) as [|[]| |]; auto; congruence].
  clear N1 N2 B. destruct NX as (VX & FX). destruct y as [s|[]| |[] m e]; cbn in NY; try contradiction; destruct x as [s1|s1| |s1 m1 e1] eqn:EX; try discriminate; unfold rsub, SFsub.
  - destruct (Bool.eqb s1 (negb s)); discriminate.
  - apply (normalize_not_low x); [subst; split; auto|]. subst x. set (z' := Z.min e1 e) in *. unfold Zminus. rewrite inject_Z_plus, inject_Z_opp. cbn [cond_Zopp].
    rewrite (inject_Z_opp (Zpos _)). assert (A1 := shl_align_val m1 e1 z' ltac:(lia)). assert (A2 := shl_align_val m e z' ltac:(lia)).
    assert (A3 : (inject_Z (cond_Zopp s1 (Zpos (fst (shl_align m1 e1 z')))) * two z' == val (S754_finite s1 m1 e1))%Q).
    { cbn [val]. destruct s1; cbn [cond_Zopp]; [rewrite inject_Z_opp|]; setoid_rewrite <- A1; ring. }
    setoid_rewrite <- A3. pose proof (val_pos m e) as PM. setoid_rewrite <- A2 in PM. lra.
Qed.

Section Real.
  Variable sqrt sin cos log : real -> real.

  Lemma exponential_range : forall fuel lambda, logLike log -> number lambda -> (0 < val lambda)%Q ->
    always (exponential log fuel lambda) (orFuel (fun r => notPositive (ropp r))).
  Proof.
    intros fuel lambda LG (VL & FL) L. unfold exponential. assert (C : SFltb rzero lambda = true) by (apply rlt; auto; reflexivity). rewrite C. cbn [judgeAssert lift rbind].
    eapply orFuel_bind; [apply real_range|]. intros u (NU & U). cbn [always ret orFuel]. pose proof (proj2 (LG u NU U)) as N.
    destruct lambda as [s|s| |s m e]; try discriminate; cbn [val] in L. pose proof (val_pos m e). destruct s; [lra|].
    destruct (log u) as [s1|[]| |[] m1 e1]; cbn in N; try contradiction; try exact I. cbn [ropp SFopp negb]. pose proof (rdiv_sign false m1 e1 false m e) as S1. cbn [xorb] in S1.
    unfold ropp in *. destruct (rdiv _ _) as [s|s| |s m2 e2]; cbn in *; subst; auto.
  Qed.
  Lemma exponential_throws : forall fuel lambda, realOk lambda -> isnan lambda = true \/ notPositive lambda -> exponential log fuel lambda = RRet Throw.
  Proof. intros fuel lambda V H. unfold exponential. replace (SFltb rzero lambda) with false; [reflexivity|]. destruct lambda as [s|[]| |[] m e]; cbn in H; destruct H as [H|H]; try discriminate; try contradiction; reflexivity. Qed.

  Lemma exponentialIn_range : forall fuel fuel' lower upper lambda, logLike log -> number lower -> realOk upper -> number lambda -> (0 < val lambda)%Q ->
    upper = S754_infinity false \/ isfinite upper = true /\ (val lower < val upper)%Q ->
    always (exponentialIn log fuel fuel' lower upper lambda) (orFuel (fun r => number r /\ (val lower <= val r)%Q /\ (isfinite upper = true -> (val r < val upper)%Q))).
  Proof.
    intros fuel fuel' lower upper lambda LG NL VU (VL & FL) L HU. destruct NL as (VLo & FLo). unfold exponentialIn. rewrite FLo. cbn [judgeAssert lift rbind].
    assert (C : SFltb rzero lambda = true) by (apply rlt; auto; reflexivity).
    assert (C1 : SFltb lower upper = true). { destruct HU as [->|(FU & H)]; [destruct lower as [|[]| |[]]; try discriminate; reflexivity|]. apply rlt; auto. }
    destruct (ltb_nan _ _ C1) as (_ & ->). rewrite C1, C. cbn [negb judgeAssert lift rbind]. induction fuel as [|fuel IH]; cbn [exponentialLoop]; [exact I|].
    eapply orFuel_bind; [apply real_range|]. intros u (NU & U). cbv beta in *.
    assert (NP : notPositive (rdiv (log u) lambda)) by (apply rdiv_notPositive; auto; [apply LG; auto|split; auto]). set (res := rsub lower _).
    destruct (SFltb res upper) eqn:B; [|exact IH]. cbn [always ret orFuel].
    assert (VR : realOk res) by (apply rsub_valid; auto; apply div_valid; auto; apply LG; auto).
    assert (FR : isfinite res = true) by (eapply rsub_finite; [split; auto|auto|exact B]).
    split; [split; auto|]. split; [apply rsub_ge; auto; split; auto|]. intro FU. apply rlt in B; auto.
  Qed.

  Lemma normalIn_range : forall fuel fuel' lower upper mean stddev, (forall x, realOk (sqrt x)) -> (forall x, realOk (sin x)) -> (forall x, realOk (cos x)) ->
    number lower -> number upper -> (val lower < val upper)%Q -> realOk mean -> SFleb rzero stddev = true ->
    always (normalIn sqrt sin cos log fuel fuel' lower upper mean stddev) (orFuel (fun r => number r /\ (val lower <= val r < val upper)%Q)).
  Proof.
    intros fuel fuel' lower upper mean stddev Q1 Q2 Q3 (VL & FL) (VU & FU) H VM SD. unfold normalIn. assert (C : SFltb lower upper = true) by (apply rlt; auto).
    destruct (ltb_nan _ _ C) as (-> & ->). rewrite C, SD. cbn [negb judgeAssert lift rbind]. induction fuel as [|fuel IH]; cbn [normalLoop]; [exact I|].
    eapply orFuel_bind; [apply real_range|]. intros u _. eapply orFuel_bind; [apply real_range|]. intros v _. cbv beta zeta.
    assert (K : forall res, realOk res -> SFleb lower res && SFltb res upper = true -> number res /\ (val lower <= val res < val upper)%Q).
    { intros res VR B. apply andb_true_iff in B as (B1 & B2). assert (FR : isfinite res = true) by (eapply between_finite; [| |exact B1|exact B2]; auto). split; [split; auto|]. apply rle in B1; auto. apply rlt in B2; auto. }
    match goal with |- context [if ?c then _ else _] => destruct c eqn:B1 end; [cbn [always ret orFuel]; apply K; auto; apply radd_valid; auto; repeat (apply rmul_valid; auto)|].
    match goal with |- context [if ?c then _ else _] => destruct c eqn:B2 end; [cbn [always ret orFuel]; apply K; auto; apply radd_valid; auto; repeat (apply rmul_valid; auto)|].
    exact IH.
  Qed.
End Real.
