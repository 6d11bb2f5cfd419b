(* floatLess and floatGreater on numbers. *)
From Verif Require Import Base Tac FloatModel FloatSpec FloatProofs InputModel InputProofs3 RealSpec RealProofs2 FloatProofs3 FloatEqProofs InitModel.
From Coq Require Import QArith Qabs Lqa ZArith SpecFloat.

Lemma leb_numbers : forall x y, number x -> number y -> SFleb x y = true <-> (val x <= val y)%Q.
Proof. intros x y (VX & FX) (VY & FY). apply (leb_val 64 16384); auto; lia. Qed.
Lemma floatEqual_bool : forall g e a r, goodTol a -> goodTol r -> {b | floatEqual g e a r = Ok b}.
Proof. intros g e a r A R. destruct (floatEqual g e a r) as [b| | |] eqn:E; [eauto|exfalso..]; destruct (floatEqual_total g e a r A R); congruence. Qed.

Lemma floatLess_iff : forall g e a r, number g -> number e -> goodTol a -> goodTol r ->
  exists b, floatLess g e a r = Ok b /\ (b = true <-> (val g <= val e)%Q \/ floatEqual g e a r = Ok true).
Proof.
  intros g e a r G E A R. unfold floatLess. pose proof (leb_numbers g e G E) as L. destruct (SFleb g e).
  - exists true. tauto.
  - destruct (floatEqual_bool g e a r A R) as (b & ->). exists b. split; auto. split; [intros ->; auto|]. intros [H|H]; [apply L in H; discriminate|congruence].
Qed.
Lemma floatGreater_iff : forall g e a r, number g -> number e -> goodTol a -> goodTol r ->
  exists b, floatGreater g e a r = Ok b /\ (b = true <-> (val e <= val g)%Q \/ floatEqual g e a r = Ok true).
Proof.
  intros g e a r G E A R. unfold floatGreater. pose proof (leb_numbers e g E G) as L. destruct (SFleb e g).
  - exists true. tauto.
  - destruct (floatEqual_bool g e a r A R) as (b & ->). exists b. split; auto. split; [intros ->; auto|]. intros [H|H]; [apply L in H; discriminate|congruence].
Qed.
Lemma less_greater : forall g e a r, number g -> number e -> goodTol a -> goodTol r ->
  (floatLess g e a r = Ok true \/ floatGreater g e a r = Ok true) /\
  (floatLess g e a r = Ok true /\ floatGreater g e a r = Ok true <-> floatEqual g e a r = Ok true).
Proof.
  intros g e a r G E A R. destruct (floatLess_iff g e a r G E A R) as (b & -> & B). destruct (floatGreater_iff g e a r G E A R) as (c & -> & C). split.
  - destruct (Qlt_le_dec (val e) (val g)) as [H|H]; [right|left]; f_equal; [apply C|apply B]; left; auto. apply Qlt_le_weak. auto.
  - split.
    + intros (H & K). injection H as ->. injection K as ->. destruct (proj1 B eq_refl) as [L|]; auto. destruct (proj1 C eq_refl) as [M|]; auto. apply floatEqual_same; auto. apply Qle_antisym; auto.
    + intro H. split; f_equal; [apply B|apply C]; auto.
Qed.
(* infinities and NaN *)
Lemma floatLess_other : forall g e a r, goodTol a -> goodTol r -> isfinite g && isfinite e = false ->
  (floatLess g e a r = Ok true <-> g = S754_infinity true /\ isnan e = false \/ e = S754_infinity false /\ isnan g = false \/ g = S754_nan /\ e = S754_nan).
Proof.
  intros g e a r A R F. unfold floatLess. destruct (SFleb g e) eqn:L.
  - split; auto. intros _. destruct g as [|[]| |], e as [|[]| |]; cbn in *; try discriminate; auto.
  - rewrite floatEqual_classes by auto. destruct g as [|[]| |[] m x], e as [|[]| |[] m' x']; cbn in *; try discriminate; (split; [intros [(X & Y)|(? & X & Y)]; try discriminate; auto; congruence|intros [(X & Y)|[(X & Y)|(X & Y)]]; try discriminate; auto]).
Qed.
