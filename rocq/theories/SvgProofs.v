From Verif Require Import Tac FloatModel SvgModel SvgSpec.
From Coq Require Import QArith SpecFloat Lqa.
Open Scope Q_scope.

Notation ltbQ := (fun a b => negb (Qle_bool b a)).
Notation includeQ := (includeOne Q Qplus Qminus ltbQ).
Lemma ltbQ_spec : forall a b, if negb (Qle_bool b a) then a < b else b <= a.
Proof.
  intros a b. destruct (Qle_bool b a) eqn:C; cbn [negb].
  - apply Qle_bool_iff. auto.
  - apply Qnot_le_lt. intro H. apply Qle_bool_iff in H. congruence.
Qed.

(* the interval [o, o + d] is that of the numbers l and 0 *)
Definition spans (l : list Q) (o d : Q) : Prop := lowest l o /\ highest l (o + d).

Lemma include_spans : forall l o d p o' d', spans l o d -> includeQ o d p = (o', d') -> spans (l ++ [p]) o' d'.
Proof.
  intros l o d p o' d' ((A1 & A2 & A3) & (B1 & B2 & B3)) E. unfold includeOne in E.
  assert (AP : forall m, (m == 0 \/ exists x, In x l /\ m == x) -> m == 0 \/ exists x, In x (l ++ [p]) /\ m == x).
  { intros m [H|(x & I & H)]; auto. right. exists x. split; auto. apply in_app_iff. auto. }
  assert (PP : exists x, In x (l ++ [p]) /\ p == x) by (exists p; split; [apply in_app_iff; right; left; auto|reflexivity]).
  pose proof (ltbQ_spec p o) as C1. destruct (negb (Qle_bool o p)).
  - pose proof (ltbQ_spec (p + (d + (o - p))) p) as C2. destruct (negb (Qle_bool p (p + (d + (o - p))))); [exfalso; lra|]. inversion E; subst o' d'.
    split; (split; [|split]).
    + right. exact PP.
    + lra.
    + intros x I. apply in_app_iff in I as [I|[<-|[]]]; [specialize (A3 x I)|]; lra.
    + assert (X : p + (d + (o - p)) == o + d) by lra. destruct B1 as [B1|(x & I & B1)]; [left; lra|]. right. exists x. split; [apply in_app_iff; auto|lra].
    + lra.
    + intros x I. apply in_app_iff in I as [I|[<-|[]]]; [specialize (B3 x I)|]; lra.
  - pose proof (ltbQ_spec (o + d) p) as C2. destruct (negb (Qle_bool p (o + d))); inversion E; subst o' d'; (split; (split; [|split])); auto; try lra.
    + intros x I. apply in_app_iff in I as [I|[<-|[]]]; auto.
    + right. exists p. split; [apply in_app_iff; right; left; auto|lra].
    + intros x I. apply in_app_iff in I as [I|[<-|[]]]; [specialize (B3 x I)|]; lra.
    + intros x I. apply in_app_iff in I as [I|[<-|[]]]; auto.
    + intros x I. apply in_app_iff in I as [I|[<-|[]]]; auto.
Qed.

Definition boxSpans (ps : list (Q * Q)) (b : box Q) : Prop :=
  spans (map fst ps) (bx Q b) (bw Q b) /\ spans (map snd ps) (by_ Q b) (bh Q b).
Notation addPoint := (includeInBB Q Qplus Qminus ltbQ).
Lemma points_spans : forall qs ps b, boxSpans ps b -> boxSpans (ps ++ qs) (fold_left addPoint qs b).
Proof.
  induction qs as [|q qs IH]; intros ps b H; cbn [fold_left]; [rewrite app_nil_r; auto|].
  replace (ps ++ q :: qs) with ((ps ++ [q]) ++ qs) by (rewrite <- app_assoc; reflexivity). apply IH. destruct H as (H1 & H2).
  unfold includeInBB. destruct (includeQ (bx Q b) (bw Q b) (fst q)) as [x w] eqn:E1. destruct (includeQ (by_ Q b) (bh Q b) (snd q)) as [y h] eqn:E2.
  split; cbn [bx bw by_ bh]; rewrite map_app; eapply include_spans; eauto.
Qed.

Notation cornersOf := (flat_map (corners Q Qplus Qopp)).
Lemma chain_leading : forall is b, chain Q Qplus Qminus Qopp ltbQ b is = fold_left (draw Q Qplus Qminus Qopp ltbQ) (leading is) b.
Proof. induction is as [|[s|] is IH]; intro b; cbn; auto. Qed.
Definition shapesOf (cs : list (list (item Q))) : list (shape Q) := flat_map leading cs.
Lemma draw_spans : forall ss ps b, boxSpans ps b -> boxSpans (ps ++ cornersOf ss) (fold_left (draw Q Qplus Qminus Qopp ltbQ) ss b).
Proof.
  induction ss as [|s ss IH]; intros ps b H; cbn [fold_left]; [cbn; rewrite app_nil_r; auto|].
  cbn [flat_map]. rewrite app_assoc. apply IH. apply points_spans. auto.
Qed.
Lemma image_draw : forall cs b, fold_left (chain Q Qplus Qminus Qopp ltbQ) cs b = fold_left (draw Q Qplus Qminus Qopp ltbQ) (shapesOf cs) b.
Proof.
  induction cs as [|is cs IH]; intro b; cbn [fold_left shapesOf flat_map]; auto. rewrite IH, chain_leading, fold_left_app. reflexivity.
Qed.
Lemma image_spans : forall cs, boxSpans (cornersOf (shapesOf cs)) (imageQ cs).
Proof.
  intro cs. unfold imageQ, image. rewrite image_draw. apply (draw_spans (shapesOf cs) []). unfold boxSpans, spans, lowest, highest, emptyBox. cbn. repeat split; auto; try lra; try (left; lra); try contradiction; intros x [].
Qed.

Lemma view_spec : forall cs, let ps := flat_map cornersQ (flat_map leading cs) in exists x0 x1 y0 y1,
  lowest (map fst ps) x0 /\ highest (map fst ps) x1 /\ lowest (map snd ps) y0 /\ highest (map snd ps) y1 /\
  let '(x, y, w, h) := viewBoxQ (imageQ cs) in x == x0 /\ w == x1 - x0 /\ y == - y1 /\ h == y1 - y0.
Proof.
  intros cs ps. destruct (image_spans cs) as ((A & B) & (C & D)). exists (bx Q (imageQ cs)), (bx Q (imageQ cs) + bw Q (imageQ cs)), (by_ Q (imageQ cs)), (by_ Q (imageQ cs) + bh Q (imageQ cs)).
  split; auto. split; auto. split; auto. split; auto. unfold viewBoxQ, viewBox, flipY. repeat split; lra.
Qed.

Lemma corner_in : forall ss b p, boxSpans ss b -> In p ss -> bx Q b <= fst p <= bx Q b + bw Q b /\ by_ Q b <= snd p <= by_ Q b + bh Q b.
Proof.
  intros ss b p (((_ & _ & A) & (_ & _ & B)) & ((_ & _ & C) & (_ & _ & D))) I.
  pose proof (in_map fst _ _ I). pose proof (in_map snd _ _ I). auto.
Qed.
Lemma hull_box : forall x0 x1 y0 y1 ps z, (forall p, In p ps -> x0 <= fst p <= x1 /\ y0 <= snd p <= y1) -> hull ps z -> x0 <= fst z <= x1 /\ y0 <= snd z <= y1.
Proof.
  intros x0 x1 y0 y1 ps z H HU. induction HU as [p I|p q z _ IHp _ IHq (t & T & X & Y)]; auto. rewrite X, Y. nra.
Qed.
Lemma flip_view : forall b p, bx Q b <= fst p <= bx Q b + bw Q b /\ by_ Q b <= snd p <= by_ Q b + bh Q b ->
  inView (viewBoxQ b) (flipPoint Q 0 Qplus Qopp p).
Proof. intros b p H. unfold viewBoxQ, viewBox, inView, flipPoint, flipY. cbn [fst snd]. lra. Qed.

Lemma hull_view : forall v ps z, (forall p, In p ps -> inView v p) -> hull ps z -> inView v z.
Proof. intros [[[x y] w] h] ps z H HU. unfold inView in *. eapply hull_box; eauto. Qed.

Lemma all_in_view : forall ss is s z, In is ss -> In s (leading is) -> covers (elementQ s) z -> inView (viewBoxQ (imageQ ss)) z.
Proof.
  intros ss is s z I0 I1 C. assert (I : In s (shapesOf ss)) by (apply in_flat_map; eauto). pose proof (image_spans ss) as SP.
  assert (CI : forall p, In p (corners Q Qplus Qopp s) -> bx Q (imageQ ss) <= fst p <= bx Q (imageQ ss) + bw Q (imageQ ss) /\ by_ Q (imageQ ss) <= snd p <= by_ Q (imageQ ss) + bh Q (imageQ ss)).
  { intros p J. eapply corner_in; eauto. apply in_flat_map. eauto. }
  assert (HP : forall ps, corners Q Qplus Qopp s = ps -> hull (map (flipPoint Q 0 Qplus Qopp) ps) z -> inView (viewBoxQ (imageQ ss)) z).
  { intros ps E HU. eapply hull_view; [|exact HU]. intros p J. apply in_map_iff in J as (q & <- & J). apply flip_view. apply CI. rewrite E. auto. }
  destruct s as [o w h|o r|o rx ry|ps|p q|ps]; cbn [corners] in CI, HP; cbn [elementQ elementOf covers] in C.
  - unfold elementQ, elementOf, covers, flipY in C. pose proof (CI _ (or_introl eq_refl)) as C1. pose proof (CI _ (or_intror (or_introl eq_refl))) as C2. cbn [fst snd] in C1, C2.
    unfold viewBoxQ, viewBox, inView, flipY. lra.
  - unfold elementQ, elementOf, covers, flipY in C. pose proof (CI _ (or_introl eq_refl)) as C1. pose proof (CI _ (or_intror (or_introl eq_refl))) as C2. cbn [fst snd] in C1, C2.
    destruct C as (R1 & _ & X & Y). unfold viewBoxQ, viewBox, inView, flipY.
    assert (- r <= fst z - fst o <= r) by nra. assert (- r <= snd z - - (snd o + 0) <= r) by nra. lra.
  - unfold elementQ, elementOf, covers, flipY in C. pose proof (CI _ (or_introl eq_refl)) as C1. pose proof (CI _ (or_intror (or_introl eq_refl))) as C2. cbn [fst snd] in C1, C2.
    destruct C as (R1 & R2 & X & Y). unfold viewBoxQ, viewBox, inView, flipY.
    assert (- rx <= fst z - fst o <= rx) by nra. assert (- ry <= snd z - - (snd o + 0) <= ry) by nra. lra.
  - apply (HP ps); auto.
  - apply (HP [p; q]); auto.
  - apply (HP ps); auto.
Qed.

(* rounding: a point at 1 is outside after one at -2^65 *)
Lemma float_outside : exists p q : real, realOk p /\ realOk q /\ isfinite p = true /\ isfinite q = true /\
  let b := imageF [[Draw (Polygon [(p, rzero); (q, rzero)])]] in
  SFltb (SFadd prec emax (bx real b) (bw real b)) q = true.
Proof.
  exists (S754_finite true 9223372036854775808 2), (S754_finite false 9223372036854775808 (-63)). vm_compute. auto.
Qed.

Lemma after_text : exists cs s z, printed cs s /\ covers (elementQ s) z /\ ~ inView (viewBoxQ (imageQ cs)) z.
Proof.
  exists [[Text; Draw (Rectangle (1, 1) 2 2)]], (Rectangle (1, 1) 2 2), (2, -(2)). split; [|split].
  - exists [Text; Draw (Rectangle (1, 1) 2 2)]. cbn. auto.
  - repeat split; vm_compute; discriminate.
  - intros ((_ & H) & _). vm_compute in H. apply H. reflexivity.
Qed.
