(* Drawing lines. *)
From Coq Require Import ZArith List Lia Bool.
From Verif Require Import Base BaseLemmas PngModel PngSpec PngProofs3.
Import ListNotations.
Local Open Scope Z_scope.
Local Arguments Z.add : simpl never.
Local Arguments Z.mul : simpl never.

Lemma paint_once : forall m c img x y w h, isImage w h img -> isColor c -> inside w h (x, y) ->
  exists img', paint m c img x y = Ok img' /\ isImage w h img' /\
    paintedOn m c (fun p => p = (x, y)) img img'.
Proof.
  intros m c img x y w h I C P. destruct (paint_at m c img x y w h I C P) as (old & img' & E & Ep & I' & A).
  exists img'. split; [exact Ep|]. split; [exact I'|]. intros x' y'. rewrite A. split.
  - intros Q. injection Q as -> ->. rewrite same_refl, E. reflexivity.
  - intros N. destruct (same (x, y) (x', y')) eqn:S; [|reflexivity]. apply same_iff in S. congruence.
Qed.

Lemma painted_cons : forall m c p path img img1 img2, ~ In p path ->
  paintedOn m c (fun q => q = p) img img1 -> paintedOn m c (fun q => In q path) img1 img2 ->
  paintedOn m c (fun q => In q (p :: path)) img img2.
Proof.
  intros m c p path img img1 img2 N P1 P2 x y. destruct (P1 x y) as (A1 & A2). destruct (P2 x y) as (B1 & B2).
  split.
  - intros [E|I].
    + rewrite B2 by (rewrite <- E; exact N). apply A1. symmetry. exact E.
    + rewrite B1 by exact I. rewrite A2 by (intros E; apply N; rewrite <- E; exact I). reflexivity.
  - intros Q. rewrite B2 by (intros I; apply Q; right; exact I). apply A2.
    intros E. apply Q. left. symmetry. exact E.
Qed.

Lemma minor_bound : forall D E i j, 0 < D -> 0 <= E -> 0 <= i <= D -> 2 * (D * j - E * i) <= D -> j <= E.
Proof.
  intros D E i j HD HE Hi H. destruct (Z.le_gt_cases j E) as [L|L]; [exact L|exfalso].
  assert (A : E * i <= E * D) by (apply Z.mul_le_mono_nonneg_l; lia).
  assert (B : D * (E + 1) <= D * j) by (apply Z.mul_le_mono_nonneg_l; lia). lia.
Qed.

Lemma minor_end : forall D E j, 0 < D -> - D <= 2 * (D * j - E * D) -> E <= j.
Proof.
  intros D E j HD H. destruct (Z.le_gt_cases E j) as [L|L]; [exact L|exfalso].
  assert (B : D * j <= D * (E - 1)) by (apply Z.mul_le_mono_nonneg_l; lia). lia.
Qed.

Section Line.
Variables (m : BlendMode) (fill : Color) (ax ay bx by_ DX DY sx sy w h : Z).
Hypothesis Cf : isColor fill.
Hypothesis Hsx : -1 <= sx <= 1.
Hypothesis Hsy : -1 <= sy <= 1.
Hypothesis Ex : sx * DX = bx - ax.
Hypothesis Ey : sy * DY = by_ - ay.
Hypothesis AX : DX = Z.abs (bx - ax).
Hypothesis AY : DY = Z.abs (by_ - ay).
Hypothesis HX : 0 <= DX < 2 ^ 60.
Hypothesis HY : 0 <= DY < 2 ^ 60.
Hypothesis Ba : 0 <= ax < 2 ^ 60 /\ 0 <= ay < 2 ^ 60.
Hypothesis Ia : inside w h (ax, ay).
Hypothesis Ib : inside w h (bx, by_).

Let cond := fun s : Z * (Z * Z) * image => let '(_, (x, y), _) := s in negb (x =? bx) || negb (y =? by_).

Lemma box : forall i j, 0 <= i <= DX -> 0 <= j <= DY -> inBox (ax, ay) (bx, by_) (ax + sx * i, ay + sy * j).
Proof.
  intros i j Hi Hj. unfold inBox. cbn [fst snd].
  assert (C : sx = -1 \/ sx = 0 \/ sx = 1) by lia. assert (D : sy = -1 \/ sy = 0 \/ sy = 1) by lia.
  destruct C as [->|[->| ->]]; destruct D as [->|[->| ->]]; lia.
Qed.

Lemma box_inside : forall p, inBox (ax, ay) (bx, by_) p -> inside w h p.
Proof. intros p (P1 & P2). destruct Ia as (A1 & A2). destruct Ib as (B1 & B2). unfold inside. cbn [fst snd] in *. lia. Qed.

Lemma near_t : forall i j M, Z.max (Z.abs (bx - ax)) (Z.abs (by_ - ay)) = M ->
  - M <= 2 * (DX * j - DY * i) <= M ->
  near (ax, ay) (bx, by_) (ax + sx * i, ay + sy * j).
Proof.
  intros i j M HM T. unfold near. cbn [fst snd]. rewrite HM, <- Ex, <- Ey.
  replace ((ax + sx * i - ax) * (sy * DY) - (ay + sy * j - ay) * (sx * DX))
    with (sx * sy * (DY * i - DX * j)) by ring.
  assert (C : sx = -1 \/ sx = 0 \/ sx = 1) by lia. assert (D : sy = -1 \/ sy = 0 \/ sy = 1) by lia.
  destruct C as [->|[->| ->]]; destruct D as [->|[->| ->]]; lia.
Qed.

(* one step *)
Lemma step_value : forall error x y img, is_i64 error -> - 2 ^ 61 <= error <= 2 ^ 61 ->
  - 2 ^ 61 <= x <= 2 ^ 61 -> - 2 ^ 61 <= y <= 2 ^ 61 ->
  lineStep m fill DX (- DY) sx sy (error, (x, y), img) =
    let bX := 2 * error >=? - DY in let bY := 2 * error <=? DX in
    let x' := if bX then x + sx else x in
    let y' := if bY then y + sy else y in
    let! img := paint m fill img x' y' in
    Ok (error + (if bX then - DY else 0) + (if bY then DX else 0), (x', y'), img).
Proof.
  intros error x y img _ He Hx Hy. unfold lineStep.
  rewrite (chk_Ok (2 * error)) by (unfold is_i64, I64_MIN, I64_MAX, two63; lia). cbn [bind]. cbv zeta.
  destruct (2 * error >=? - DY) eqn:E1; destruct (2 * error <=? DX) eqn:E2;
    cbn [bind]; repeat (rewrite chk_Ok by (unfold is_i64, I64_MIN, I64_MAX, two63; lia); cbn [bind]);
    rewrite ?Z.add_0_r; reflexivity.
Qed.

Lemma last_cons : forall (l : list (Z * Z)) p d, last (p :: l) d = last l p.
Proof.
  induction l as [|q l IH]; intros p d; [reflexivity|].
  change (last (p :: q :: l) d) with (last (q :: l) d). rewrite !IH. reflexivity.
Qed.

(* the loop when x changes in every step *)
Lemma loopX : DY <= DX -> 0 < DX -> forall k i j img,
  i + Z.of_nat k = DX -> 0 <= i -> 0 <= j <= DY -> - DX <= 2 * (DX * j - DY * i) <= DX ->
  isImage w h img ->
  exists e p img' path,
    while k cond (lineStep m fill DX (- DY) sx sy) (DX * j - DY * i + DX - DY, (ax + sx * i, ay + sy * j), img)
      = Ok (e, p, img') /\ isImage w h img' /\ length path = k /\
    last path (ax + sx * i, ay + sy * j) = (bx, by_) /\
    touching ((ax + sx * i, ay + sy * j) :: path) /\ NoDup path /\
    Forall (fun q => i < sx * (fst q - ax)) path /\
    Forall (near (ax, ay) (bx, by_)) path /\ Forall (inBox (ax, ay) (bx, by_)) path /\
    paintedOn m fill (fun q => In q path) img img'.
Proof.
  intros Hle Hpos.
  assert (Sx : sx = 1 \/ sx = -1).
  { assert (sx <> 0) by (intros E0; rewrite E0 in Ex; lia). lia. }
  assert (HM : Z.max (Z.abs (bx - ax)) (Z.abs (by_ - ay)) = DX) by lia.
  induction k as [|k IH]; intros i j img Hk Hi Hj Ht I.
  - assert (i = DX) by lia. subst i. assert (j = DY) by (assert (DY <= j) by (apply (minor_end DX); lia); lia). subst j.
    rewrite while_eq. unfold cond at 1. rewrite Ex, Ey.
    replace (ax + (bx - ax)) with bx by lia. replace (ay + (by_ - ay)) with by_ by lia.
    rewrite !Z.eqb_refl. cbn [negb orb].
    eexists _, _, img, []. split; [reflexivity|]. split; [exact I|]. split; [reflexivity|].
    split; [reflexivity|]. split; [exact Logic.I|]. split; [constructor|].
    repeat (split; [constructor|]). intros x y. split; [intros []|reflexivity].
  - rewrite while_eq.
    assert (Cn : cond (DX * j - DY * i + DX - DY, (ax + sx * i, ay + sy * j), img) = true).
    { unfold cond. destruct (Z.eqb_spec (ax + sx * i) bx) as [E|_]; [|reflexivity].
      exfalso. assert (E2 : sx * i = sx * DX) by lia. destruct Sx as [E3|E3]; rewrite E3 in E2; lia. }
    rewrite Cn.
    assert (Bx := box i j ltac:(lia) Hj). destruct Bx as (B1 & B2). cbn [fst snd] in B1, B2.
    rewrite step_value; [|unfold is_i64, I64_MIN, I64_MAX, two63; lia|lia|lia|lia]. cbv zeta.
    assert (E1 : 2 * (DX * j - DY * i + DX - DY) >=? - DY = true) by (apply Z.geb_le; lia).
    rewrite E1.
    set (bY := 2 * (DX * j - DY * i + DX - DY) <=? DX).
    set (j' := if bY then j + 1 else j).
    assert (Ht' : - DX <= 2 * (DX * j' - DY * (i + 1)) <= DX).
    { unfold j'. destruct bY eqn:Q; unfold bY in Q; [apply Z.leb_le in Q|apply Z.leb_gt in Q]; lia. }
    assert (Hj' : 0 <= j' <= DY).
    { split; [unfold j'; destruct bY; lia|]. apply (minor_bound DX DY (i + 1)); lia. }
    replace (ax + sx * i + sx) with (ax + sx * (i + 1)) by ring.
    replace (if bY then ay + sy * j + sy else ay + sy * j) with (ay + sy * j')
      by (unfold j'; destruct bY; ring).
    replace (DX * j - DY * i + DX - DY + - DY + (if bY then DX else 0))
      with (DX * j' - DY * (i + 1) + DX - DY) by (unfold j'; destruct bY; ring).
    assert (Bx' := box (i + 1) j' ltac:(lia) Hj').
    destruct (paint_once m fill img _ _ w h I Cf (box_inside _ Bx')) as (img1 & P1 & I1 & P2).
    rewrite P1. cbn [bind].
    destruct (IH (i + 1) j' img1 ltac:(lia) ltac:(lia) Hj' Ht' I1)
      as (e & p & img' & path & W & I' & L & La & To & Nd & Fi & Fn & Fb & Pp).
    rewrite W. exists e, p, img', ((ax + sx * (i + 1), ay + sy * j') :: path).
    assert (Fst : i < sx * (ax + sx * (i + 1) - ax)) by (destruct Sx as [E3|E3]; rewrite E3; lia).
    assert (Ni : ~ In (ax + sx * (i + 1), ay + sy * j') path).
    { intros Q. rewrite Forall_forall in Fi. specialize (Fi _ Q). cbn [fst] in Fi.
      destruct Sx as [E3|E3]; rewrite E3 in Fi; lia. }
    split; [reflexivity|]. split; [exact I'|]. split; [cbn [length]; congruence|].
    split; [rewrite last_cons; exact La|]. split.
    { cbn [touching]. split; [|exact To]. cbn [fst snd]. unfold j'.
      destruct bY; destruct Sx as [E3|E3]; rewrite E3; lia. }
    split; [constructor; assumption|]. split.
    { apply Forall_cons; [exact Fst|]. eapply Forall_impl; [|exact Fi]. intros q Q. cbv beta in *. lia. }
    split.
    { apply Forall_cons; [|exact Fn]. apply (near_t _ _ DX HM Ht'). }
    split; [apply Forall_cons; assumption|].
    apply (painted_cons m fill _ path img img1 img' Ni P2 Pp).
Qed.

(* the loop when y changes in every step *)
Lemma loopY : DX < DY -> forall k i j img,
  j + Z.of_nat k = DY -> 0 <= j -> 0 <= i <= DX -> - DY <= 2 * (DX * j - DY * i) <= DY ->
  isImage w h img ->
  exists e p img' path,
    while k cond (lineStep m fill DX (- DY) sx sy) (DX * j - DY * i + DX - DY, (ax + sx * i, ay + sy * j), img)
      = Ok (e, p, img') /\ isImage w h img' /\ length path = k /\
    last path (ax + sx * i, ay + sy * j) = (bx, by_) /\
    touching ((ax + sx * i, ay + sy * j) :: path) /\ NoDup path /\
    Forall (fun q => j < sy * (snd q - ay)) path /\
    Forall (near (ax, ay) (bx, by_)) path /\ Forall (inBox (ax, ay) (bx, by_)) path /\
    paintedOn m fill (fun q => In q path) img img'.
Proof.
  intros Hlt.
  assert (Sy : sy = 1 \/ sy = -1).
  { assert (sy <> 0) by (intros E0; rewrite E0 in Ey; lia). lia. }
  assert (HM : Z.max (Z.abs (bx - ax)) (Z.abs (by_ - ay)) = DY) by lia.
  induction k as [|k IH]; intros i j img Hk Hj Hi Ht I.
  - assert (j = DY) by lia. subst j. assert (i = DX) by (assert (DX <= i) by (apply (minor_end DY); lia); lia). subst i.
    rewrite while_eq. unfold cond at 1. rewrite Ex, Ey.
    replace (ax + (bx - ax)) with bx by lia. replace (ay + (by_ - ay)) with by_ by lia.
    rewrite !Z.eqb_refl. cbn [negb orb].
    eexists _, _, img, []. split; [reflexivity|]. split; [exact I|]. split; [reflexivity|].
    split; [reflexivity|]. split; [exact Logic.I|]. split; [constructor|].
    repeat (split; [constructor|]). intros x y. split; [intros []|reflexivity].
  - rewrite while_eq.
    assert (Cn : cond (DX * j - DY * i + DX - DY, (ax + sx * i, ay + sy * j), img) = true).
    { unfold cond. destruct (Z.eqb_spec (ay + sy * j) by_) as [E|_]; [|apply orb_true_r].
      exfalso. assert (E2 : sy * j = sy * DY) by lia. destruct Sy as [E3|E3]; rewrite E3 in E2; lia. }
    rewrite Cn.
    assert (Bx := box i j Hi ltac:(lia)). destruct Bx as (B1 & B2). cbn [fst snd] in B1, B2.
    rewrite step_value; [|unfold is_i64, I64_MIN, I64_MAX, two63; lia|lia|lia|lia]. cbv zeta.
    assert (E1 : 2 * (DX * j - DY * i + DX - DY) <=? DX = true) by (apply Z.leb_le; lia).
    rewrite E1.
    set (bX := 2 * (DX * j - DY * i + DX - DY) >=? - DY).
    set (i' := if bX then i + 1 else i).
    assert (Ht' : - DY <= 2 * (DX * (j + 1) - DY * i') <= DY).
    { unfold i'. destruct bX eqn:Q; unfold bX in Q; rewrite Z.geb_leb in Q;
        [apply Z.leb_le in Q|apply Z.leb_gt in Q]; lia. }
    assert (Hi' : 0 <= i' <= DX).
    { split; [unfold i'; destruct bX; lia|]. apply (minor_bound DY DX (j + 1)); lia. }
    replace (ay + sy * j + sy) with (ay + sy * (j + 1)) by ring.
    replace (if bX then ax + sx * i + sx else ax + sx * i) with (ax + sx * i')
      by (unfold i'; destruct bX; ring).
    replace (DX * j - DY * i + DX - DY + (if bX then - DY else 0) + DX)
      with (DX * (j + 1) - DY * i' + DX - DY) by (unfold i'; destruct bX; ring).
    assert (Bx' := box i' (j + 1) Hi' ltac:(lia)).
    destruct (paint_once m fill img _ _ w h I Cf (box_inside _ Bx')) as (img1 & P1 & I1 & P2).
    rewrite P1. cbn [bind].
    destruct (IH i' (j + 1) img1 ltac:(lia) ltac:(lia) Hi' Ht' I1)
      as (e & p & img' & path & W & I' & L & La & To & Nd & Fi & Fn & Fb & Pp).
    rewrite W. exists e, p, img', ((ax + sx * i', ay + sy * (j + 1)) :: path).
    assert (Fst : j < sy * (ay + sy * (j + 1) - ay)) by (destruct Sy as [E3|E3]; rewrite E3; lia).
    assert (Ni : ~ In (ax + sx * i', ay + sy * (j + 1)) path).
    { intros Q. rewrite Forall_forall in Fi. specialize (Fi _ Q). cbn [snd] in Fi.
      destruct Sy as [E3|E3]; rewrite E3 in Fi; lia. }
    split; [reflexivity|]. split; [exact I'|]. split; [cbn [length]; congruence|].
    split; [rewrite last_cons; exact La|]. split.
    { cbn [touching]. split; [|exact To]. cbn [fst snd]. unfold i'.
      destruct bX; destruct Sy as [E3|E3]; rewrite E3; lia. }
    split; [constructor; assumption|]. split.
    { apply Forall_cons; [exact Fst|]. eapply Forall_impl; [|exact Fi]. intros q Q. cbv beta in *. lia. }
    split.
    { apply Forall_cons; [|exact Fn]. apply (near_t _ _ DY HM Ht'). }
    split; [apply Forall_cons; assumption|].
    apply (painted_cons m fill _ path img img1 img' Ni P2 Pp).
Qed.

Lemma line_loop : forall img, isImage w h img ->
  exists e p img' path,
    while (Z.to_nat (Z.max DX DY)) cond (lineStep m fill DX (- DY) sx sy) (DX + - DY, (ax, ay), img)
      = Ok (e, p, img') /\ isImage w h img' /\ isLine (ax, ay) (bx, by_) ((ax, ay) :: path) /\
    paintedOn m fill (fun q => In q path) img img'.
Proof.
  intros img I.
  assert (Near : near (ax, ay) (bx, by_) (ax, ay)) by (unfold near; cbn [fst snd]; lia).
  assert (Box : inBox (ax, ay) (bx, by_) (ax, ay)) by (unfold inBox; cbn [fst snd]; lia).
  destruct (Z.lt_ge_cases DX DY) as [C|C].
  - destruct (loopY C (Z.to_nat DY) 0 0 img) as (e & p & img' & path & W & I' & L & La & To & Nd & Fi & Fn & Fb & Pp);
      [lia|lia|lia|lia|exact I|].
    rewrite !Z.mul_0_r, !Z.add_0_r in *. replace (0 - 0 + DX - DY) with (DX + - DY) in W by lia.
    replace (Z.max DX DY) with DY by lia. rewrite W.
    exists e, p, img', path. split; [reflexivity|]. split; [exact I'|]. split; [|exact Pp].
    split; [reflexivity|]. split; [rewrite last_cons; exact La|]. split; [exact To|].
    split; [constructor; [|exact Nd]|].
    { intros Q. rewrite Forall_forall in Fi. specialize (Fi _ Q). cbn [snd] in Fi. nia. }
    split; [cbn [length fst snd]; lia|]. split; apply Forall_cons; assumption.
  - destruct (Z.eq_dec DX 0) as [Z0|Z0].
    + assert (DY = 0) by lia. replace (Z.max DX DY) with 0 by lia. change (Z.to_nat 0) with 0%nat.
      rewrite while_eq. unfold cond at 1.
      assert (bx = ax) by lia. assert (by_ = ay) by lia.
      replace (ax =? bx) with true by (symmetry; apply Z.eqb_eq; lia).
      replace (ay =? by_) with true by (symmetry; apply Z.eqb_eq; lia). cbn [negb orb].
      eexists _, _, img, []. split; [reflexivity|]. split; [exact I|]. split.
      * split; [reflexivity|]. split; [cbn; congruence|]. split; [exact Logic.I|].
        split; [constructor; [intros []|constructor]|].
        split; [cbn [length fst snd]; lia|]. split; apply Forall_cons; auto.
      * intros x y. split; [intros []|reflexivity].
    + destruct (loopX ltac:(lia) ltac:(lia) (Z.to_nat DX) 0 0 img) as (e & p & img' & path & W & I' & L & La & To & Nd & Fi & Fn & Fb & Pp);
        [lia|lia|lia|lia|exact I|].
      rewrite !Z.mul_0_r, !Z.add_0_r in *. replace (0 - 0 + DX - DY) with (DX + - DY) in W by lia.
      replace (Z.max DX DY) with DX by lia. rewrite W.
      exists e, p, img', path. split; [reflexivity|]. split; [exact I'|]. split; [|exact Pp].
      split; [reflexivity|]. split; [rewrite last_cons; exact La|]. split; [exact To|].
      split; [constructor; [|exact Nd]|].
      { intros Q. rewrite Forall_forall in Fi. specialize (Fi _ Q). cbn [fst] in Fi. nia. }
      split; [cbn [length fst snd]; lia|]. split; apply Forall_cons; assumption.
Qed.

End Line.

Lemma sign01_abs : forall d, sign01 d * Z.abs d = - d /\ -1 <= sign01 d <= 1.
Proof.
  intros d. unfold sign01. rewrite Z.gtb_ltb. destruct (Z.ltb_spec d 0); destruct (Z.ltb_spec 0 d); lia.
Qed.

Lemma drawLine_ok : forall w h img m a b fill, isImage w h img -> 0 <= w < 2 ^ 60 -> 0 <= h < 2 ^ 60 ->
  isColor fill -> inside w h a -> inside w h b ->
  exists path img', drawLine m a b fill img = Ok img' /\ isImage w h img' /\ isLine a b path /\
    paintedOn m fill (fun p => In p path) img img'.
Proof.
  intros w h img m [ax ay] [bx by_] fill I Hw Hh Cf Ia Ib. unfold drawLine.
  pose proof Ia as (Xa & Ya). pose proof Ib as (Xb & Yb). cbn [fst snd] in Xa, Ya, Xb, Yb.
  repeat (rewrite chk_Ok by (unfold is_i64, I64_MIN, I64_MAX, two63; lia); cbn [bind]).
  destruct (paint_once m fill img ax ay w h I Cf Ia) as (img1 & P1 & I1 & P2). rewrite P1. cbn [bind].
  pose proof (sign01_abs (ax - bx)) as (Sx & Bx). pose proof (sign01_abs (ay - by_)) as (Sy & By).
  replace (Z.abs (ax - bx)) with (Z.abs (bx - ax)) in Sx by lia.
  replace (Z.abs (ay - by_)) with (Z.abs (by_ - ay)) in Sy by lia.
  destruct (line_loop m fill ax ay bx by_ (Z.abs (bx - ax)) (Z.abs (by_ - ay)) (sign01 (ax - bx))
    (sign01 (ay - by_)) w h Cf Bx By ltac:(lia) ltac:(lia) eq_refl eq_refl ltac:(lia) ltac:(lia) ltac:(lia) Ia Ib img1 I1)
    as (e & p & img' & path & W & I' & Li & Pp).
  rewrite W. cbn [bind]. exists ((ax, ay) :: path), img'. split; [reflexivity|]. split; [exact I'|].
  split; [exact Li|]. apply (painted_cons m fill (ax, ay) path img img1 img'); [|exact P2|exact Pp].
  destruct Li as (_ & _ & _ & Nd & _). inversion Nd. assumption.
Qed.
