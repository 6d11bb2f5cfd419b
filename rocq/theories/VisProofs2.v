(* The PNG visualizer. *)
From Coq Require Import String.
From Verif Require Import Base Tac BaseLemmas FloatModel FloatSpec RealSpec SeqModel InputSpec InitSpec DecimalSpec DecimalModel PngModel PngSpec PngProofs2 PngProofs3 PngProofs4 PngProofs5 VisModel VisSpec VisProofs.
From Coq Require Import ZArith List Lia Bool.
Import ListNotations.
Open Scope Z_scope.
Open Scope list_scope.

Lemma white_color : isColor WHITE. Proof. unfold isColor, PngSpec.byte; cbn; lia. Qed.
Lemma black_color : isColor BLACK. Proof. unfold isColor, PngSpec.byte; cbn; lia. Qed.
Lemma starts_cons : forall s v vs, startsWith s (v :: vs) -> exists r, extractInt (Some s) = (Some v, Some r) /\ startsWith r vs.
Proof.
  intros s v vs (ts & more & W & F & B). inversion F as [|t v0 ts' vs' D F']; subst. inv B. cbn [app] in W. destruct (extract_int _ _ _ _ W D ltac:(auto)) as (r & E & W').
  exists r. split; auto. exists ts', more. auto.
Qed.
Lemma image_at : forall w h img x y, isImage w h img -> inside w h (x, y) -> exists c, at_ img x y = Some c.
Proof.
  intros w h img x y (L & F) (X & Y). cbn [fst snd] in *. unfold at_. destruct (Z.ltb_spec x 0); [lia|]. destruct (Z.ltb_spec y 0); [lia|]. cbn [orb].
  destruct (nth_error img (Z.to_nat y)) as [row|] eqn:E; [|apply nth_error_None in E; lia]. rewrite Forall_forall in F. destruct (F row (nth_error_In _ _ E)) as (LR & _).
  destruct (nth_error row (Z.to_nat x)) as [c|] eqn:E'; [eauto|apply nth_error_None in E'; lia].
Qed.
Lemma repeat_at : forall w h c x y, inside w h (x, y) -> at_ (repeat (repeat c (Z.to_nat w)) (Z.to_nat h)) x y = Some c.
Proof.
  intros w h c x y (X & Y). cbn [fst snd] in *. unfold at_. destruct (Z.ltb_spec x 0); [lia|]. destruct (Z.ltb_spec y 0); [lia|]. cbn [orb].
  rewrite (nth_error_nth' _ (repeat c (Z.to_nat w))) by (rewrite repeat_length; lia). rewrite nth_repeat. rewrite (nth_error_nth' _ c) by (rewrite repeat_length; lia). rewrite nth_repeat. reflexivity.
Qed.
Lemma path_dec : forall (p : Z * Z) l, In p l \/ ~ In p l.
Proof. intros p l. destruct (in_dec (fun p q : Z * Z => ltac:(decide equality; apply Z.eq_dec) : {p = q} + {p <> q}) p l); auto. Qed.
Lemma lines_ok : forall w h ls s img, 0 <= w < 2 ^ 60 -> 0 <= h < 2 ^ 60 -> startsWith s (flat (flat ls)) -> Forall (fun p => inside w h (fst p + 1, snd p + 1)) (flat ls) -> isImage w h img ->
  exists img' (paths : list (list (Z * Z))), pngLines (List.length ls) (Some s) img = Ok img' /\ isImage w h img' /\ Forall2 (fun l path => isLine (moved (fst l)) (moved (snd l)) path) ls paths /\
    forall x y, inside w h (x, y) -> (In (x, y) (concat paths) -> at_ img' x y = Some BLACK) /\ (~ In (x, y) (concat paths) -> at_ img' x y = at_ img x y).
Proof.
  intros w h. induction ls as [|((x1, y1), (x2, y2)) ls IH]; intros s img HW HH S F I.
  - exists img, []. split; [reflexivity|]. split; [exact I|]. split; [constructor|]. intros x y J. split; [intros []|reflexivity].
  - cbn [flat flat_map app fst snd] in S, F. fold (flat (flat ls)) in S.
    change (flat_map (fun p : Z * Z => [fst p; snd p]) (flat_map (fun l : Z * Z * (Z * Z) => [fst l; snd l]) ls)) with (flat (flat ls)) in S.
    change (flat_map (fun p : Z * Z * (Z * Z) => [fst p; snd p]) ls) with (flat ls) in F.
    apply starts_cons in S as (r1 & E1 & S). apply starts_cons in S as (r2 & E2 & S). apply starts_cons in S as (r3 & E3 & S). apply starts_cons in S as (r4 & E4 & S).
    inversion F as [|? ? I1 F1]; subst. inversion F1 as [|? ? I2 F2]; subst. cbn [fst snd] in I1, I2.
    cbn [List.length pngLines]. rewrite E1, E2, E3, E4. cbn [use bind].
    assert (B1 := I1). assert (B2 := I2). destruct B1 as (B1 & B1'), B2 as (B2 & B2'). cbn [fst snd] in B1, B1', B2, B2'.
    rewrite !chk_Ok by (unfold is_i64, I64_MIN, I64_MAX, two63; lia). cbn [bind].
    destruct (drawLine_ok w h img ASSIGN (x1 + 1, y1 + 1) (x2 + 1, y2 + 1) BLACK I HW HH black_color I1 I2) as (path & img1 & E & J & L & P). rewrite E. cbn [bind].
    destruct (IH r4 img1 HW HH S F2 J) as (img' & paths & E' & J' & L' & P'). exists img', (path :: paths). split; [exact E'|]. split; [exact J'|]. split; [constructor; auto|].
    intros x y IN. destruct (P' x y IN) as (PA & PB), (P x y) as (PC & PD). cbn [concat]. destruct (path_dec (x, y) (concat paths)) as [C|C]; [split; [auto|intros N; exfalso; apply N, in_or_app; auto]|].
    rewrite (PB C). split.
    + intros C'. apply in_app_or in C' as [C'|C']; [|contradiction]. rewrite (PC C'). destruct (image_at w h img x y I IN) as (c & ->). reflexivity.
    + intros C'. apply PD. intros C''. apply C', in_or_app. auto.
Qed.
Lemma before_ok : forall s w h ls, pngInput s w h ls ->
  exists img img', pngLinesAndFlood (Some s) = Ok (w, h, img') /\ linesOn (w + 2) (h + 2) WHITE BLACK ls img /\ cornerFilled (w + 2) (h + 2) TRANSPARENT img img'.
Proof.
  intros s w h ls (S & HW & HH & F). unfold pngLinesAndFlood. apply starts_cons in S as (r1 & E1 & S). apply starts_cons in S as (r2 & E2 & S). apply starts_cons in S as (r3 & E3 & S). rewrite E1, E2, E3. cbn [use bind].
  rewrite !chk_Ok by (unfold is_i64, I64_MIN, I64_MAX, two63; lia). cbn [bind]. unfold clear. destruct (Z.leb_spec (w + 2) 16383); [|lia]. cbn [negb].
  replace ((w + 2 <? 0) || (h + 2 <? 0) || (maxRows <? h + 2)) with false by (symmetry; unfold maxRows, two63; rewrite !orb_false_iff, !Z.ltb_ge; repeat split; lia). cbn [bind].
  rewrite Nat2Z.id. set (img0 := repeat (repeat WHITE (Z.to_nat (w + 2))) (Z.to_nat (h + 2))).
  assert (I0 : isImage (w + 2) (h + 2) img0). { pose proof (repeat_image (Z.to_nat (w + 2)) (Z.to_nat (h + 2)) WHITE white_color) as X. rewrite !Z2Nat.id in X by lia. exact X. }
  destruct (lines_ok (w + 2) (h + 2) ls r3 img0 ltac:(lia) ltac:(lia) S F I0) as (img & paths & E & I & L & P). rewrite E. cbn [bind].
  destruct (floodFill_ok (w + 2) (h + 2) img ASSIGN 0 0 TRANSPARENT I ltac:(unfold two63; lia) ltac:(unfold two63; lia) transparent_color ltac:(split; cbn [fst snd]; lia)) as (old & img' & O & E' & I' & P'). rewrite E'. cbn [bind].
  exists img, img'. split; [reflexivity|]. split; [split; [exact I|]|split; [exact I'|]].
  - exists paths. split; [exact L|]. intros x y IN. destruct (P x y IN) as (PA & PB). split; auto. intros C. rewrite (PB C). apply repeat_at. exact IN.
  - exists old. split; [exact O|]. exact P'.
Qed.
Lemma main_diverges : forall name argv files s w h ls, files (name ++ text ".in") = Some s -> pngInput s w h ls -> 1 <= h -> forall fuel, pngMain fuel (name :: argv) files = Fuel.
Proof.
  intros name argv files s w h ls FS IN H fuel. unfold pngMain, withName. rewrite FS. destruct (before_ok s w h ls IN) as (img & img' & -> & _ & (I & _)). cbn [bind]. destruct IN as (_ & HW & HH & _).
  rewrite !chk_Ok by (unfold is_i64, I64_MIN, I64_MAX, two63; lia). cbn [bind].
  rewrite (fill_diverges BLEND 0 0 (w + 1) (h + 1) _ _ (w + 2) (h + 2)); auto; try (unfold isColor, PngSpec.byte; cbn; lia); try (split; cbn [fst snd]; lia).
Qed.
(* both corners in the rows 0 and 1: only row 1 is drawn *)
Lemma row_1 : forall m ax bx border w h xs y img, isColor border -> 2 <= h -> isImage w h img -> Forall (fun x => 0 <= x < w) xs -> NoDup xs -> (y = 1 \/ hd ax xs = ax) ->
  exists y' img', fillRow m ax 0 bx 1 border border xs y img = Ok (y', img') /\ isImage w h img' /\
    (xs <> [] -> y' = 1) /\ paintedOn m border (fun p => In p (map (fun x => (x, 1)) xs)) img img'.
Proof.
  intros m ax bx border w h. induction xs as [|x xs IH]; intros y img Cb Hh I F N Y.
  - exists y, img. split; [reflexivity|]. split; [exact I|]. split; [congruence|]. intros x' y'. split; [intros []|reflexivity].
  - inversion_clear F as [|? ? X F']. inversion_clear N as [|? ? Ni N']. cbn [fillRow].
    assert (C : negb (0 =? 0) || (y =? 1) || (x =? ax) || (x =? bx) = true). { cbn [negb Z.eqb orb]. destruct Y as [->|Y]; [reflexivity|]. cbn [hd] in Y. subst x. rewrite Z.eqb_refl. destruct (y =? 1); reflexivity. }
    rewrite C. destruct (paint_once m border img x 1 w h I Cb) as (img1 & P & I1 & P1). { split; cbn [fst snd]; [exact X|lia]. }
    rewrite P. cbn [bind]. destruct (IH 1 img1 Cb Hh I1 F' N' (or_introl eq_refl)) as (y' & img' & E & I' & Y' & P2).
    exists y', img'. split; [exact E|]. split; [exact I'|]. split.
    + intros _. destruct xs as [|x2 xs]; [|apply Y'; discriminate]. cbn [fillRow] in E. congruence.
    + cbn [map]. apply (painted_cons m border (x, 1) _ img img1 img'); [|exact P1|exact P2].
      intros Q. apply in_map_iff in Q. destruct Q as (x0 & Q & I0). injection Q as ->. contradiction.
Qed.
Definition MAGENTA : Color := rgb 0xFF00FF 0x80.
Lemma magenta_color : isColor MAGENTA. Proof. unfold isColor, PngSpec.byte; cbn; lia. Qed.
Lemma range_hd : forall lo hi, lo <= hi -> hd lo (range lo hi) = lo.
Proof. intros lo hi H. unfold range. destruct (Z.to_nat (hi - lo + 1)) as [|n] eqn:E; [lia|]. cbn. lia. Qed.
Lemma main_flat : forall name argv files s w ls fuel, files (name ++ text ".in") = Some s -> pngInput s w 0 ls -> (0 < fuel)%nat ->
  exists img img' img'' file, pngMain fuel (name :: argv) files = Ok (Some file) /\ linesOn (w + 2) 2 WHITE BLACK ls img /\ cornerFilled (w + 2) 2 TRANSPARENT img img' /\
    decode file = Some (w + 2, 2, rev (map (map pixelOf) img'')) /\ (forall x, at_ img'' x 0 = at_ img' x 0) /\
    (forall x, at_ img'' x 1 = option_map (fun old => PngModel.combine BLEND old MAGENTA) (at_ img' x 1)).
Proof.
  intros name argv files s w ls fuel FS IN HF. unfold pngMain, withName. rewrite FS. destruct (before_ok s w 0 ls IN) as (img & img' & -> & L & C). cbn [bind]. destruct IN as (_ & HW & _).
  rewrite !chk_Ok by (unfold is_i64, I64_MIN, I64_MAX, two63; lia). cbn [bind]. assert (I := C). destruct I as (I & _). change (0 + 1) with 1. change (0 + 2) with 2 in *. fold MAGENTA.
  unfold fillRectangle. destruct fuel as [|fuel]; [lia|]. rewrite while_eq. cbn [fst]. change (Z.min 0 1) with 0. change (Z.max 0 1) with 1. cbn [Z.leb Z.compare].
  replace (Z.min 0 (w + 1)) with 0 by lia. replace (Z.max 0 (w + 1)) with (w + 1) by lia.
  destruct (row_1 BLEND 0 (w + 1) MAGENTA (w + 2) 2 (range 0 (w + 1)) 0 img' magenta_color ltac:(lia) I) as (y' & img'' & E & I'' & Y & P).
  { apply Forall_forall. intros x X. apply range_in in X. lia. } { apply range_nodup. } { right. apply range_hd. lia. }
  rewrite E. cbn [bind]. rewrite Y by (intros X; assert (Z : In 0 (range 0 (w + 1))) by (apply range_in; lia); rewrite X in Z; destruct Z).
  rewrite chk_Ok by (unfold is_i64, I64_MIN, I64_MAX, two63; lia). cbn [bind]. rewrite while_eq. change (fst (1 + 1, img'') <=? 1) with false. cbn [bind].
  exists img, img', img'', (writePNG img''). split; [|split; [exact L|split; [exact C|split; [|split]]]].
  - unfold write. cbn [negb orb]. destruct I'' as (LI & FI). destruct img'' as [|row img'']; [cbn in LI; lia|]. inversion FI as [|? ? (LR & _) _]; subst. unfold width, alen. destruct (Z.eqb_spec (Z.of_nat (List.length row)) 0); [lia|reflexivity].
  - apply decode_writePNG; auto; lia.
  - intros x. apply (proj2 (P x 0)). intros X. apply in_map_iff in X as (x' & X & _). congruence.
  - intros x. destruct (Z_lt_ge_dec x 0) as [B|B]; [|destruct (Z_lt_ge_dec (w + 1) x) as [B'|B']].
    + unfold at_. destruct (Z.ltb_spec x 0); [|lia]. reflexivity.
    + rewrite (proj2 (P x 1)); [|intros X; apply in_map_iff in X as (x' & X & R); apply range_in in R; injection X as ->; lia].
      unfold at_. destruct (Z.ltb_spec x 0); [lia|]. cbn [orb Z.ltb Z.compare]. destruct (nth_error img' (Z.to_nat 1)) as [row|] eqn:ER; [|reflexivity]. destruct I as (_ & FI). rewrite Forall_forall in FI. destruct (FI row (nth_error_In _ _ ER)) as (LR & _).
      rewrite (proj2 (nth_error_None row (Z.to_nat x))) by lia. reflexivity.
    + apply (proj1 (P x 1)). apply in_map_iff. exists x. split; auto. apply range_in. lia.
Qed.
(* without the file, or a name, nothing is written *)
Lemma main_missing : forall fuel name argv files, files (name ++ text ".in") = None -> pngMain fuel (name :: argv) files = UB.
Proof. intros fuel name argv files E. unfold pngMain, withName. rewrite E. reflexivity. Qed.
Lemma main_nameless : forall fuel files, pngMain fuel [] files = Throw.
Proof. reflexivity. Qed.
