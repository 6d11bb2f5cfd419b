(* Rectangles, sequences of drawing calls and colours. *)
From Coq Require Import ZArith List Lia Bool FinFun.
From Verif Require Import Base BaseLemmas PngModel PngSpec PngProofs2 PngProofs3 PngProofs4.
Import ListNotations.
Local Open Scope Z_scope.
Local Arguments Z.add : simpl never.
Local Arguments Z.mul : simpl never.

(* ------------------------------------------------------------ rectangles *)

Section Fill.
Variables (m : BlendMode) (ax ay bx by_ : Z) (border fill : Color) (w h : Z).
Hypothesis Cb : isColor border.
Hypothesis Cf : isColor fill.

Lemma fillRow_ok : 2 <= h -> forall xs y img, isImage w h img -> Forall (fun x => 0 <= x < w) xs ->
  exists y' img', fillRow m ax ay bx by_ border fill xs y img = Ok (y', img') /\ isImage w h img' /\
    (xs <> [] -> 0 <= y' <= 1).
Proof.
  intros Hh. induction xs as [|x xs IH]; intros y img I F.
  - exists y, img. split; [reflexivity|]. split; [exact I|congruence].
  - inversion_clear F as [|? ? X F']. cbn [fillRow].
    set (c := negb (ay =? 0) || (y =? by_) || (x =? ax) || (x =? bx)).
    assert (Y : 0 <= (if c then 1 else 0) <= 1) by (destruct c; lia).
    destruct (paint_once m (if c then border else fill) img x (if c then 1 else 0) w h I) as (img1 & P & I1 & _).
    { destruct c; assumption. } { split; cbn [fst snd]; [exact X|]. lia. }
    rewrite P. cbn [bind].
    destruct (IH (if c then 1 else 0) img1 I1 F') as (y' & img' & E & I' & Y').
    exists y', img'. split; [exact E|]. split; [exact I'|]. intros _.
    destruct xs as [|x2 xs]; [|apply Y'; discriminate]. cbn [fillRow] in E. injection E as <- _. exact Y.
Qed.

Lemma fillRow_inv : forall xs y img y' img', isImage w h img ->
  fillRow m ax ay bx by_ border fill xs y img = Ok (y', img') -> isImage w h img'.
Proof.
  induction xs as [|x xs IH]; intros y img y' img' I E; cbn [fillRow] in E.
  - injection E as _ <-. exact I.
  - set (c := negb (ay =? 0) || (y =? by_) || (x =? ax) || (x =? bx)) in *.
    destruct (paint m (if c then border else fill) img x (if c then 1 else 0)) as [img1| | |] eqn:P; try discriminate.
    cbn [bind] in E. apply (IH _ img1 _ _) in E; [exact E|].
    apply paint_inv with (w := w) (h := h) in P; [apply P|exact I|destruct c; assumption].
Qed.

Lemma range_in : forall lo hi x, In x (range lo hi) <-> lo <= x <= hi.
Proof.
  intros lo hi x. unfold range. rewrite in_map_iff. split.
  - intros (i & <- & I). apply in_seq in I. lia.
  - intros H. exists (Z.to_nat (x - lo)). split; [lia|]. apply in_seq. lia.
Qed.

Lemma range_nodup : forall lo hi, NoDup (range lo hi).
Proof.
  intros lo hi. unfold range. apply Injective_map_NoDup; [|apply seq_NoDup]. intros i j E. lia.
Qed.

(* in row 1 every pixel gets the border colour *)
Lemma fillRow_1 : ay = 1 -> 2 <= h -> forall xs y img, isImage w h img ->
  Forall (fun x => 0 <= x < w) xs -> NoDup xs ->
  exists y' img', fillRow m ax ay bx by_ border fill xs y img = Ok (y', img') /\ isImage w h img' /\
    (xs <> [] -> y' = 1) /\ paintedOn m border (fun p => In p (map (fun x => (x, 1)) xs)) img img'.
Proof.
  intros E1 Hh. induction xs as [|x xs IH]; intros y img I F N.
  - exists y, img. split; [reflexivity|]. split; [exact I|]. split; [congruence|].
    intros x' y'. split; [intros []|reflexivity].
  - inversion_clear F as [|? ? X F']. inversion_clear N as [|? ? Ni N']. cbn [fillRow].
    replace (negb (ay =? 0)) with true by (rewrite E1; reflexivity). cbn [orb].
    destruct (paint_once m border img x 1 w h I Cb) as (img1 & P & I1 & P1).
    { split; cbn [fst snd]; [exact X|lia]. }
    rewrite P. cbn [bind]. destruct (IH 1 img1 I1 F' N') as (y' & img' & E & I' & Y' & P2).
    exists y', img'. split; [exact E|]. split; [exact I'|]. split.
    + intros _. destruct xs as [|x2 xs]; [|apply Y'; discriminate]. cbn [fillRow] in E. congruence.
    + cbn [map]. apply (painted_cons m border (x, 1) _ img img1 img'); [|exact P1|exact P2].
      intros Q. apply in_map_iff in Q. destruct Q as (x0 & Q & I0). injection Q as ->. contradiction.
Qed.

Hypothesis Ia : inside w h (ax, ay).
Hypothesis Ib : inside w h (bx, by_).

Lemma xs_inside : Forall (fun x => 0 <= x < w) (range (Z.min ax bx) (Z.max ax bx)).
Proof.
  destruct Ia as (A & _). destruct Ib as (B & _). cbn [fst] in A, B.
  apply Forall_forall. intros x I. apply range_in in I. lia.
Qed.

Lemma xs_nonempty : range (Z.min ax bx) (Z.max ax bx) <> [].
Proof. intros E. assert (I : In ax (range (Z.min ax bx) (Z.max ax bx))) by (apply range_in; lia). rewrite E in I. contradiction. Qed.

Lemma fill_diverges : 2 <= Z.max ay by_ -> forall img, isImage w h img -> forall fuel,
  fillRectangle fuel m (ax, ay) (bx, by_) border fill img = Fuel.
Proof.
  intros H2 img I fuel. unfold fillRectangle.
  assert (Hh : 2 <= h) by (destruct Ia as (_ & A); destruct Ib as (_ & B); cbn [snd] in A, B; lia).
  assert (G : forall y img, (y <= 2 \/ y = Z.min ay by_) -> isImage w h img ->
    while fuel (fun s => fst s <=? Z.max ay by_)
    (fun s : Z * image => let (y, img) := s in
       let! (y, img) := fillRow m ax ay bx by_ border fill (range (Z.min ax bx) (Z.max ax bx)) y img in
       let! y := chk (y + 1) in
       Ok (y, img)) (y, img) = Fuel).
  { induction fuel as [|fuel IH]; intros y img0 Y I0; rewrite while_eq; cbn [fst].
    - destruct (Z.leb_spec y (Z.max ay by_)); [reflexivity|lia].
    - destruct (Z.leb_spec y (Z.max ay by_)); [|lia].
      destruct (fillRow_ok Hh (range (Z.min ax bx) (Z.max ax bx)) y img0 I0 xs_inside) as (y' & i' & E & I' & Y').
      specialize (Y' xs_nonempty). rewrite E. cbn [bind].
      rewrite chk_Ok by (unfold is_i64, I64_MIN, I64_MAX, two63; lia). cbn [bind].
      apply IH; [lia|exact I']. }
  rewrite G; [reflexivity|auto|exact I].
Qed.

Lemma fill_row1 : ay = 1 -> by_ = 1 -> forall img, isImage w h img -> forall fuel, (0 < fuel)%nat ->
  exists img', fillRectangle fuel m (ax, ay) (bx, by_) border fill img = Ok img' /\ isImage w h img' /\
    rectangleOn m (ax, ay) (bx, by_) border fill img img'.
Proof.
  intros Ea Eb img I fuel Hf. unfold fillRectangle.
  assert (Hh : 2 <= h) by (destruct Ia as (_ & A); cbn [snd] in A; lia).
  destruct fuel as [|fuel]; [lia|]. rewrite while_eq. cbn [fst].
  destruct (Z.leb_spec (Z.min ay by_) (Z.max ay by_)); [|lia].
  destruct (fillRow_1 Ea Hh (range (Z.min ax bx) (Z.max ax bx)) (Z.min ay by_) img I xs_inside (range_nodup _ _))
    as (y' & i' & E & I' & Y' & P).
  specialize (Y' xs_nonempty). subst y'. rewrite E. cbn [bind].
  rewrite chk_Ok by (unfold is_i64, I64_MIN, I64_MAX, two63; lia). cbn [bind].
  rewrite while_eq. cbn [fst]. destruct (Z.leb_spec (1 + 1) (Z.max ay by_)); [lia|]. cbn [bind].
  exists i'. split; [reflexivity|]. split; [exact I'|]. intros x y. destruct (P x y) as (P1 & P2).
  assert (Q : In (x, y) (map (fun x => (x, 1)) (range (Z.min ax bx) (Z.max ax bx))) <->
    inBox (ax, ay) (bx, by_) (x, y)).
  { unfold inBox. cbn [fst snd]. rewrite in_map_iff. split.
    - intros (x0 & X & R). injection X as -> <-. apply range_in in R. lia.
    - intros (R1 & R2). exists x. split; [f_equal; lia|]. apply range_in. lia. }
  split; [|split].
  - intros B _. apply P1. apply Q. exact B.
  - intros B N. exfalso. apply N. unfold onBorder. unfold inBox in B. cbn [fst snd] in *. lia.
  - intros B. apply P2. intros R. apply B. apply Q. exact R.
Qed.

End Fill.

Definition red : Color := rgb 0xFF0000 255.

Lemma red_color : isColor red.
Proof. unfold isColor, byte, red. cbn. lia. Qed.

Definition blank (w h : nat) : image := repeat (repeat TRANSPARENT w) h.

Lemma transparent_color : isColor TRANSPARENT.
Proof. unfold isColor, byte. cbn. lia. Qed.

Lemma Forall_repeat : forall A (P : A -> Prop) a n, P a -> Forall P (repeat a n).
Proof. induction n; intros; cbn [repeat]; auto. Qed.

Lemma repeat_image : forall w h c, isColor c -> isImage (Z.of_nat w) (Z.of_nat h) (repeat (repeat c w) h).
Proof.
  intros w h c C. split; [rewrite repeat_length; reflexivity|]. apply Forall_repeat.
  split; [rewrite repeat_length; reflexivity|]. apply Forall_repeat. exact C.
Qed.

(* only the upper row of this square is drawn *)
Lemma fill_wrong : exists img img', isImage 2 2 img /\
  (forall fuel, (0 < fuel)%nat -> fillRectangle fuel ASSIGN (0, 0) (1, 1) red red img = Ok img') /\
  ~ rectangleOn ASSIGN (0, 0) (1, 1) red red img img'.
Proof.
  exists (blank 2 2), [repeat TRANSPARENT 2; repeat red 2].
  split; [apply (repeat_image 2 2 TRANSPARENT transparent_color)|]. split.
  - intros fuel Hf. destruct fuel as [|fuel]; [lia|]. destruct fuel; reflexivity.
  - intros R. destruct (R 0 0) as (R1 & _ & _).
    assert (B : inBox (0, 0) (1, 1) (0, 0)) by (unfold inBox; cbn; lia).
    assert (O : onBorder (0, 0) (1, 1) (0, 0)) by (unfold onBorder; cbn; lia).
    specialize (R1 B O). discriminate.
Qed.

(* drawing one pixel of the only row accesses another row *)
Lemma fill_outside : exists img, isImage 1 1 img /\
  forall fuel, (0 < fuel)%nat -> fillRectangle fuel ASSIGN (0, 0) (0, 0) red red img = UB.
Proof.
  exists (blank 1 1). split; [apply (repeat_image 1 1 TRANSPARENT transparent_color)|].
  intros fuel Hf. destruct fuel as [|fuel]; [lia|]. reflexivity.
Qed.

(* ------------------------------------------------------------ sequences of calls *)

Definition valid (img : image) : Prop :=
  exists w h, 0 <= w <= 16383 /\ 0 <= h <= maxRows /\ isImage w h img.

Lemma maxRows_small : maxRows < 2 ^ 60.
Proof. reflexivity. Qed.

Lemma clear_valid : forall w h fill img, isColor fill -> clear w h fill = Ok img ->
  0 <= w <= 16383 /\ 0 <= h <= maxRows /\ isImage w h img /\
  (forall x y, inside w h (x, y) -> at_ img x y = Some fill).
Proof.
  intros w h fill img C E. unfold clear in E.
  destruct (Z.leb_spec w 16383); cbn [negb] in E; [|discriminate].
  destruct (Z.ltb_spec w 0); cbn [orb] in E; [discriminate|].
  destruct (Z.ltb_spec h 0); cbn [orb] in E; [discriminate|].
  destruct (Z.ltb_spec maxRows h); [discriminate|].
  assert (Ei : img = repeat (repeat fill (Z.to_nat w)) (Z.to_nat h)) by congruence.
  split; [lia|]. split; [lia|].
  pose proof (repeat_image (Z.to_nat w) (Z.to_nat h) fill C) as R. rewrite !Z2Nat.id in R by lia.
  rewrite <- Ei in R. split; [exact R|].
  intros x y P. destruct (proj1 (at_inside w h img x y R) P) as (c & Ec). rewrite Ec. f_equal.
  unfold at_ in Ec. destruct ((x <? 0) || (y <? 0)); [discriminate|]. rewrite Ei in Ec.
  destruct (nth_error (repeat (repeat fill (Z.to_nat w)) (Z.to_nat h)) (Z.to_nat y)) as [row|] eqn:Er; [|discriminate].
  apply nth_error_In, repeat_spec in Er. subst row. apply nth_error_In, repeat_spec in Ec. exact Ec.
Qed.

Lemma runOp_valid : forall fuel img o img', valid img -> opColors o -> runOp fuel img o = Ok img' -> valid img'.
Proof.
  intros fuel img o img' (w & h & Hw & Hh & I) C E. pose proof maxRows_small as Mr.
  destruct o as [w' h' c|x y c|m a b border fill|m a fill|m a b fill]; cbn [runOp opColors] in *.
  - destruct (clear_valid _ _ _ _ C E) as (A & B & D & _). exists w', h'. auto.
  - exists w, h. split; [exact Hw|]. split; [exact Hh|].
    pose proof (setPx_inv _ _ _ _ _ _ _ I E) as P.
    destruct (setPx_at img x y c w h I C P) as (i2 & E2 & I2 & _). congruence.
  - destruct C as (Cb & Cf). exists w, h. split; [exact Hw|]. split; [exact Hh|].
    destruct a as [ax ay]. destruct b as [bx by_]. unfold fillRectangle in E.
    match type of E with bind ?W _ = _ => destruct W as [[y i2]| | |] eqn:Ew; cbn [bind] in E; try discriminate end.
    injection E as <-.
    apply (while_partial _ (fun s : Z * image => isImage w h (snd s))) in Ew; [apply Ew| |exact I].
    intros [y1 i1] [y3 i3] I1 _ Eb. cbn [snd] in *.
    destruct (fillRow m ax ay bx by_ border fill _ y1 i1) as [[y4 i4]| | |] eqn:Er; cbn [bind] in Eb; try discriminate.
    apply fillRow_inv with (w := w) (h := h) in Er; [|assumption..].
    destruct (chk (y4 + 1)); cbn [bind] in Eb; try discriminate. injection Eb as _ <-. exact Er.
  - exists w, h. split; [exact Hw|]. split; [exact Hh|]. destruct a as [ax ay].
    assert (P : inside w h (ax, ay)).
    { unfold floodFill in E. destruct (getPx img ax ay) as [old| | |]; cbn [bind] in E; try discriminate.
      destruct (paint m fill img ax ay) as [i1| | |] eqn:Ep; cbn [bind] in E; try discriminate.
      apply paint_inv with (w := w) (h := h) in Ep; [apply Ep|exact I|exact C]. }
    destruct (floodFill_ok w h img m ax ay fill I) as (old & i2 & _ & E2 & I2 & _); try assumption.
    { unfold two63. lia. } { unfold two63. lia. }
    congruence.
  - exists w, h. split; [exact Hw|]. split; [exact Hh|]. destruct a as [ax ay]. destruct b as [bx by_].
    unfold drawLine in E.
    repeat match type of E with
    | bind (chk ?z) _ = _ => destruct (chk z); cbn [bind] in E; try discriminate
    end.
    destruct (paint m fill img ax ay) as [i1| | |] eqn:Ep; cbn [bind] in E; try discriminate.
    apply paint_inv with (w := w) (h := h) in Ep; [|exact I|exact C]. destruct Ep as (I1 & _).
    match type of E with bind ?W _ = _ => destruct W as [[[e p] i2]| | |] eqn:Ew; cbn [bind] in E; try discriminate end.
    injection E as <-.
    apply (while_partial _ (fun s : Z * (Z * Z) * image => isImage w h (snd s))) in Ew; [apply Ew| |exact I1].
    intros [[e1 [x1 y1]] i3] [[e3 p3] i4] I3 _ Eb. cbn [snd] in *. unfold lineStep in Eb.
    destruct (chk (2 * e1)) as [e2| | |]; cbn [bind] in Eb; try discriminate.
    match type of Eb with bind ?W _ = _ => destruct W as [[? ?]| | |]; cbn [bind] in Eb; try discriminate end.
    match type of Eb with bind ?W _ = _ => destruct W as [[? ?]| | |]; cbn [bind] in Eb; try discriminate end.
    match type of Eb with bind ?W _ = _ => destruct W as [i5| | |] eqn:Ep; cbn [bind] in Eb; try discriminate end.
    apply paint_inv with (w := w) (h := h) in Ep; [|exact I3|exact C]. injection Eb as _ _ <-. apply Ep.
Qed.

Lemma runOps_valid : forall fuel os img img', valid img -> Forall opColors os ->
  runOps fuel img os = Ok img' -> valid img'.
Proof.
  intros fuel. induction os as [|o os IH]; intros img img' V F E; cbn [runOps] in E.
  - injection E as <-. exact V.
  - inversion_clear F as [|? ? C F']. destruct (runOp fuel img o) as [i1| | |] eqn:E1; cbn [bind] in E; try discriminate.
    apply (IH i1 img'); [|exact F'|exact E]. apply (runOp_valid fuel img o i1 V C E1).
Qed.

Lemma empty_valid : valid [].
Proof.
  exists 0, 0. split; [lia|]. split; [split; [lia|discriminate]|]. split; [reflexivity|constructor].
Qed.

Lemma width_image : forall w h img, isImage w h img -> 0 < h -> width img = w.
Proof.
  intros w h img (L & F) H. destruct img as [|r img]; [cbn in L; lia|]. inversion_clear F as [|? ? Hr _]. apply Hr.
Qed.

Lemma write_decodes : forall fuel os img, Forall opColors os -> runOps fuel [] os = Ok img ->
  0 < width img -> 6 + height img * (4 * width img + 6) < 2 ^ 31 ->
  exists file, write true img = Some file /\
    decode file = Some (width img, height img, rev (map (map pixelOf) img)).
Proof.
  intros fuel os img F E Hw Hs.
  destruct (runOps_valid fuel os [] img empty_valid F E) as (w & h & Bw & Bh & I).
  assert (Hh : 0 < h).
  { destruct I as (L & _). destruct img; [cbn in Hw; lia|]. cbn [length] in L. lia. }
  pose proof (width_image w h img I Hh) as Ew. assert (Eh : height img = h) by apply I.
  rewrite Ew, Eh in *. unfold write. rewrite Ew. destruct (Z.eqb_spec w 0); [lia|]. cbn [negb orb].
  eexists. split; [reflexivity|]. apply decode_writePNG; [lia|exact Hh|exact I|exact Hs].
Qed.

Lemma write_nothing : forall fileName img, fileName = false \/ width img = 0 -> write fileName img = None.
Proof.
  intros fileName img [->|E]; [reflexivity|]. unfold write. rewrite E. cbn [Z.eqb]. rewrite orb_true_r. reflexivity.
Qed.

(* an image one cannot write: the chunk gets longer than the format allows *)
Lemma too_large : exists w h fill img, isColor fill /\ clear w h fill = Ok img /\ 0 < width img /\
  decode (writePNG img) = None.
Proof.
  exists 16383, 32768, red, (repeat (repeat red (Z.to_nat 16383)) (Z.to_nat 32768)).
  split; [exact red_color|]. split; [reflexivity|].
  pose proof (repeat_image (Z.to_nat 16383) (Z.to_nat 32768) red red_color) as R.
  rewrite !Z2Nat.id in R by lia. split.
  - rewrite (width_image 16383 32768); [lia|exact R|lia].
  - apply (decode_too_large _ 16383 32768); [lia|lia|exact R|lia].
Qed.

(* ------------------------------------------------------------ colours *)

Lemma add_saturates : forall a b, 0 <= a -> 0 <= b -> clampColor (a + b) = Z.min 255 (a + b).
Proof.
  intros a b A B. unfold clampColor. destruct (Z.ltb_spec (a + b) 0); [lia|]. destruct (Z.ltb_spec 255 (a + b)); lia.
Qed.

Lemma sub_saturates : forall a b, a <= 255 -> 0 <= b -> clampColor (a - b) = Z.max 0 (a - b).
Proof.
  intros a b A B. unfold clampColor. destruct (Z.ltb_spec (a - b) 0); [lia|]. destruct (Z.ltb_spec 255 (a - b)); lia.
Qed.

Lemma mix_between : forall u l p q, 0 <= u -> 0 <= l -> 0 < p -> 0 <= q -> u <= 255 -> l <= 255 ->
  let r := clampColor (Z.quot (u * p + l * q) (p + q)) in Z.min u l <= r <= Z.max u l.
Proof.
  intros u l p q Hu Hl Hp Hq Bu Bl r. unfold r.
  assert (N : 0 <= u * p + l * q) by nia.
  rewrite Z.quot_div_nonneg by lia.
  assert (M : exists d, u * p + l * q = d /\ Z.min u l * (p + q) <= d <= Z.max u l * (p + q)).
  { exists (u * p + l * q). split; [reflexivity|]. clear - Hp Hq.
    assert (Z.min u l * p <= u * p <= Z.max u l * p) by (split; apply Z.mul_le_mono_nonneg_r; lia).
    assert (Z.min u l * q <= l * q <= Z.max u l * q) by (split; apply Z.mul_le_mono_nonneg_r; lia).
    rewrite !Z.mul_add_distr_l. lia. }
  destruct M as (d & -> & M1 & M2). clear N.
  assert (L : Z.min u l <= d / (p + q)) by (apply Z.div_le_lower_bound; [lia|]; rewrite Z.mul_comm; exact M1).
  assert (U : d / (p + q) <= Z.max u l) by (apply Z.div_le_upper_bound; [lia|]; rewrite Z.mul_comm; exact M2).
  clear M1 M2. generalize dependent (d / (p + q)). intros e L U.
  unfold clampColor. destruct (Z.ltb_spec e 0); [lia|]. destruct (Z.ltb_spec 255 e); lia.
Qed.

Lemma blend_ok : forall lower upper, isColor lower -> isColor upper ->
  let r := blend lower upper in
  isColor r /\ Z.max (ca lower) (ca upper) <= ca r /\
  (ca lower = 255 -> ca r = 255) /\
  Z.min (cr lower) (cr upper) <= cr r <= Z.max (cr lower) (cr upper) /\
  Z.min (cg lower) (cg upper) <= cg r <= Z.max (cg lower) (cg upper) /\
  Z.min (cb lower) (cb upper) <= cb r <= Z.max (cb lower) (cb upper).
Proof.
  intros lower upper Cl Cu r. unfold r.
  pose proof (combine_isColor BLEND lower upper Cl Cu) as C. cbn [combine] in C.
  split; [exact C|]. destruct Cl as (R & G & B & A). destruct Cu as (R' & G' & B' & A'). unfold byte in *.
  unfold blend. destruct (Z.eqb_spec (ca upper) 255); [lia|]. destruct (Z.eqb_spec (ca upper) 0); [lia|].
  set (q := Z.quot (ca lower * (255 - ca upper)) 255).
  assert (Q : 0 <= q /\ q = ca lower * (255 - ca upper) / 255).
  { assert (0 <= ca lower * (255 - ca upper)) by nia. unfold q. rewrite Z.quot_div_nonneg by lia.
    split; [apply Z.div_pos; lia|reflexivity]. }
  destruct Q as (Q0 & Q).
  assert (Lo : ca lower - ca upper <= q).
  { rewrite Q. apply Z.div_le_lower_bound; [lia|]. nia. }
  assert (Up : q <= 255 - ca upper).
  { rewrite Q. apply Z.div_le_upper_bound; [lia|]. nia. }
  assert (Ar : clampColor (ca upper + q) = ca upper + q).
  { unfold clampColor. destruct (Z.ltb_spec (ca upper + q) 0); [lia|]. destruct (Z.ltb_spec 255 (ca upper + q)); lia. }
  cbn [cr cg cb ca]. rewrite Ar. split; [lia|]. split.
  { intros E. rewrite Q, E. rewrite Z.mul_comm, Z.div_mul by lia. lia. }
  rewrite (Z.min_comm (cr lower)), (Z.max_comm (cr lower)), (Z.min_comm (cg lower)), (Z.max_comm (cg lower)),
    (Z.min_comm (cb lower)), (Z.max_comm (cb lower)).
  split; [|split]; apply mix_between; lia.
Qed.

Lemma saturating : forall a b, isColor a -> isColor b ->
  addColor a b = {| cr := Z.min 255 (cr a + cr b); cg := Z.min 255 (cg a + cg b);
                    cb := Z.min 255 (cb a + cb b); ca := Z.min 255 (ca a + ca b) |} /\
  subColor a b = {| cr := Z.max 0 (cr a - cr b); cg := Z.max 0 (cg a - cg b);
                    cb := Z.max 0 (cb a - cb b); ca := Z.max 0 (ca a - ca b) |}.
Proof.
  intros a b (A1 & A2 & A3 & A4) (B1 & B2 & B3 & B4). unfold byte in *. unfold addColor, subColor.
  rewrite !add_saturates, !sub_saturates by lia. split; reflexivity.
Qed.

(* the components of a colour given as 0xRRGGBB *)
Lemma rgb_ok : forall r g b a, byte r -> byte g -> byte b -> byte a ->
  rgb (r * 65536 + g * 256 + b) a = {| cr := r; cg := g; cb := b; ca := a |}.
Proof.
  intros r g b a R G B A. unfold rgb, byte in *.
  assert (L : forall x, Z.land x 255 = x mod 256) by (intros x; change 255 with (Z.ones 8); apply Z.land_ones; lia).
  rewrite !L, !Z.shiftr_div_pow2 by lia. change (2 ^ 16) with 65536. change (2 ^ 8) with 256.
  f_equal.
  - replace ((r * 65536 + g * 256 + b) / 65536) with r; [apply Z.mod_small; lia|].
    apply Z.div_unique with (r := g * 256 + b); lia.
  - replace ((r * 65536 + g * 256 + b) / 256) with (r * 256 + g); [|apply Z.div_unique with (r := b); lia].
    symmetry. apply Z.mod_unique with (q := r); lia.
  - symmetry. apply Z.mod_unique with (q := r * 256 + g); lia.
Qed.
