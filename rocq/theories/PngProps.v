(* The PNG images of visualizer_png.h. *)
From Coq Require Import ZArith List Lia.
From Verif Require Import Base PngModel PngSpec PngProofs PngProofs2 PngProofs3 PngProofs4 PngProofs5.
Import ListNotations.
Open Scope Z_scope.

(* C45: after any sequence of drawing calls that returns, an image of at least one
   pixel is written as a file that a PNG decoder accepts and turns into the same
   pixels; the first row of the file is the last row of the image. The limit on the
   size keeps the one data chunk of the file below the 2^31 bytes the format allows. *)
Theorem C45_decodes : forall fuel os img, Forall opColors os -> runOps fuel [] os = Ok img ->
  0 < width img -> 6 + height img * (4 * width img + 6) < 2 ^ 31 ->
  exists file, write true img = Some file /\
    decode file = Some (width img, height img, rev (map (map pixelOf) img)).
Proof. exact write_decodes. Qed.
Print Assumptions C45_decodes.
Definition demo : list op :=
  [Clear 5 4 (rgb 0x102030 200); Line ASSIGN (0, 0) (4, 2) (rgb 0xFF0000 255);
   Flood BLEND (0, 3) (rgb 0x00FF00 100); Put 4 3 (rgb 0xABCDEF 7)].
Example C45_ex_decodes : Forall opColors demo /\
  match runOps 1 [] demo with
  | Ok img => width img = 5 /\ height img = 4 /\
      option_map (fun d => nth 3 (nth 0 (snd d) []) (0, 0, 0, 0)) (decode (writePNG img)) = Some (8, 132, 26, 221)
      /\ option_map (fun d => nth 4 (nth 0 (snd d) []) (0, 0, 0, 0)) (decode (writePNG img)) = Some (171, 205, 239, 7)
  | _ => False
  end.
Proof.
  split; [|vm_compute; auto].
  unfold demo. repeat (apply Forall_cons; [unfold opColors, isColor, byte; cbn; lia|]). constructor.
Qed.

(* The same for every rectangular image. *)
Theorem C45_image_decodes : forall colors w h, 0 < w <= 16383 -> 0 < h -> isImage w h colors ->
  6 + h * (4 * w + 6) < 2 ^ 31 ->
  decode (writePNG colors) = Some (w, h, rev (map (map pixelOf) colors)).
Proof. exact decode_writePNG. Qed.
Print Assumptions C45_image_decodes.
Example C45_ex_image_decodes :
  decode (writePNG [[rgb 0 1; rgb 0xFFFFFF 0]; [rgb 0x010203 4; TRANSPARENT]]) =
    Some (2, 2, [[(1, 2, 3, 4); (0, 0, 0, 0)]; [(0, 0, 0, 1); (255, 255, 255, 0)]]).
Proof. vm_compute. reflexivity. Qed.

(* Larger images are written as files no decoder accepts, although clear allows them. *)
Theorem C45_all_sizes_refuted : exists w h fill img, isColor fill /\ clear w h fill = Ok img /\
  0 < width img /\ decode (writePNG img) = None.
Proof. exact too_large. Qed.
Print Assumptions C45_all_sizes_refuted.

(* Nothing is written for an image without a name or without pixels. *)
Theorem C45_nothing : forall fileName img, fileName = false \/ width img = 0 -> write fileName img = None.
Proof. exact write_nothing. Qed.
Print Assumptions C45_nothing.
Example C45_ex_nothing : write true [] = None /\ write false [[TRANSPARENT]] = None.
Proof. split; reflexivity. Qed.

(* C46: floodFill returns and changes exactly the pixels connected to the given one
   through 4-neighbours of its colour, each of them by the blend mode, once. *)
Theorem C46_floodFill : forall w h img m ax ay fill, isImage w h img ->
  0 <= w < two63 - 1 -> 0 <= h < two63 - 1 -> isColor fill -> inside w h (ax, ay) ->
  exists old img', at_ img ax ay = Some old /\ floodFill m (ax, ay) fill img = Ok img' /\
    isImage w h img' /\
    forall x y, (connected img old (ax, ay) (x, y) -> at_ img' x y = Some (combine m old fill)) /\
                (~ connected img old (ax, ay) (x, y) -> at_ img' x y = at_ img x y).
Proof. exact floodFill_ok. Qed.
Print Assumptions C46_floodFill.
Example C46_ex_floodFill :
  let o := rgb 0 255 in let x := rgb 0xFF 255 in let n := rgb 0x0A0A0A 0 in let y := rgb 0x0A0A0A 255 in
  floodFill ADD (0, 0) n [[o; x; o]; [o; o; x]; [x; o; o]] = Ok [[y; x; o]; [y; y; x]; [x; y; y]].
Proof. vm_compute. reflexivity. Qed.

(* C63: with a corner in row 2 or above fillRectangle never returns: whatever the
   number of iterations allowed, it does not suffice. (The condition in the loop
   assigns to the loop variable.) *)
Theorem C63_returns_refuted : forall m ax ay bx by_ border fill w h,
  isColor border -> isColor fill -> inside w h (ax, ay) -> inside w h (bx, by_) ->
  2 <= Z.max ay by_ -> forall img, isImage w h img -> forall fuel,
  fillRectangle fuel m (ax, ay) (bx, by_) border fill img = Fuel.
Proof. exact fill_diverges. Qed.
Print Assumptions C63_returns_refuted.
Example C63_ex_returns : isImage 3 3 (blank 3 3) /\ inside 3 3 (0, 0) /\ inside 3 3 (2, 2) /\
  fillRectangle 100 ASSIGN (0, 0) (2, 2) red red (blank 3 3) = Fuel.
Proof.
  split; [apply (repeat_image 3 3 TRANSPARENT transparent_color)|]. unfold inside. cbn [fst snd].
  split; [lia|]. split; [lia|]. vm_compute. reflexivity.
Qed.

(* Below that it may draw in the wrong row, *)
Theorem C63_draws_refuted : exists img img', isImage 2 2 img /\
  (forall fuel, (0 < fuel)%nat -> fillRectangle fuel ASSIGN (0, 0) (1, 1) red red img = Ok img') /\
  ~ rectangleOn ASSIGN (0, 0) (1, 1) red red img img'.
Proof. exact fill_wrong. Qed.
Print Assumptions C63_draws_refuted.

(* or outside of the image. *)
Theorem C63_inside_refuted : exists img, isImage 1 1 img /\
  forall fuel, (0 < fuel)%nat -> fillRectangle fuel ASSIGN (0, 0) (0, 0) red red img = UB.
Proof. exact fill_outside. Qed.
Print Assumptions C63_inside_refuted.

(* Rectangles in row 1 are drawn as they should. *)
Theorem C63_row1 : forall m ax ay bx by_ border fill w h, isColor border ->
  inside w h (ax, ay) -> inside w h (bx, by_) -> ay = 1 -> by_ = 1 ->
  forall img, isImage w h img -> forall fuel, (0 < fuel)%nat ->
  exists img', fillRectangle fuel m (ax, ay) (bx, by_) border fill img = Ok img' /\ isImage w h img' /\
    rectangleOn m (ax, ay) (bx, by_) border fill img img'.
Proof. exact fill_row1. Qed.
Print Assumptions C63_row1.
Example C63_ex_row1 : fillRectangle 1 ASSIGN (2, 1) (1, 1) red TRANSPARENT (blank 4 2) =
  Ok [repeat TRANSPARENT 4; [TRANSPARENT; red; red; TRANSPARENT]].
Proof. reflexivity. Qed.

(* C64: drawLine returns, and paints once each pixel of a line from a to b: one pixel
   per column (or row, for steep lines), consecutive ones touching, none further than
   half a pixel from the segment, none outside of its bounding box. *)
Theorem C64_drawLine : forall w h img m a b fill, isImage w h img ->
  0 <= w < 2 ^ 60 -> 0 <= h < 2 ^ 60 -> isColor fill -> inside w h a -> inside w h b ->
  exists path img', drawLine m a b fill img = Ok img' /\ isImage w h img' /\ isLine a b path /\
    paintedOn m fill (fun p => In p path) img img'.
Proof. exact drawLine_ok. Qed.
Print Assumptions C64_drawLine.
Example C64_ex_drawLine :
  let o := TRANSPARENT in
  drawLine ASSIGN (4, 0) (0, 2) red (blank 5 3) = Ok [[o; o; o; o; red]; [o; o; red; red; o]; [red; red; o; o; o]]
  /\ isLine (4, 0) (0, 2) [(4, 0); (3, 1); (2, 1); (1, 2); (0, 2)].
Proof.
  split; [vm_compute; reflexivity|]. unfold isLine, near, inBox. cbn [fst snd hd_error last touching].
  repeat split; try reflexivity; try (repeat constructor; cbn; intuition congruence);
    repeat (apply Forall_cons; [cbn; lia|]); constructor.
Qed.

(* C65: adding and subtracting colours saturates in every channel; *)
Theorem C65_saturating : forall a b, isColor a -> isColor b ->
  addColor a b = {| cr := Z.min 255 (cr a + cr b); cg := Z.min 255 (cg a + cg b);
                    cb := Z.min 255 (cb a + cb b); ca := Z.min 255 (ca a + ca b) |} /\
  subColor a b = {| cr := Z.max 0 (cr a - cr b); cg := Z.max 0 (cg a - cg b);
                    cb := Z.max 0 (cb a - cb b); ca := Z.max 0 (ca a - ca b) |}.
Proof. exact saturating. Qed.
Print Assumptions C65_saturating.
Example C65_ex_saturating : addColor (rgb 0xF01020 255) (rgb 0x202020 1) = rgb 0xFF3040 255 /\
  subColor (rgb 0xF01020 255) (rgb 0x202020 1) = rgb 0xD00000 254.
Proof. split; reflexivity. Qed.

(* blending gives a colour whose channels lie between those of the two colours, at
   least as opaque as both; and something opaque stays opaque. *)
Theorem C65_blend : forall lower upper, isColor lower -> isColor upper ->
  let r := blend lower upper in
  isColor r /\ Z.max (ca lower) (ca upper) <= ca r /\
  (ca lower = 255 -> ca r = 255) /\
  Z.min (cr lower) (cr upper) <= cr r <= Z.max (cr lower) (cr upper) /\
  Z.min (cg lower) (cg upper) <= cg r <= Z.max (cg lower) (cg upper) /\
  Z.min (cb lower) (cb upper) <= cb r <= Z.max (cb lower) (cb upper).
Proof. exact blend_ok. Qed.
Print Assumptions C65_blend.
Example C65_ex_blend : blend (rgb 0x102030 200) (rgb 0x00FF00 100) = rgb 0x08841A 221.
Proof. vm_compute. reflexivity. Qed.

(* Color(0xRRGGBB, a) has the channels one expects. *)
Theorem C65_rgb : forall r g b a, byte r -> byte g -> byte b -> byte a ->
  rgb (r * 65536 + g * 256 + b) a = {| cr := r; cg := g; cb := b; ca := a |}.
Proof. exact rgb_ok. Qed.
Print Assumptions C65_rgb.
Example C65_ex_rgb : rgb 0x123456 7 = {| cr := 0x12; cg := 0x34; cb := 0x56; ca := 7 |}.
Proof. reflexivity. Qed.
