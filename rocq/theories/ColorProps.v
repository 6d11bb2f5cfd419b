(* C85: colours. *)
From Verif Require Import Base FloatModel FloatSpec RealModel RealSpec PngModel PngSpec ColorModel ColorSpec ColorProofs2.
From Coq Require Import QArith Qabs SpecFloat.
Open Scope Z_scope.

(* f * c is a colour for every factor, and if f is a number that is not huge each part, alpha
   included, is the product with f, saturated and rounded. *)
Theorem C85_scale : forall unspecified f c, isColor c ->
  isColor (scaleColor unspecified f c) /\
  (number f -> (Qabs (val f) <= two 55)%Q ->
   parts (fun x z => rounded z (saturated (inject_Z x * val f))) c (scaleColor unspecified f c)).
Proof. exact (fun u f c C => conj (scaleColor_byte u f c) (scale_any u f c C)). Qed.
Print Assumptions C85_scale.
Example C85_ex_scale : let u := fun _ => 7 in
  scaleColor u (ofZ 3) (rgb 0x205080 1) = rgb 0x60F0FF 3 /\ scaleColor u (ofZ (-3)) (rgb 0x205080 1) = TRANSPARENT /\
  scaleColor u (lit 1 3) (rgb 0x010203 4) = rgb 0x000101 1 /\ scaleColor u S754_nan (rgb 0x010203 4) = rgb 0x070707 7.
Proof. vm_compute. repeat split. Qed.

(* With a factor of [0, 1] no part grows; 1 keeps the colour and 0 gives TRANSPARENT. *)
Theorem C85_fade : forall unspecified f c, isColor c -> number f -> (0 <= val f <= 1)%Q ->
  parts (fun x z => rounded z (inject_Z x * val f) /\ 0 <= z <= x) c (scaleColor unspecified f c) /\
  ((val f == 1)%Q -> scaleColor unspecified f c = c) /\ ((val f == 0)%Q -> scaleColor unspecified f c = TRANSPARENT).
Proof. exact scale_unit. Qed.
Print Assumptions C85_fade.
Example C85_ex_fade : let u := fun _ => 0 in
  scaleColor u (lit 1 2) (rgb 0xFF8001 255) = rgb 0x804001 128 /\ scaleColor u rone (rgb 0xFF8001 9) = rgb 0xFF8001 9 /\ scaleColor u rzero (rgb 0xFF8001 9) = TRANSPARENT.
Proof. vm_compute. repeat split. Qed.

(* lerp stops the program exactly if f is no number of [0, 1]. Otherwise each part is a*f + b*(1-f)
   up to the rounding of the two summands; 1 gives the first and 0 the second colour. *)
Theorem C85_lerp : forall unspecified a b f, isColor a -> isColor b -> realOk f ->
  (lerp unspecified a b f <> Throw <-> number f /\ (0 <= val f <= 1)%Q) /\
  (number f -> (0 <= val f <= 1)%Q -> exists r, lerp unspecified a b f = Ok r /\ isColor r /\
     parts3 (fun x y z => interpolated z (mix x y (val f))) a b r /\
     ((val f == 1)%Q -> r = a) /\ ((val f == 0)%Q -> r = b)).
Proof. exact lerp_ok. Qed.
Print Assumptions C85_lerp.
Example C85_ex_lerp : let u := fun _ => 0 in let a := rgb 0xFF0010 255 in let b := rgb 0x00FF20 128 in
  lerp u a b (lit 1 4) = Ok (rgb 0x40BF1C 160) /\ lerp u a b rone = Ok a /\ lerp u a b rzero = Ok b /\
  lerp u a b (lit 3 2) = Throw /\ lerp u a b S754_nan = Throw /\ lerp u a b (lit (-1) 100) = Throw.
Proof. vm_compute. repeat split. Qed.

(* The same for the svg visualizer, whose colours have no alpha. *)
Theorem C85_svg : forall unspecified a b f, isRgb a -> isRgb b -> realOk f ->
  isRgb (scaleRgb unspecified f a) /\
  (number f -> (Qabs (val f) <= two 55)%Q -> rparts (fun x z => rounded z (saturated (inject_Z x * val f))) a (scaleRgb unspecified f a)) /\
  (number f -> (val f == 1)%Q -> scaleRgb unspecified f a = a) /\
  (lerpRgb unspecified a b f <> Throw <-> number f /\ (0 <= val f <= 1)%Q) /\
  (number f -> (0 <= val f <= 1)%Q -> exists r, lerpRgb unspecified a b f = Ok r /\ isRgb r /\
     rparts3 (fun x y z => interpolated z (mix x y (val f))) a b r /\
     ((val f == 1)%Q -> r = a) /\ ((val f == 0)%Q -> r = b)).
Proof. exact svg_ok. Qed.
Print Assumptions C85_svg.
Example C85_ex_svg : let u := fun _ => 0 in
  lerpRgb u (ofRgb 0xFF0010) (ofGray 0x20) (lit 1 2) = Ok (ofRgb 0x901018) /\ scaleRgb u (lit 1 2) (ofRgb 0xFF0010) = ofRgb 0x800008.
Proof. vm_compute. repeat split. Qed.

(* A colour is printed as the seven characters that CSS reads as this colour; different colours
   are printed differently. *)
Theorem C85_text : forall c, isRgb c -> cssColor (rgbText c) = Some (sr c, sg c, sb c) /\
  (forall d, isRgb d -> rgbText c = rgbText d -> c = d).
Proof. exact (fun c C => conj (text_ok c C) (fun d D => text_injective c d C D)). Qed.
Print Assumptions C85_text.
Example C85_ex_text : rgbText (ofRgb 0x0AF01B) = [35; 48; 97; 102; 48; 49; 98] (* #0af01b *).
Proof. vm_compute. reflexivity. Qed.

(* Constructor, operator[], ==, !=, + and - of the colours of the svg visualizer. *)
Theorem C85_parts : forall a b : Rgb,
  (forall r g b, byte r -> byte g -> byte b -> ofRgb (r * 65536 + g * 256 + b) = mkRgb r g b) /\
  (forall i, (rgbGet a i = Throw <-> ~ 0 <= i <= 2) /\
     (forall v j, 0 <= i <= 2 -> exists d, rgbSet a i v = Ok d /\ rgbGet d j = if j =? i then Ok v else rgbGet a j)) /\
  (rgbEq a b = true <-> a = b) /\ rgbNe a b = negb (rgbEq a b) /\
  (isRgb a -> isRgb b ->
   addRgb a b = mkRgb (Z.min 255 (sr a + sr b)) (Z.min 255 (sg a + sg b)) (Z.min 255 (sb a + sb b)) /\
   subRgb a b = mkRgb (Z.max 0 (sr a - sr b)) (Z.max 0 (sg a - sg b)) (Z.max 0 (sb a - sb b))).
Proof. exact (fun a b => conj rgb_parts (conj (rgb_index a) (conj (rgb_equal a b) (conj (rgb_notEqual a b) (rgb_saturating a b))))). Qed.
Print Assumptions C85_parts.
Example C85_ex_parts : let c := ofRgb 0x10F030 in
  rgbGet c 1 = Ok 0xF0 /\ rgbSet c 2 5 = Ok (ofRgb 0x10F005) /\ rgbGet c 3 = Throw /\ addRgb c c = ofRgb 0x20FF60 /\ subRgb c (ofGray 0x20) = ofRgb 0x00D010.
Proof. vm_compute. repeat split. Qed.

(* Both summands of lerp are rounded, halves upwards: between a colour and itself lies another colour. *)
Theorem C85_lerp_self_refuted : exists c f, isColor c /\ number f /\ (0 <= val f <= 1)%Q /\ forall unspecified, lerp unspecified c c f = Ok (rgb 0x020202 255) /\ c = rgb 0x010101 255.
Proof. exists (rgb 0x010101 255), (lit 1 2). repeat split; try (vm_compute; discriminate); vm_compute; reflexivity. Qed.
Print Assumptions C85_lerp_self_refuted.

(* "fades the color to black": an opaque colour does not stay opaque. *)
Theorem C85_fade_opaque_refuted : exists c f, isColor c /\ ca c = 255 /\ number f /\ (0 <= val f <= 1)%Q /\ forall unspecified, ca (scaleColor unspecified f c) = 128.
Proof. exists (rgb 0xFFFFFF 255), (lit 1 2). repeat split; try (vm_compute; discriminate); vm_compute; reflexivity. Qed.
Print Assumptions C85_fade_opaque_refuted.

(* A product that is no long long is converted to an unspecified value: with the one of the x87
   instruction, -2^63, a huge factor makes a colour black instead of white. *)
Theorem C85_scale_huge_refuted : exists c f, isColor c /\ number f /\ (1 <= val f)%Q /\ cr c = 255 /\ cr (scaleColor (fun _ => - 2 ^ 63) f c) = 0.
Proof. exists (rgb 0xFFFFFF 255), (ofZ (2 ^ 60)). repeat split; try (vm_compute; discriminate); vm_compute; reflexivity. Qed.
Print Assumptions C85_scale_huge_refuted.
