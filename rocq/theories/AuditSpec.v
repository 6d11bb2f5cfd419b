(* The composition of two colours in exact arithmetic: what lies below shows through as far as the upper one is transparent. *)
From Verif Require Import Base PngModel.
Open Scope Z_scope.

(* 255 times the exact alpha of the composition *)
Definition cover (lower upper : Color) : Z := 255 * ca upper + ca lower * (255 - ca upper).
(* the exact channel of the composition, times cover *)
Definition mixed (ch : Color -> Z) (lower upper : Color) : Z := 255 * (ch upper * ca upper) + ch lower * (ca lower * (255 - ca upper)).
Definition channel (ch : Color -> Z) : Prop := ch = cr \/ ch = cg \/ ch = cb.
