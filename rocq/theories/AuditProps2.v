(* C44, C88: the engine made from key and counter, and the colours of the example. *)
From Coq Require Import String.
From Verif Require Import Base PngModel PngSpec AesModel AesSpec AesProps VisModel VisSpec VisProps AuditProofs4.
From Coq Require Import ZArith List.
Import ListNotations.
Open Scope Z_scope.

Theorem C44_key : forall k v n, bytes 32 k -> bytes 16 v ->
  key (rngOf k v) = k /\ value (block n (rngOf k v)) = (value v + Z.of_N n + 1) mod 2 ^ 128.
Proof. exact block_of. Qed.
Print Assumptions C44_key.

(* black lines on white, transparent from the corner on *)
Theorem C88_png_colours : forall s w h ls, pngInput s w h ls ->
  exists img img', pngLinesAndFlood (Some s) = Ok (w, h, img') /\
    linesOn (w + 2) (h + 2) {| cr := 255; cg := 255; cb := 255; ca := 255 |} {| cr := 0; cg := 0; cb := 0; ca := 255 |} ls img /\
    cornerFilled (w + 2) (h + 2) {| cr := 0; cg := 0; cb := 0; ca := 0 |} img img'.
Proof. exact C88_png_lines. Qed.
Print Assumptions C88_png_colours.
