(* C46, C64: points outside of the image. *)
From Coq Require Import ZArith List.
From Verif Require Import Base PngModel PngSpec PngEndsProofs.
Import ListNotations.
Local Open Scope Z_scope.

Definition WHITE : Color := rgb 0xFFFFFF 255.
Definition BLACK : Color := rgb 0 255.
(* there is no clipping: drawLine returns only if both ends are pixels of the image *)
Theorem C64_drawLine_ends : forall w h img m a b fill img', isImage w h img -> isColor fill ->
  drawLine m a b fill img = Ok img' -> inside w h a /\ inside w h b.
Proof. exact drawLine_ends. Qed.
Print Assumptions C64_drawLine_ends.
Example C64_ex_ends : let img := [repeat TRANSPARENT 4; repeat TRANSPARENT 4] in
  drawLine ASSIGN (0, 0) (4, 1) WHITE img = UB /\ drawLine ASSIGN (0, -1) (3, 1) WHITE img = UB /\
  drawLine ASSIGN (0, 0) (3, 1) WHITE img = Ok [[WHITE; WHITE; TRANSPARENT; TRANSPARENT]; [TRANSPARENT; TRANSPARENT; WHITE; WHITE]].
Proof. vm_compute. repeat split; reflexivity. Qed.
(* floodFill reads out of bounds if it starts outside *)
Theorem C46_floodFill_outside : forall w h img m a fill, isImage w h img -> isColor fill -> ~ inside w h a -> floodFill m a fill img = UB.
Proof. exact floodFill_outside. Qed.
Print Assumptions C46_floodFill_outside.
Example C46_ex_outside : isImage 2 1 [[BLACK; WHITE]] /\ ~ inside 2 1 (0, 1) /\ floodFill ASSIGN (0, 1) WHITE [[BLACK; WHITE]] = UB /\ floodFill ASSIGN (0, 0) WHITE [[BLACK; WHITE]] = Ok [[WHITE; WHITE]].
Proof. split; [repeat constructor; vm_compute; discriminate|]. split; [intros (_ & H); cbn in H; destruct H as (_ & H); discriminate|]. vm_compute. split; reflexivity. Qed.
