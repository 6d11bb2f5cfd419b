From Verif Require Import Base FloatModel SvgModel SvgSpec SvgProofs.
From Coq Require Import QArith SpecFloat.
Open Scope Q_scope.

(* C75: the view box of an image is the smallest box that contains the point 0, 0 and the shapes
   drawn before any text of their statement; in exact arithmetic. *)
Theorem C75_in_view : forall cs is s z, In is cs -> In s (leading is) -> covers (elementQ s) z -> inView (viewBoxQ (imageQ cs)) z.
Proof. exact all_in_view. Qed.
Print Assumptions C75_in_view.
Example C75_in_view_ex : let cs := [[Draw (Circle (3, 4) 2); Text]; [Draw (Line (0, 0) (- (5), 1))]] in
  In [Draw (Circle (3, 4) 2); Text] cs /\ In (Circle (3, 4) 2) (leading [Draw (Circle (3, 4) 2); Text]) /\
  covers (elementQ (Circle (3, 4) 2)) (5, - (4)) /\ viewBoxQ (imageQ cs) = (- (5), - (6), 10, 6).
Proof. cbn. repeat split; auto; vm_compute; discriminate. Qed.

Theorem C75_view : forall cs, let ps := flat_map cornersQ (flat_map leading cs) in exists x0 x1 y0 y1,
  lowest (map fst ps) x0 /\ highest (map fst ps) x1 /\ lowest (map snd ps) y0 /\ highest (map snd ps) y1 /\
  let '(x, y, w, h) := viewBoxQ (imageQ cs) in x == x0 /\ w == x1 - x0 /\ y == - y1 /\ h == y1 - y0.
Proof. exact view_spec. Qed.
Print Assumptions C75_view.
Example C75_view_ex : viewBoxQ (imageQ [[Draw (Polygon [(1, 2); (7, 2); (7, - (3))]); Draw (Rectangle (2, 2) 1 6)]]) = (0, - (8), 7, 11).
Proof. vm_compute. reflexivity. Qed.

(* a shape that follows a text in the same statement is printed but not taken into account *)
Theorem C75_after_text_refuted : exists cs s z, printed cs s /\ covers (elementQ s) z /\ ~ inView (viewBoxQ (imageQ cs)) z.
Proof. exact after_text. Qed.
Print Assumptions C75_after_text_refuted.

(* with floating point numbers a point may be outside by rounding *)
Theorem C75_float_refuted : exists p q : real, realOk p /\ realOk q /\ isfinite p = true /\ isfinite q = true /\
  let b := imageF [[Draw (Polygon [(p, rzero); (q, rzero)])]] in
  SFltb (SFadd prec emax (bx real b) (bw real b)) q = true.
Proof. exact float_outside. Qed.
Print Assumptions C75_float_refuted.
