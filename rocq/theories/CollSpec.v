(* Vocabulary for the statement about random points in general position. *)
From Coq Require Import ZArith List.
From Verif Require Export GeoSpec.
Import ListNotations.
Open Scope Z_scope.

(* no line contains three of the points *)
Definition noThreeCollinear (l : list (Z * Z)) : Prop :=
  forall i j k, (i < j)%nat -> (j < k)%nat -> (k < length l)%nat ->
    orient (nth i l (0, 0)) (nth j l (0, 0)) (nth k l (0, 0)) <> 0.
