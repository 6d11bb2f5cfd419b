(* Vocabulary for the statements about random convex polygons. *)
From Coq Require Import ZArith List Permutation Sorted.
From Verif Require Export GeoSpec.
Import ListNotations.
Open Scope Z_scope.

(* directions with an angle in (90, 270] degrees *)
Definition leftHalf (p : Z * Z) : Prop := fst p < 0 \/ fst p = 0 /\ snd p < 0.

(* the angle of a is smaller than that of b when angles are taken from (90, 450] degrees *)
Definition before (a b : Z * Z) : Prop :=
  leftHalf a /\ ~ leftHalf b \/
  (leftHalf a <-> leftHalf b) /\ 0 < fst a * snd b - snd a * fst b.

(* what std::sort with this order and std::partition promise *)
Definition sorts (srt : list (Z * Z) -> list (Z * Z)) : Prop :=
  forall l, Forall (fun d => d <> (0, 0)) l ->
    Permutation l (srt l) /\ StronglySorted (fun a b => ~ before b a) (srt l).
Definition partitions (prt : (Z -> bool) -> list Z -> list Z * list Z) : Prop :=
  forall f l, Permutation l (fst (prt f l) ++ snd (prt f l)) /\
    Forall (fun z => f z = true) (fst (prt f l)) /\ Forall (fun z => f z = false) (snd (prt f l)).

(* all corners on one line *)
Definition flat (ps : list (Z * Z)) : Prop :=
  forall i j k, orient (corner ps i) (corner ps j) (corner ps k) = 0.

(* n corners whose bounding box is the square with centre 0 and side 2 * dim - 2 *)
Definition spans (n dim : Z) (ps : list (Z * Z)) : Prop :=
  Z.of_nat (length ps) = n /\
  Forall (fun q => Z.abs (fst q) < dim /\ Z.abs (snd q) < dim) ps /\
  (exists q, In q ps /\ fst q = dim - 1) /\ (exists q, In q ps /\ fst q = - (dim - 1)) /\
  (exists q, In q ps /\ snd q = dim - 1) /\ (exists q, In q ps /\ snd q = - (dim - 1)).
