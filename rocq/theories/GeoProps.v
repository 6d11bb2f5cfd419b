(* isConvex, isStrictlyConvex and isCCW of validate.h. *)
From Coq Require Import ZArith List Lia.
From Verif Require Import Base GeoModel GeoSpec GeoProofs GeoProofs2 GeoProofs3.
Import ListNotations.
Open Scope Z_scope.

(* C47: with coordinates below 2^30 nothing overflows, *)
Theorem C47_defined : forall ps, inRange ps ->
  (exists b, isConvex ps = Ok b) /\ (exists b, isStrictlyConvex ps = Ok b).
Proof. exact isConvex_defined. Qed.
Print Assumptions C47_defined.
Example C47_ex_defined : inRange band /\ isConvex band = Ok false /\
  isStrictlyConvex [(- M, - M); (M, - M); (M, M); (- M, M)] = Ok true.
Proof. split; [apply range_dec|]; vm_compute; auto. Qed.

(* with larger ones there is an exception (apart from the coordinate -2^63). *)
Theorem C47_rejects : forall ps, ~ inRange ps ->
  Forall (fun p => Z.abs (fst p) < two63 /\ Z.abs (snd p) < two63) ps ->
  isConvex ps = Throw /\ isStrictlyConvex ps = Throw /\ isCCW ps = Throw.
Proof. exact isConvex_rejects. Qed.
Print Assumptions C47_rejects.
Example C47_ex_rejects : ~ inRange [(0, 0); (0, 2 ^ 30)] /\ isConvex [(0, 0); (0, 2 ^ 30)] = Throw.
Proof.
  split; [|reflexivity]. intros R. inversion_clear R as [|? ? _ R']. inversion_clear R' as [|? ? (_ & H) _]. cbn in H. lia.
Qed.

(* Every convex polygon is accepted, *)
Theorem C47_complete : forall ps, inRange ps -> convex ps -> isConvex ps = Ok true.
Proof. exact convex_accepted. Qed.
Print Assumptions C47_complete.
(* a polygon is convex if and only if it is accepted from every corner, *)
Theorem C47_rotations : forall ps, inRange ps -> ps <> [] ->
  (convex ps <-> forall k, (k < length ps)%nat -> isConvex (rotate k ps) = Ok true).
Proof. exact convex_rotations. Qed.
Print Assumptions C47_rotations.
(* and up to four corners it is enough to ask once. *)
Theorem C47_quadrilaterals : forall ps, inRange ps -> (length ps <= 4)%nat ->
  (isConvex ps = Ok true <-> convex ps).
Proof. exact convex_4. Qed.
Print Assumptions C47_quadrilaterals.
Example C47_ex_complete : convex [(0, 0); (2, 0); (4, 0); (0, 3)].
Proof. apply C47_quadrilaterals; [apply range_dec; reflexivity|cbn; lia|reflexivity]. Qed.

(* For more corners asking once is not enough: *)
Theorem C47_sound_refuted : exists ps, inRange ps /\ isConvex ps = Ok true /\ ~ convex ps.
Proof. exact convex_wrong. Qed.
Print Assumptions C47_sound_refuted.
(* even isStrictlyConvex accepts a polygon whose sides cross, and whose rejection
   depends on the corner it starts with; *)
Theorem C47_strict_sound_refuted : exists ps, inRange ps /\ isStrictlyConvex ps = Ok true /\
  isConvex (rotate 1 ps) = Ok false /\
  exists i j, (i < length ps)%nat /\ (j < length ps)%nat /\
    properlyCross (corner ps i) (corner ps (i + 1)) (corner ps j) (corner ps (j + 1)).
Proof. exact strict_wrong. Qed.
Print Assumptions C47_strict_sound_refuted.
(* and one that repeats a corner. *)
Theorem C47_strict_distinct_refuted : exists ps, inRange ps /\ isStrictlyConvex ps = Ok true /\ ~ NoDup ps.
Proof. exact strict_repeats. Qed.
Print Assumptions C47_strict_distinct_refuted.

(* What isStrictlyConvex misses is exactly whether the other corners lie left of the
   first side. *)
Theorem C47_strict : forall ps, inRange ps ->
  (strictlyConvex ps <-> isStrictlyConvex ps = Ok true /\
     forall j, (2 <= j < length ps)%nat -> 0 < orient (corner ps 0) (corner ps 1) (corner ps j)).
Proof. exact strict_iff. Qed.
Print Assumptions C47_strict.
Example C47_ex_strict : strictlyConvex [(0, 0); (4, -1); (6, 2); (3, 5); (-1, 2)].
Proof.
  apply C47_strict; [apply range_dec; reflexivity|]. split; [reflexivity|].
  intros [|[|[|[|[|j]]]]] J; cbn in J; try lia; reflexivity.
Qed.

(* C66: isCCW tells whether the signed area is positive, *)
Theorem C66_area : forall ps b, inRange ps -> isCCW ps = Ok b -> (b = true <-> 0 < area2 ps).
Proof. exact isCCW_area. Qed.
Print Assumptions C66_area.
(* so the corner to start with does not matter, *)
Theorem C66_rotate : forall k ps b c, inRange ps -> isCCW ps = Ok b -> isCCW (rotate k ps) = Ok c -> b = c.
Proof. exact isCCW_rotate. Qed.
Print Assumptions C66_rotate.
(* a polygon and its reverse are not both counter-clockwise *)
Theorem C66_reverse : forall ps, inRange ps -> isCCW ps = Ok true -> isCCW (rev ps) <> Ok true.
Proof. exact isCCW_rev. Qed.
Print Assumptions C66_reverse.
(* and convex polygons are counter-clockwise. *)
Theorem C66_convex : forall ps b, inRange ps -> convex ps -> isCCW ps = Ok b -> b = true.
Proof. exact isCCW_convex. Qed.
Print Assumptions C66_convex.
Example C66_ex : isCCW [(0, 0); (2, 0); (4, 0); (0, 3)] = Ok true /\
  isCCW [(0, 3); (4, 0); (2, 0); (0, 0)] = Ok false /\ area2 [(0, 0); (2, 0); (4, 0); (0, 3)] = 12.
Proof. vm_compute. auto. Qed.

(* It returns if n corners have coordinates up to m with 2 n m^2 < 2^63: *)
Theorem C66_defined : forall m ps, 0 <= m < 2 ^ 30 ->
  Forall (fun p => Z.abs (fst p) <= m /\ Z.abs (snd p) <= m) ps -> alen ps * (2 * (m * m)) < two63 ->
  exists b, isCCW ps = Ok b.
Proof. exact isCCW_defined. Qed.
Print Assumptions C66_defined.
Example C66_ex_defined : Forall (fun p => Z.abs (fst p) <= M /\ Z.abs (snd p) <= M) [(- M, - M); (M, - M); (M, M); (- M, M)] /\
  alen [(- M, - M); (M, - M); (M, M); (- M, M)] * (2 * (M * M)) < two63.
Proof. split; [repeat (apply Forall_cons; [cbn; unfold M; lia|]); constructor|reflexivity]. Qed.

(* but, contrary to the comment in the code, the sum can overflow within the allowed
   coordinates, even for a simple polygon. *)
Theorem C66_overflow_refuted : exists ps, inRange ps /\ simple ps /\ isCCW ps = UB.
Proof. exact isCCW_overflows. Qed.
Print Assumptions C66_overflow_refuted.
