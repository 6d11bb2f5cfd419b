(* C95: archive/convex.cpp. *)
From Verif Require Import Base RndModel FloatModel RealModel GeoSpec HullModel HullSpec HullProofs3 HullProofs4.
From Coq Require Import ZArith List Permutation.
Import ListNotations.
Open Scope Z_scope.

Theorem C95_hull : forall p, small p -> (exists a b, In a p /\ In b p /\ a <> b) ->
  exists h, convexHull p = Ok h /\ isHull p h.
Proof. exact hull_two_points. Qed.
Print Assumptions C95_hull.
(* (1, 1) is inside, (2, 0) on a side: it is listed; so are equal points, but once *)
Example C95_ex_hull : convexHull [(4, 4); (0, 0); (1, 1); (4, 0); (2, 0); (0, 4); (4, 4); (0, 0)] =
  Ok [(0, 0); (2, 0); (4, 0); (4, 4); (0, 4); (0, 0)].
Proof. vm_compute. reflexivity. Qed.
Theorem C95_single : forall p a, small p -> In a p -> (forall b, In b p -> b = a) -> convexHull p = Ok [a].
Proof. exact hull_one_point. Qed.
Print Assumptions C95_single.
Example C95_ex_single : convexHull [(7, -3); (7, -3)] = Ok [(7, -3)] /\ convexHull [] = Ok [].
Proof. vm_compute. split; reflexivity. Qed.

Theorem C95_distinct : forall p h, isHull p h -> ~ onOneLine p -> NoDup (removelast h).
Proof. exact hull_distinct. Qed.
Print Assumptions C95_distinct.
(* exactly the points on the boundary are listed *)
Theorem C95_listed : forall p h q, isHull p h -> In q p -> (In q h <-> onBoundary p q).
Proof. exact hull_listed. Qed.
Print Assumptions C95_listed.
(* if all points are on the boundary each is listed once, and the first one again at the end *)
Theorem C95_count : forall p h, isHull p h -> ~ onOneLine p -> NoDup p -> (forall q, In q p -> onBoundary p q) ->
  Permutation p (removelast h) /\ length h = S (length p).
Proof. exact boundary_count. Qed.
Print Assumptions C95_count.
(* on one line the inner points come twice *)
Example C95_ex_line : convexHull [(0, 0); (2, 2); (1, 1)] = Ok [(0, 0); (1, 1); (2, 2); (1, 1); (0, 0)].
Proof. vm_compute. reflexivity. Qed.
Example C95_ex_hypotheses : isHull [(0, 0); (2, 0); (0, 2)] [(0, 0); (2, 0); (0, 2); (0, 0)] /\ ~ onOneLine [(0, 0); (2, 0); (0, 2)].
Proof. exact triangle_hull. Qed.

(* whatever sqrt, sin, cos and llround give *)
Theorem C95_disk : forall sqrt sin cos llround rounds fuel fuel' n dim, 0 < dim -> 0 < n -> is_i64 n ->
  always (convexDisk sqrt sin cos llround rounds fuel fuel' n dim) (fun o => forall h, o = Ok h ->
    Forall (inDisk dim) h /\ (~ onOneLine h -> alen h = n + 1 /\ NoDup (removelast h) /\ isHull h h)).
Proof. exact disk_correct. Qed.
Print Assumptions C95_disk.
Definition dropPart (v : real) : Z := match floorZ v with Some z => z | None => 0 end.
Definition less3 (v : real) : real := rsub v (ofZ 3).
Definition curve (v : real) : real := rmul (less3 v) (less3 v).
Definition radius1 (v : real) : real := rone.
(* the words for the angle k / 64 of a full turn, and those for the middle of the ring *)
Definition angle (k : Z) : list Z := let z := 5 - Z.log2 k in [k * 2 ^ (58 + z); 2 ^ z; 0; 1].
(* four entries for n = 3, the first one again at the end *)
Example C95_ex_disk : play (convexDisk radius1 less3 curve dropPart 5 5 5 3 12) (concat (map angle [3; 14; 61]) ++ [2; 0]) =
  Ok [(-3, 7); (-2, 2); (0, 0); (-3, 7)].
Proof. vm_compute. reflexivity. Qed.

Theorem C95_disk_zero : forall sqrt sin cos llround rounds fuel fuel' dim, 0 <= dim -> dim <= 0x3FFFFFFF ->
  convexDisk sqrt sin cos llround (S (S rounds)) fuel fuel' 0 dim = RRet UB.
Proof. exact disk_zero. Qed.
Print Assumptions C95_disk_zero.
Theorem C95_disk_throws : forall sqrt sin cos llround rounds fuel fuel' n dim, is_i64 (n * n) ->
  0x3FFFFFFF < dim \/ dim < n * n / 1000 -> convexDisk sqrt sin cos llround rounds fuel fuel' n dim = RRet Throw.
Proof. exact disk_throws. Qed.
Print Assumptions C95_disk_throws.
Example C95_ex_throws : 0x3FFFFFFF < 2 ^ 30 /\ 9 < 100 * 100 / 1000.
Proof. split; reflexivity. Qed.
