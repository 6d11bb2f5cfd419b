(* C96: archive/polygon.cpp. *)
From Verif Require Import Base RndModel GeoSpec PolyModel PolySpec PolyProofs3 PolyProofs4.
From Coq Require Import ZArith List Permutation.
Import ListNotations.
Open Scope Z_scope.

(* n points of the square, or it does not end *)
Theorem C96_points : forall srt prt fits, sortsBy srt -> splits prt -> forall fuel n dim, 0 < dim -> dim <= 0x3FFFFFFF -> fits n dim = true -> 3 <= n ->
  always (polygon srt prt fits fuel n dim) (okOrEndless (fun l => alen l = n /\ Forall (fun p => Z.abs (fst p) < dim /\ Z.abs (snd p) < dim) l)).
Proof. exact polygon_ok. Qed.
Print Assumptions C96_points.
Theorem C96_throws : forall srt prt fits fuel n dim, 0x3FFFFFFF < dim \/ dim <= 0 \/ fits n dim = false \/ n < 3 ->
  polygon srt prt fits fuel n dim = RRet Throw.
Proof. exact polygon_throws. Qed.
Print Assumptions C96_throws.
(* the corners are the points drawn; a simple polygon if no three points are on a line, no three
   form a right angle and dir separates all points *)
Theorem C96_simple : forall srt prt, sortsBy srt -> splits prt -> forall fuel pts dir, tiny dir -> Forall tiny pts -> (3 <= length pts)%nat ->
  always (polygonOn srt prt fuel pts dir) (okOrEndless (fun l => Permutation pts l /\
    (general pts -> noRightAngle pts -> (forall a b, In a pts -> In b pts -> a <> b -> key dir a <> key dir b) -> simple l))).
Proof. exact polygonOn_ok. Qed.
Print Assumptions C96_simple.
Theorem C96_oracles : sortsBy sortBy /\ splits splitBy.
Proof. exact oracles_exist. Qed.
Print Assumptions C96_oracles.
Example C96_ex_simple : play (polygonOn sortBy splitBy 9 [(0, 0); (5, 1); (2, 7); (-4, 3); (-3, -6)] (1, 9)) [2; 0; 1; 0; 0; 0] =
  Ok [(-3, -6); (-4, 3); (2, 7); (5, 1); (0, 0)].
Proof. vm_compute. reflexivity. Qed.

(* If the corner last in the direction dir is a right angle the recursion never ends *)
Theorem C96_ends_refuted : forall srt prt, sortsBy srt -> splits prt -> forall fuel pts dir p q r, tiny dir -> Forall tiny pts -> Permutation [p; q; r] pts ->
  key dir p < key dir q -> key dir q < key dir r -> angle r p q = 0 ->
  always (polygonOn srt prt fuel pts dir) (fun o => o = Fuel).
Proof. exact right_triangle. Qed.
Print Assumptions C96_ends_refuted.
Example C96_ex_right : key (1, 2) (0, 1) < key (1, 2) (3, 0) /\ key (1, 2) (3, 0) < key (1, 2) (3, 1) /\ angle (3, 1) (0, 1) (3, 0) = 0.
Proof. vm_compute. repeat split; reflexivity. Qed.
(* and with a right angle the sides may cross although no three points are on a line *)
Theorem C96_simple_refuted : exists fits fuel n dim l, fits n dim = true /\ 3 <= n /\ n * n * n <= dim * dim /\
  can (polygon sortBy splitBy fits fuel n dim) (Ok l) /\ general l /\ ~ simple l.
Proof. exact not_simple. Qed.
Print Assumptions C96_simple_refuted.
