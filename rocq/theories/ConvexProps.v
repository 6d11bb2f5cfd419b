(* Random::convex of validate.h. *)
From Coq Require Import ZArith List Lia.
From Verif Require Import Base RndModel RandSpec GeoModel RandSeqModel ConvexModel ConvexSpec ConvexProofs3 ConvexProofs4 ConvexProofs5.
Import ListNotations.
Open Scope Z_scope.

(* C68: every result has n corners and exactly the requested bounding box. It is a convex
   polygon without repeated corners, or its corners are all on one line. This holds for every
   correct std::sort and std::partition and every distribution of the numbers of
   directions to the left and down. (Fuel bounds the number of attempts.) *)
Theorem C68_convex : forall srt prt binom, sorts srt -> partitions prt ->
  (forall m, 0 <= m -> always (binom m) (returns (fun b => 0 <= b <= m))) ->
  forall fuel n dim, is_i64 n -> is_i64 dim -> 3 <= n <= 8 * dim - 8 -> dim <= 0x3FFFFFFF ->
  always (randomConvex srt prt binom fuel n dim) (fun o => o = Fuel \/ exists ps, o = Ok ps /\
    spans n dim ps /\ (flat ps \/ convex ps /\ NoDup ps)).
Proof. exact randomConvex_always. Qed.
Print Assumptions C68_convex.
(* The premises can be met, *)
Theorem C68_oracles : sorts isort /\ partitions split2 /\
  forall m, 0 <= m -> always (someBinom m) (returns (fun b => 0 <= b <= m)).
Proof. exact (conj isort_sorts (conj split2_ok someBinom_ok)). Qed.
Print Assumptions C68_oracles.
Example C68_ex : play (randomConvex isort split2 someBinom 1 5 4) [2; 1; 2; 5; 2; 4; 2; 5; 2; 0; 2; 1; 2; 2] =
  Ok [(3, -2); (2, 0); (-1, 3); (-3, -2); (0, -3)].
Proof. vm_compute. reflexivity. Qed.

(* so isConvex accepts the result unless it is on one line. *)
Theorem C68_accepted : forall srt prt binom, sorts srt -> partitions prt ->
  (forall m, 0 <= m -> always (binom m) (returns (fun b => 0 <= b <= m))) ->
  forall fuel n dim, is_i64 n -> is_i64 dim -> 3 <= n <= 8 * dim - 8 -> dim <= 0x3FFFFFFF ->
  always (randomConvex srt prt binom fuel n dim) (fun o => o = Fuel \/ exists ps, o = Ok ps /\
    (flat ps \/ isConvex ps = Ok true)).
Proof. exact randomConvex_accepted. Qed.
Print Assumptions C68_accepted.
Example C68_ex_accepted : isConvex [(3, -2); (2, 0); (-1, 3); (-3, -2); (0, -3)] = Ok true.
Proof. vm_compute. reflexivity. Qed.

(* Other arguments are rejected. *)
Theorem C68_throws : forall srt prt binom fuel n dim, 0x3FFFFFFF < dim \/ n < 3 \/ 8 * dim - 8 < n ->
  randomConvex srt prt binom fuel n dim = RRet Throw.
Proof. exact randomConvex_throws. Qed.
Print Assumptions C68_throws.
Example C68_ex_throws : randomConvex isort split2 someBinom 5 9 2 = RRet Throw.
Proof. reflexivity. Qed.

(* The order used by cyclicSort is a strict weak order of the directions, as std::sort
   demands, and comparing them does not overflow. *)
Theorem C68_order :
  (forall a b, Z.abs (fst a) < 2 ^ 31 /\ Z.abs (snd a) < 2 ^ 31 -> Z.abs (fst b) < 2 ^ 31 /\ Z.abs (snd b) < 2 ^ 31 ->
     exists r, cyclicLess a b = Ok r /\ (r = true <-> before a b)) /\
  (forall a, ~ before a a) /\
  (forall a b c, a <> (0, 0) -> b <> (0, 0) -> c <> (0, 0) -> before a b -> before b c -> before a c) /\
  (forall a b c, a <> (0, 0) -> b <> (0, 0) -> c <> (0, 0) -> ~ before b a -> ~ before c b -> ~ before c a).
Proof. exact (conj cyclicLess_ok (conj before_irrefl (conj before_trans before_total))). Qed.
Print Assumptions C68_order.
Example C68_ex_order : cyclicLess (-1, 0) (0, -3) = Ok true /\ cyclicLess (0, 1) (0, -3) = Ok false.
Proof. split; reflexivity. Qed.

(* The result can be on one line, and isConvex rejects it; *)
Theorem C68_flat_refuted : exists fuel n dim ps, 3 <= n <= 8 * dim - 8 /\ dim <= 0x3FFFFFFF /\
  can (randomConvex isort split2 someBinom fuel n dim) (Ok ps) /\ flat ps /\ isConvex ps = Ok false.
Proof. exact convex_flat. Qed.
Print Assumptions C68_flat_refuted.
(* and it need not be strictly convex. *)
Theorem C68_strict_refuted : exists fuel n dim ps, 3 <= n <= 8 * dim - 8 /\ dim <= 0x3FFFFFFF /\
  can (randomConvex isort split2 someBinom fuel n dim) (Ok ps) /\ convex ps /\ isStrictlyConvex ps = Ok false.
Proof. exact convex_not_strict. Qed.
Print Assumptions C68_strict_refuted.
