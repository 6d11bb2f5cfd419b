(* C37, C65, C66, C77: the exact results of isDAG, blend, cross and the errors of minimum. *)
From Verif Require Import Base RndModel GraphModel PngModel PngSpec GeoModel GeoSpec RealModel AuditSpec AuditProofs AuditProofs2.
From Coq Require Import ZArith List.
Import ListNotations.
Open Scope Z_scope.

(* without edges the order lists the nodes from the last to the first *)
Theorem C37_isDAG_order : forall l r, is_i64 l -> is_i64 r -> l <= r -> is_i64 (r - l) ->
  exists g, (let! g := newDiGraph l r in arcsRun g []) = Ok g /\ isDAG g = Ok (Some (rev (zseq l (Z.to_nat (r - l))))).
Proof. exact dag_order. Qed.
Print Assumptions C37_isDAG_order.
Example C37_ex_order : (let! g := newDiGraph (-2) 3 in let! g := arcsRun g [] in isDAG g) = Ok (Some [2; 1; 0; -1; -2]).
Proof. vm_compute. reflexivity. Qed.

Theorem C65_alpha : forall lower upper, isColor lower -> isColor upper -> ca (blend lower upper) = cover lower upper / 255.
Proof. exact blend_alpha. Qed.
Print Assumptions C65_alpha.
(* the distance of a channel to the exact composition is below 1 + 255 * |difference| / cover *)
Theorem C65_over : forall lower upper, isColor lower -> isColor upper -> forall ch, channel ch -> 0 < cover lower upper ->
  Z.abs (ch (blend lower upper) * cover lower upper - mixed ch lower upper) < cover lower upper + 255 * Z.abs (ch upper - ch lower).
Proof. exact blend_over. Qed.
Print Assumptions C65_over.
Theorem C65_opaque : forall lower upper, isColor lower -> isColor upper -> forall ch, channel ch -> ca lower = 255 ->
  ch (blend lower upper) = (ch upper * ca upper + ch lower * (255 - ca upper)) / 255.
Proof. exact blend_opaque. Qed.
Print Assumptions C65_opaque.
Theorem C65_ends : forall lower upper, (ca upper = 255 -> blend lower upper = upper) /\ (ca upper = 0 -> blend lower upper = lower).
Proof. exact blend_ends. Qed.
Print Assumptions C65_ends.
Theorem C65_modes : forall a b, isColor a -> isColor b -> PngModel.combine ASSIGN a b = b /\ PngModel.combine BLEND a b = blend a b /\
  PngModel.combine ADD a b = {| cr := Z.min 255 (cr a + cr b); cg := Z.min 255 (cg a + cg b); cb := Z.min 255 (cb a + cb b); ca := Z.min 255 (ca a + ca b) |} /\
  PngModel.combine SUBTRACT a b = {| cr := Z.max 0 (cr a - cr b); cg := Z.max 0 (cg a - cg b); cb := Z.max 0 (cb a - cb b); ca := Z.max 0 (ca a - ca b) |}.
Proof. exact modes. Qed.
Print Assumptions C65_modes.
Example C65_ex_over : let lower := rgb 0x102030 200 in let upper := rgb 0x00FF00 100 in
  isColor lower /\ isColor upper /\ channel cg /\ cover lower upper = 56500 /\ mixed cg lower upper = 7494500 /\ cg (blend lower upper) = 132 /\ 132 < 7494500 / 56500 + 1 /\ ca (blend lower upper) = 221.
Proof. repeat split; try (vm_compute; congruence). right. left. reflexivity. Qed.
Example C65_ex_opaque : let lower := rgb 0x102030 255 in isColor lower /\ ca lower = 255 /\
  blend lower (rgb 0x00FF00 100) = rgb 0x09771D 255 /\ blend lower (rgb 0x00FF00 0) = lower /\ PngModel.combine SUBTRACT lower (rgb 0x00FF01 5) = rgb 0x10002F 250.
Proof. repeat split; vm_compute; congruence. Qed.

(* the triangle product is computed exactly if all intermediate values fit, and is undefined otherwise *)
Theorem C66_cross3 : forall p a b c, cross3 p a b = Ok c <->
  is_i64 (fst a - fst p) /\ is_i64 (snd a - snd p) /\ is_i64 (fst b - fst p) /\ is_i64 (snd b - snd p) /\
  is_i64 ((fst a - fst p) * (snd b - snd p)) /\ is_i64 ((snd a - snd p) * (fst b - fst p)) /\ is_i64 c /\ c = orient p a b.
Proof. exact cross3_iff. Qed.
Print Assumptions C66_cross3.
Example C66_ex_cross3 : cross3 (1, 1) (4, 2) (2, 5) = Ok 11 /\ orient (1, 1) (4, 2) (2, 5) = 11 /\ cross3 (0, 0) (2 ^ 32, 1) (1, 2 ^ 31) = UB.
Proof. vm_compute. auto. Qed.

Theorem C77_minimum_throws : forall log2 exp2 fuel lower upper n, n <= 0 \/ upper <= lower -> is_i64 upper ->
  (is_i64 (upper - lower) /\ is_i64 (upper - 1) -> minimum log2 exp2 fuel lower upper n = RRet Throw) /\
  (~ (is_i64 (upper - lower) /\ is_i64 (upper - 1)) -> minimum log2 exp2 fuel lower upper n = RRet UB).
Proof. exact minimum_throws_clear. Qed.
Print Assumptions C77_minimum_throws.
Example C77_ex_minimum_throws : minimum id id 1 5 5 2 = RRet Throw /\ minimum id id 1 5 9 0 = RRet Throw /\ minimum id id 1 0 (- 2 ^ 63) 2 = RRet UB.
Proof. vm_compute. auto. Qed.
