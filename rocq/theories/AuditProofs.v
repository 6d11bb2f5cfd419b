From Verif Require Import Base BaseLemmas Tac RndModel GraphModel GraphSpec DiGraphProofs PngModel PngSpec GeoModel GeoSpec AuditSpec.
From Coq Require Import ZArith Lia List Permutation.
Import ListNotations.
Open Scope Z_scope.

(* ---- isDAG ---- *)
Lemma dag_order : forall l r, is_i64 l -> is_i64 r -> l <= r -> is_i64 (r - l) ->
  exists g, (let! g := newDiGraph l r in arcsRun g []) = Ok g /\ isDAG g = Ok (Some (rev (zseq l (Z.to_nat (r - l))))).
Proof.
  intros l r Hl Hr Hlr H2. destruct (diGraph_program l r []) as (g & G1 & G2); auto; [constructor|vm_compute; discriminate|].
  exists g. split; [exact G1|]. exact (isDAG_ok _ _ _ _ G2).
Qed.

(* ---- blend ---- *)
Lemma clamp_id : forall c, 0 <= c <= 255 -> clampColor c = c.
Proof. intros c H. unfold clampColor. destruct (Z.ltb_spec c 0); [lia|]. destruct (Z.ltb_spec 255 c); lia. Qed.
Lemma blend_alpha : forall lower upper, isColor lower -> isColor upper -> ca (blend lower upper) = cover lower upper / 255.
Proof.
  intros l u (_ & _ & _ & Al) (_ & _ & _ & Au). unfold byte in *. unfold blend, cover.
  destruct (Z.eqb_spec (ca u) 255) as [E|N]; [rewrite E; apply (Z.div_unique _ _ _ 0); lia|].
  destruct (Z.eqb_spec (ca u) 0) as [E|N0]; [rewrite E; apply (Z.div_unique _ _ _ 0); lia|]. cbn [ca].
  rewrite Z.quot_div_nonneg by nia.
  assert (E : (255 * ca u + ca l * (255 - ca u)) / 255 = ca u + ca l * (255 - ca u) / 255) by (rewrite (Z.mul_comm 255), Z.div_add_l by lia; reflexivity).
  rewrite E. apply clamp_id. split; [assert (0 <= ca l * (255 - ca u) / 255) by (apply Z.div_pos; nia); lia|].
  assert (ca l * (255 - ca u) / 255 <= 255 - ca u) by (apply Z.div_le_upper_bound; nia). lia.
Qed.
Lemma mean_between : forall x y a b, 0 < a -> 0 <= b -> let q := (y * a + x * b) / (a + b) in
  (x <= y -> x <= q <= y) /\ (y <= x -> y <= q <= x).
Proof.
  intros x y a b Ha Hb q. assert (P : 0 < a + b) by lia.
  split; intros C; (split; [apply Z.div_le_lower_bound; [exact P|]|apply Z.div_le_upper_bound; [exact P|]]).
  - assert (0 <= (y - x) * a) by (apply Z.mul_nonneg_nonneg; lia). lia.
  - assert (0 <= (y - x) * b) by (apply Z.mul_nonneg_nonneg; lia). lia.
  - assert (0 <= (x - y) * b) by (apply Z.mul_nonneg_nonneg; lia). lia.
  - assert (0 <= (x - y) * a) by (apply Z.mul_nonneg_nonneg; lia). lia.
Qed.
Lemma mix_bounds : forall x y au al, 0 <= x <= 255 -> 0 <= y <= 255 -> 0 < au < 255 -> 0 <= al <= 255 ->
  let aL := al * (255 - au) / 255 in let D := 255 * au + al * (255 - au) in
  let q := (y * au + x * aL) / (au + aL) in
  0 <= q <= 255 /\ Z.abs (q * D - (255 * (y * au) + x * (al * (255 - au)))) < D + 255 * Z.abs (y - x).
Proof.
  intros x y au al Hx Hy Hu Hl. assert (HL : 0 <= al * (255 - au)) by (apply Z.mul_nonneg_nonneg; lia).
  generalize dependent (al * (255 - au)). intros L HL aL D q. subst D.
  assert (HD := Z.div_mod L 255 ltac:(lia)). assert (HM := Z.mod_pos_bound L 255 ltac:(lia)). fold aL in HD.
  assert (HaL : 0 <= aL) by (apply Z.div_pos; lia).
  assert (Q := Z.div_mod (y * au + x * aL) (au + aL) ltac:(lia)). assert (QM := Z.mod_pos_bound (y * au + x * aL) (au + aL) ltac:(lia)). fold q in Q.
  destruct (mean_between x y au aL ltac:(lia) HaL) as (M1 & M2). fold q in M1, M2.
  assert (BX : Z.abs (q - x) <= Z.abs (y - x)) by (destruct (Z.le_ge_cases x y) as [C|C]; [specialize (M1 C)|specialize (M2 C)]; lia).
  split; [destruct (Z.le_ge_cases x y) as [C|C]; [specialize (M1 C)|specialize (M2 C)]; lia|]. clear M1 M2.
  generalize dependent (L mod 255). intros m HD HM. generalize dependent ((y * au + x * aL) mod (au + aL)). intros t Q QM.
  clearbody q aL.
  replace (q * (255 * au + L) - (255 * (y * au) + x * L)) with ((q - x) * m - 255 * t).
  2:{ rewrite HD. replace (255 * (y * au) + x * (255 * aL + m)) with (255 * (y * au + x * aL) + x * m) by ring. rewrite Q. ring. }
  assert (Z.abs ((q - x) * m) <= 255 * Z.abs (y - x)).
  { rewrite Z.abs_mul, (Z.abs_eq m) by lia. rewrite Z.mul_comm. apply Z.mul_le_mono_nonneg; lia. }
  lia.
Qed.
Lemma mix_value : forall x y au al, 0 <= x <= 255 -> 0 <= y <= 255 -> 0 < au < 255 -> 0 <= al <= 255 ->
  clampColor (Z.quot (y * au + x * Z.quot (al * (255 - au)) 255) (au + Z.quot (al * (255 - au)) 255)) =
  (y * au + x * (al * (255 - au) / 255)) / (au + al * (255 - au) / 255).
Proof.
  intros x y au al Hx Hy Hu Hl. destruct (mix_bounds x y au al Hx Hy Hu Hl) as (B & _). assert (HL : 0 <= al * (255 - au)) by (apply Z.mul_nonneg_nonneg; lia).
  rewrite (Z.quot_div_nonneg (al * (255 - au)) 255) by lia. assert (QL : 0 <= al * (255 - au) / 255) by (apply Z.div_pos; lia).
  rewrite Z.quot_div_nonneg; [apply clamp_id; exact B| |lia]. apply Z.add_nonneg_nonneg; apply Z.mul_nonneg_nonneg; lia.
Qed.
Lemma blend_over : forall lower upper, isColor lower -> isColor upper -> forall ch, channel ch -> 0 < cover lower upper ->
  Z.abs (ch (blend lower upper) * cover lower upper - mixed ch lower upper) < cover lower upper + 255 * Z.abs (ch upper - ch lower).
Proof.
  intros l u (Rl & Gl & Bl & Al) (Ru & Gu & Bu & Au) ch C P. unfold byte in *.
  assert (X : 0 <= ch l <= 255 /\ 0 <= ch u <= 255) by (destruct C as [-> | [-> | ->]]; lia). destruct X as (X & Y).
  unfold blend, cover, mixed in *. destruct (Z.eqb_spec (ca u) 255) as [E|N].
  { rewrite E in *. replace (ch u * (255 * 255 + ca l * (255 - 255)) - (255 * (ch u * 255) + ch l * (ca l * (255 - 255)))) with 0 by ring. rewrite Z.abs_0. lia. }
  destruct (Z.eqb_spec (ca u) 0) as [E|N0].
  { rewrite E in *. replace (ch l * (255 * 0 + ca l * (255 - 0)) - (255 * (ch u * 0) + ch l * (ca l * (255 - 0)))) with 0 by ring. rewrite Z.abs_0. lia. }
  assert (B := mix_bounds (ch l) (ch u) (ca u) (ca l) X Y ltac:(lia) ltac:(lia)). cbv zeta in B. destruct B as (B1 & B2).
  assert (K := mix_value (ch l) (ch u) (ca u) (ca l) X Y ltac:(lia) ltac:(lia)).
  destruct C as [-> | [-> | ->]]; cbn [cr cg cb]; rewrite K; exact B2.
Qed.
Lemma blend_opaque : forall lower upper, isColor lower -> isColor upper -> forall ch, channel ch -> ca lower = 255 ->
  ch (blend lower upper) = (ch upper * ca upper + ch lower * (255 - ca upper)) / 255.
Proof.
  intros l u (Rl & Gl & Bl & Al) (Ru & Gu & Bu & Au) ch C O. unfold byte in *.
  assert (X : 0 <= ch l <= 255 /\ 0 <= ch u <= 255) by (destruct C as [-> | [-> | ->]]; lia). destruct X as (X & Y).
  unfold blend. destruct (Z.eqb_spec (ca u) 255) as [E|N]; [rewrite E; apply (Z.div_unique _ _ _ 0); lia|].
  destruct (Z.eqb_spec (ca u) 0) as [E|N0]; [rewrite E; apply (Z.div_unique _ _ _ 0); lia|].
  assert (K := mix_value (ch l) (ch u) (ca u) (ca l) X Y ltac:(lia) ltac:(lia)). rewrite O in K.
  replace (255 * (255 - ca u) / 255) with (255 - ca u) in K by (rewrite Z.mul_comm, Z.div_mul; lia).
  replace (ca u + (255 - ca u)) with 255 in K by ring.
  destruct C as [-> | [-> | ->]]; cbn [cr cg cb]; rewrite O; exact K.
Qed.
Lemma blend_ends : forall lower upper, (ca upper = 255 -> blend lower upper = upper) /\ (ca upper = 0 -> blend lower upper = lower).
Proof. intros l u. unfold blend. split; intros ->; reflexivity. Qed.
Lemma modes : forall a b, isColor a -> isColor b -> PngModel.combine ASSIGN a b = b /\ PngModel.combine BLEND a b = blend a b /\
  PngModel.combine ADD a b = {| cr := Z.min 255 (cr a + cr b); cg := Z.min 255 (cg a + cg b); cb := Z.min 255 (cb a + cb b); ca := Z.min 255 (ca a + ca b) |} /\
  PngModel.combine SUBTRACT a b = {| cr := Z.max 0 (cr a - cr b); cg := Z.max 0 (cg a - cg b); cb := Z.max 0 (cb a - cb b); ca := Z.max 0 (ca a - ca b) |}.
Proof.
  intros a b (Ra & Ga & Ba & Aa) (Rb & Gb & Bb & Ab). unfold byte in *. split; [reflexivity|]. split; [reflexivity|].
  unfold PngModel.combine, addColor, subColor, clampColor.
  split; f_equal; repeat match goal with |- context [Z.ltb ?x ?y] => destruct (Z.ltb_spec x y) end; lia.
Qed.

(* ---- cross ---- *)
Lemma chk_iff : forall x c, chk x = Ok c <-> is_i64 x /\ c = x.
Proof. intros x c. split; [intros H; destruct (chk_inv _ _ H); auto|]. intros (H & ->). apply chk_Ok. auto. Qed.
Lemma cross3_iff : forall p a b c, cross3 p a b = Ok c <->
  is_i64 (fst a - fst p) /\ is_i64 (snd a - snd p) /\ is_i64 (fst b - fst p) /\ is_i64 (snd b - snd p) /\
  is_i64 ((fst a - fst p) * (snd b - snd p)) /\ is_i64 ((snd a - snd p) * (fst b - fst p)) /\ is_i64 c /\ c = orient p a b.
Proof.
  intros p a b c. unfold cross3, GeoModel.cross, orient. cbn [fst snd].
  assert (B : forall (A B : Type) (m : outcome A) (f : A -> outcome B) y, bind m f = Ok y <-> exists x, m = Ok x /\ f x = Ok y).
  { intros A B m f y. destruct m as [x| | |]; cbn; split; intros H; try discriminate; [exists x; auto| | | |]; destruct H as (z & E & F); congruence. }
  repeat (setoid_rewrite B || setoid_rewrite chk_iff). split.
  - intros (x1 & (I1 & ->) & x2 & (I2 & ->) & x3 & (I3 & ->) & x4 & (I4 & ->) & x5 & (I5 & ->) & x6 & (I6 & ->) & I7 & ->). tauto.
  - intros (I1 & I2 & I3 & I4 & I5 & I6 & I7 & ->). repeat (eexists; split; [split; [eassumption|reflexivity]|]). split; [assumption|reflexivity].
Qed.
