(* What isConvex and isStrictlyConvex compute. *)
From Coq Require Import ZArith List Lia Bool PeanoNat.
From Verif Require Import Base BaseLemmas GeoModel GeoSpec.
Import ListNotations.
Local Open Scope Z_scope.
Local Arguments Z.add : simpl never.
Local Arguments Z.mul : simpl never.

Definition small (p : Z * Z) : Prop := Z.abs (fst p) < 2 ^ 30 /\ Z.abs (snd p) < 2 ^ 30.

Lemma prod_bound : forall a b m, Z.abs a <= m -> Z.abs b <= m -> - (m * m) <= a * b <= m * m.
Proof. intros. nia. Qed.

Lemma cross_ok : forall m a b, 0 <= m < 2 ^ 31 -> Z.abs (fst a) <= m -> Z.abs (snd a) <= m ->
  Z.abs (fst b) <= m -> Z.abs (snd b) <= m -> 2 * (m * m) < two63 ->
  cross a b = Ok (fst a * snd b - snd a * fst b).
Proof.
  intros m a b M A1 A2 B1 B2 H. unfold cross.
  pose proof (prod_bound (fst a) (snd b) m A1 B2). pose proof (prod_bound (snd a) (fst b) m A2 B1).
  rewrite !chk_Ok; cbn [bind]; rewrite ?chk_Ok; cbn [bind]; rewrite ?chk_Ok; unfold is_i64, I64_MIN, I64_MAX; try lia;
    reflexivity.
Qed.

Lemma cross_small : forall a b, small a -> small b -> cross a b = Ok (fst a * snd b - snd a * fst b).
Proof.
  intros a b (A1 & A2) (B1 & B2). apply cross_ok with (m := 2 ^ 30 - 1); try lia. reflexivity.
Qed.

Lemma cross3_ok : forall p a b, small p -> small a -> small b -> cross3 p a b = Ok (orient p a b).
Proof.
  intros p a b (P1 & P2) (A1 & A2) (B1 & B2). unfold cross3.
  rewrite !chk_Ok; cbn [bind]; rewrite ?chk_Ok; cbn [bind]; rewrite ?chk_Ok; cbn [bind]; rewrite ?chk_Ok; cbn [bind];
    try (unfold is_i64, I64_MIN, I64_MAX, two63; lia).
  rewrite (cross_ok (2 ^ 31 - 2)); cbn [fst snd]; try lia; [|reflexivity].
  reflexivity.
Qed.

Lemma assertBounds_ok : forall ps, inRange ps -> assertBounds ps = Ok (alen ps).
Proof.
  induction ps as [|[x y] ps IH]; intros R; [reflexivity|].
  inversion_clear R as [|? ? (X & Y) R']. cbn [fst snd] in *. cbn [assertBounds].
  rewrite (chk_Ok (Z.abs x)) by (unfold is_i64, I64_MIN, I64_MAX, two63; lia). cbn [bind].
  destruct (Z.leb_spec (Z.abs x) 0x3FFFFFFF); [|lia]. cbn [judgeAssert bind].
  rewrite (chk_Ok (Z.abs y)) by (unfold is_i64, I64_MIN, I64_MAX, two63; lia). cbn [bind].
  destruct (Z.leb_spec (Z.abs y) 0x3FFFFFFF); [|lia]. cbn [judgeAssert bind].
  rewrite (IH R'). cbn [bind]. f_equal. unfold alen. cbn [length]. lia.
Qed.

Lemma assertBounds_bad : forall ps, ~ inRange ps -> assertBounds ps = Throw \/ assertBounds ps = UB.
Proof.
  induction ps as [|[x y] ps IH]; intros R; [exfalso; apply R; constructor|].
  cbn [assertBounds].
  destruct (chk_cases (Z.abs x)) as [(-> & _)|(-> & _)]; cbn [bind]; [|auto].
  destruct (Z.leb_spec (Z.abs x) 0x3FFFFFFF); cbn [judgeAssert bind]; [|auto].
  destruct (chk_cases (Z.abs y)) as [(-> & _)|(-> & _)]; cbn [bind]; [|auto].
  destruct (Z.leb_spec (Z.abs y) 0x3FFFFFFF); cbn [judgeAssert bind]; [|auto].
  destruct IH as [->| ->]; cbn [bind]; auto.
  intros R'. apply R. constructor; [cbn; lia|exact R'].
Qed.

(* rejected by an exception if only the coordinates are 64-bit numbers other than the least *)
Lemma assertBounds_throw : forall ps, ~ inRange ps ->
  Forall (fun p => Z.abs (fst p) < two63 /\ Z.abs (snd p) < two63) ps -> assertBounds ps = Throw.
Proof.
  induction ps as [|[x y] ps IH]; intros R F; [exfalso; apply R; constructor|].
  inversion_clear F as [|? ? (X & Y) F']. cbn [fst snd] in *. cbn [assertBounds].
  rewrite (chk_Ok (Z.abs x)) by (unfold is_i64, I64_MIN, I64_MAX, two63 in *; lia). cbn [bind].
  destruct (Z.leb_spec (Z.abs x) 0x3FFFFFFF); cbn [judgeAssert bind]; [|auto].
  rewrite (chk_Ok (Z.abs y)) by (unfold is_i64, I64_MIN, I64_MAX, two63 in *; lia). cbn [bind].
  destruct (Z.leb_spec (Z.abs y) 0x3FFFFFFF); cbn [judgeAssert bind]; [|auto].
  rewrite IH; [reflexivity| |exact F'].
  intros R'. apply R. constructor; [cbn; lia|exact R'].
Qed.

Lemma pointEq_iff : forall a b, pointEq a b = true <-> a = b.
Proof.
  intros [a b] [c d]. unfold pointEq. cbn [fst snd]. rewrite andb_true_iff, !Z.eqb_eq. split.
  - intros (-> & ->). reflexivity.
  - intros E. injection E as -> ->. auto.
Qed.

Lemma corner_small : forall ps i, inRange ps -> small (corner ps i).
Proof.
  intros ps i R. unfold corner.
  destruct (nth_in_or_default (i mod length ps) ps (0, 0)) as [I| ->].
  - apply (proj1 (Forall_forall _ _) R _ I).
  - unfold small. cbn. lia.
Qed.

Lemma aget_corner : forall ps i k, (3 <= length ps)%nat ->
  aget ps ((Z.of_nat i + Z.of_nat k) mod alen ps) = Ok (corner ps (i + k)).
Proof.
  intros ps i k H. unfold alen. rewrite <- Nat2Z.inj_add, <- Nat2Z.inj_mod.
  unfold corner. rewrite <- (Nat2Z.id ((i + k) mod length ps)) at 2. apply aget_Ok.
  pose proof (Nat.mod_upper_bound (i + k) (length ps)). unfold alen. lia.
Qed.

Lemma aget_corner0 : forall ps i, (i < length ps)%nat -> aget ps (Z.of_nat i) = Ok (corner ps i).
Proof.
  intros ps i H. unfold corner. rewrite Nat.mod_small by exact H. rewrite <- (Nat2Z.id i) at 2. apply aget_Ok.
  unfold alen. lia.
Qed.

Definition good (ps : list (Z * Z)) (i : nat) : Prop :=
  corner ps i <> corner ps (i + 1) /\
  0 <= orient (corner ps 0) (corner ps i) (corner ps (i + 1)) /\
  0 <= orient (corner ps i) (corner ps (i + 1)) (corner ps (i + 2)).

Lemma convexLoop_ok : forall ps l h, inRange ps -> (3 <= length ps)%nat -> (forall i, In i l -> (i < length ps)%nat) ->
  exists b, convexLoop ps (alen ps) (map Z.of_nat l) h = Ok b /\
    (b = true <-> (forall i, In i l -> good ps i) /\
       (h = true \/ exists i, In i l /\ orient (corner ps i) (corner ps (i + 1)) (corner ps (i + 2)) <> 0)).
Proof.
  intros ps l h R N. revert h. induction l as [|i l IH]; intros h B.
  - exists h. split; [reflexivity|]. split; [intros ->; split; [intros i []|auto]|].
    intros (_ & [H|(i & [] & _)]). exact H.
  - cbn [map convexLoop]. rewrite aget_corner0 by (apply B; left; reflexivity). cbn [bind].
    change (Z.of_nat i + 1) with (Z.of_nat i + Z.of_nat 1). change (Z.of_nat i + 2) with (Z.of_nat i + Z.of_nat 2).
    rewrite !aget_corner by exact N. cbn [bind]. change 0 with (Z.of_nat 0) at 1.
    rewrite aget_corner0 by lia. cbn [bind].
    rewrite !cross3_ok by (apply corner_small; exact R). cbn [bind].
    destruct (pointEq (corner ps i) (corner ps (i + 1))) eqn:E.
    { exists false. split; [reflexivity|]. split; [discriminate|]. intros (G & _).
      apply pointEq_iff in E. destruct (G i (or_introl eq_refl)). contradiction. }
    destruct (Z.ltb_spec (orient (corner ps 0) (corner ps i) (corner ps (i + 1))) 0).
    { exists false. split; [reflexivity|]. split; [discriminate|]. intros (G & _).
      destruct (G i (or_introl eq_refl)) as (_ & G1 & _). lia. }
    destruct (Z.ltb_spec (orient (corner ps i) (corner ps (i + 1)) (corner ps (i + 2))) 0).
    { exists false. split; [reflexivity|]. split; [discriminate|]. intros (G & _).
      destruct (G i (or_introl eq_refl)) as (_ & _ & G1). lia. }
    destruct (IH (h || negb (orient (corner ps i) (corner ps (i + 1)) (corner ps (i + 2)) =? 0))) as (b & Eb & Hb).
    { intros j J. apply B. right. exact J. }
    exists b. split; [exact Eb|]. rewrite Hb, orb_true_iff, negb_true_iff, Z.eqb_neq. split.
    + intros (G & A). split.
      * intros j [<-|J]; [|apply G; exact J]. split; [|split; assumption]. intros Q. apply pointEq_iff in Q. congruence.
      * destruct A as [[A|A]|(j & J & A)]; [auto|right; exists i; split; [left; reflexivity|exact A]|].
        right. exists j. split; [right; exact J|exact A].
    + intros (G & A). split; [intros j J; apply G; right; exact J|].
      destruct A as [A|(j & [<-|J] & A)]; [auto|auto|]. right. exists j. auto.
Qed.

Lemma indices_eq : forall ps : list (Z * Z), indices (alen ps) = map Z.of_nat (seq 0 (length ps)).
Proof. intros. unfold indices, alen. rewrite Nat2Z.id. reflexivity. Qed.

Lemma isConvex_ok : forall ps, inRange ps -> exists b, isConvex ps = Ok b /\
  (b = true <-> (3 <= length ps)%nat /\ (forall i, (i < length ps)%nat -> good ps i) /\
     exists i, (i < length ps)%nat /\ orient (corner ps i) (corner ps (i + 1)) (corner ps (i + 2)) <> 0).
Proof.
  intros ps R. unfold isConvex. rewrite assertBounds_ok by exact R. cbn [bind].
  destruct (Z.ltb_spec (alen ps) 3) as [L|L]; unfold alen in L.
  - exists false. split; [reflexivity|]. split; [discriminate|]. intros (H & _). lia.
  - rewrite indices_eq. destruct (convexLoop_ok ps (seq 0 (length ps)) false R) as (b & E & H); [lia| |].
    { intros i I. apply in_seq in I. lia. }
    exists b. split; [exact E|]. rewrite H. split.
    + intros (G & [A|(i & I & A)]); [discriminate|]. split; [lia|]. split.
      * intros j J. apply G. apply in_seq. lia.
      * exists i. apply in_seq in I. split; [lia|exact A].
    + intros (_ & G & i & I & A). split.
      * intros j J. apply in_seq in J. apply G. lia.
      * right. exists i. split; [apply in_seq; lia|exact A].
Qed.

Lemma strictLoop_ok : forall ps l, inRange ps -> (3 <= length ps)%nat -> (forall i, In i l -> (i < length ps)%nat) ->
  exists b, strictLoop ps (alen ps) (map Z.of_nat l) = Ok b /\
    (b = true <-> forall i, In i l -> orient (corner ps i) (corner ps (i + 1)) (corner ps (i + 2)) <> 0).
Proof.
  intros ps l R N. induction l as [|i l IH]; intros B.
  - exists true. split; [reflexivity|]. split; [intros _ i []|reflexivity].
  - cbn [map strictLoop]. rewrite aget_corner0 by (apply B; left; reflexivity). cbn [bind].
    change (Z.of_nat i + 1) with (Z.of_nat i + Z.of_nat 1). change (Z.of_nat i + 2) with (Z.of_nat i + Z.of_nat 2).
    rewrite !aget_corner by exact N. cbn [bind].
    rewrite !cross3_ok by (apply corner_small; exact R). cbn [bind].
    destruct (Z.eqb_spec (orient (corner ps i) (corner ps (i + 1)) (corner ps (i + 2))) 0) as [E|E].
    { exists false. split; [reflexivity|]. split; [discriminate|]. intros G. exfalso. apply (G i (or_introl eq_refl) E). }
    destruct IH as (b & Eb & Hb). { intros j J. apply B. right. exact J. }
    exists b. split; [exact Eb|]. rewrite Hb. split.
    + intros G j [<-|J]; [exact E|apply G; exact J].
    + intros G j J. apply G. right. exact J.
Qed.

Lemma isStrictlyConvex_ok : forall ps, inRange ps -> exists b, isStrictlyConvex ps = Ok b /\
  (b = true <-> (3 <= length ps)%nat /\ (forall i, (i < length ps)%nat -> good ps i /\
     0 < orient (corner ps i) (corner ps (i + 1)) (corner ps (i + 2)))).
Proof.
  intros ps R. unfold isStrictlyConvex. destruct (isConvex_ok ps R) as (b & E & H). rewrite E. cbn [bind].
  destruct b; cbn [negb].
  - destruct (proj1 H eq_refl) as (L & G & _). rewrite indices_eq.
    destruct (strictLoop_ok ps (seq 0 (length ps)) R L) as (b & E2 & H2).
    { intros i I. apply in_seq in I. lia. }
    exists b. split; [exact E2|]. rewrite H2. split.
    + intros S0. split; [exact L|]. intros i I. split; [apply G; exact I|].
      assert (Q : In i (seq 0 (length ps))) by (apply in_seq; lia). specialize (S0 i Q).
      destruct (G i I) as (_ & _ & G3). lia.
    + intros (_ & S0) i I. apply in_seq in I. destruct (S0 i); lia.
  - exists false. split; [reflexivity|]. split; [discriminate|]. intros (L & S0). apply H. split; [exact L|]. split.
    + intros i I. apply S0. exact I.
    + exists 0%nat. split; [lia|]. destruct (S0 0%nat); lia.
Qed.

(* ------------------------------------------------------------ corners *)

Lemma corner_mod : forall ps i, corner ps (i mod length ps) = corner ps i.
Proof.
  intros ps i. unfold corner. destruct (length ps) eqn:E; [reflexivity|]. rewrite Nat.mod_mod by lia. reflexivity.
Qed.

Lemma corner_mod_add : forall ps i k, corner ps (i mod length ps + k) = corner ps (i + k).
Proof.
  intros ps i k. unfold corner. destruct (length ps) eqn:E; [reflexivity|]. rewrite Nat.add_mod_idemp_l by lia. reflexivity.
Qed.

Lemma rotate_length : forall k ps, length (rotate k ps) = length ps.
Proof. intros. unfold rotate. rewrite app_length, skipn_length, firstn_length. lia. Qed.

Lemma rotate_range : forall k ps, inRange ps -> inRange (rotate k ps).
Proof.
  intros k ps R. unfold inRange, rotate in *. rewrite <- (firstn_skipn k ps) in R.
  apply Forall_app in R. apply Forall_app. tauto.
Qed.

Lemma corner_rotate : forall k ps i, (k <= length ps)%nat -> corner (rotate k ps) i = corner ps (k + i).
Proof.
  intros k ps i K. unfold corner. rewrite rotate_length. destruct (length ps) as [|n'] eqn:E.
  { destruct ps; [|discriminate]. unfold rotate. rewrite skipn_nil, firstn_nil. cbn [app]. destruct (i mod 0)%nat, ((k + i) mod 0)%nat; reflexivity. }
  rewrite <- E in *. assert (N : (0 < length ps)%nat) by lia. clear n' E.
  rewrite <- Nat.add_mod_idemp_r by lia.
  pose proof (Nat.mod_upper_bound i (length ps) ltac:(lia)) as M. set (j := (i mod length ps)%nat) in *.
  unfold rotate. destruct (Nat.lt_ge_cases j (length ps - k)) as [J|J].
  - rewrite app_nth1 by (rewrite skipn_length; lia). rewrite Nat.mod_small by lia.
    transitivity (nth (k + j) (firstn k ps ++ skipn k ps) (0, 0)); [|rewrite firstn_skipn; reflexivity].
    rewrite app_nth2; rewrite firstn_length, Nat.min_l by lia; [|lia]. f_equal. lia.
  - rewrite app_nth2 by (rewrite skipn_length; lia). rewrite skipn_length.
    replace ((k + j) mod length ps)%nat with (k + j - length ps)%nat.
    + transitivity (nth (k + j - length ps) (firstn k ps ++ skipn k ps) (0, 0)); [|rewrite firstn_skipn; reflexivity].
      rewrite app_nth1 by (rewrite firstn_length; lia). f_equal. lia.
    + apply Nat.mod_unique with (q := 1%nat); lia.
Qed.

(* ------------------------------------------------------------ convex polygons are accepted *)

Lemma orient_cycle : forall a b c, orient a b c = orient b c a.
Proof. intros. unfold orient. ring. Qed.

Lemma orient_swap : forall a b c, orient a c b = - orient a b c.
Proof. intros. unfold orient. ring. Qed.

Lemma orient_same : forall a b, orient a b b = 0 /\ orient a a b = 0 /\ orient a b a = 0.
Proof. intros. unfold orient. repeat split; ring. Qed.

(* b - a and c - b parallel, c - b and d - c parallel *)
Lemma collinear_step : forall o b c d, b <> c -> orient o b c = 0 -> orient b c d = 0 -> orient o c d = 0.
Proof.
  intros [ox oy] [bx by_] [cx cy] [dx dy] N. unfold orient. cbn [fst snd]. intros H1 H2.
  assert (K : (cx - bx) * ((cx - ox) * (dy - oy) - (cy - oy) * (dx - ox)) = 0 /\
              (cy - by_) * ((cx - ox) * (dy - oy) - (cy - oy) * (dx - ox)) = 0).
  { split.
    - transitivity ((cx - ox) * (((cx - bx) * (dy - by_) - (cy - by_) * (dx - bx)) - ((bx - ox) * (cy - oy) - (by_ - oy) * (cx - ox))) +
         (dx - ox) * ((bx - ox) * (cy - oy) - (by_ - oy) * (cx - ox))); [ring|]. rewrite H1, H2. ring.
    - transitivity ((cy - oy) * (((cx - bx) * (dy - by_) - (cy - by_) * (dx - bx)) - ((bx - ox) * (cy - oy) - (by_ - oy) * (cx - ox))) +
         (dy - oy) * ((bx - ox) * (cy - oy) - (by_ - oy) * (cx - ox))); [ring|]. rewrite H1, H2. ring. }
  destruct K as (K1 & K2). apply Z.mul_eq_0 in K1. apply Z.mul_eq_0 in K2.
  destruct K1 as [K1|K1]; [|exact K1]. destruct K2 as [K2|K2]; [|exact K2].
  exfalso. apply N. f_equal; lia.
Qed.

Lemma collinear3 : forall a b x y z, a <> b -> orient a b x = 0 -> orient a b y = 0 -> orient a b z = 0 ->
  orient x y z = 0.
Proof.
  intros [ax ay] [bx by_] [x x'] [y y'] [z z'] N. unfold orient. cbn [fst snd]. intros H1 H2 H3.
  set (u := bx - ax) in *. set (v := by_ - ay) in *.
  assert (E1 : u * (y' - x') = v * (y - x)) by lia.
  assert (E2 : u * (z' - x') = v * (z - x)) by lia.
  assert (K1 : u * ((y - x) * (z' - x') - (y' - x') * (z - x)) = 0).
  { transitivity ((y - x) * (u * (z' - x')) - (u * (y' - x')) * (z - x)); [ring|]. rewrite E1, E2. ring. }
  assert (K2 : v * ((y - x) * (z' - x') - (y' - x') * (z - x)) = 0).
  { transitivity ((v * (y - x)) * (z' - x') - (y' - x') * (v * (z - x))); [ring|]. rewrite <- E1, <- E2. ring. }
  apply Z.mul_eq_0 in K1. apply Z.mul_eq_0 in K2.
  destruct K1 as [K1|K1]; [|exact K1]. destruct K2 as [K2|K2]; [|exact K2].
  exfalso. apply N. f_equal; unfold u, v in *; lia.
Qed.

Lemma all_collinear : forall ps, (0 < length ps)%nat -> (forall i, corner ps i <> corner ps (i + 1)) ->
  (forall i, orient (corner ps i) (corner ps (i + 1)) (corner ps (i + 2)) = 0) ->
  forall i j k, orient (corner ps i) (corner ps j) (corner ps k) = 0.
Proof.
  intros ps L D H.
  assert (A : forall j d, orient (corner ps j) (corner ps (j + d)) (corner ps (j + d + 1)) = 0).
  { intros j. induction d as [|d IH].
    - rewrite Nat.add_0_r. apply orient_same.
    - replace (j + S d)%nat with (j + d + 1)%nat by lia. replace (j + d + 1 + 1)%nat with (j + d + 2)%nat by lia.
      apply (collinear_step _ (corner ps (j + d))); [apply D|exact IH|apply H]. }
  assert (B : forall j, orient (corner ps 0) (corner ps 1) (corner ps j) = 0).
  { intros j. rewrite <- orient_cycle.
    specialize (A (j mod length ps) (length ps - j mod length ps))%nat.
    pose proof (Nat.mod_upper_bound j (length ps) ltac:(lia)) as M.
    replace (j mod length ps + (length ps - j mod length ps))%nat with (length ps) in A by lia.
    rewrite corner_mod in A.
    replace (corner ps (length ps)) with (corner ps 0) in A
      by (rewrite <- (corner_mod ps (length ps)), Nat.mod_same by lia; reflexivity).
    replace (corner ps (length ps + 1)) with (corner ps 1) in A; [exact A|].
    rewrite <- (corner_mod_add ps (length ps) 1), Nat.mod_same by lia. reflexivity. }
  intros i j k. apply (collinear3 (corner ps 0) (corner ps 1)); auto. apply (D 0%nat).
Qed.

Lemma convex_accepted : forall ps, inRange ps -> convex ps -> isConvex ps = Ok true.
Proof.
  intros ps R (L & D & O & A). destruct (isConvex_ok ps R) as (b & E & H). rewrite E. f_equal. apply H.
  split; [exact L|]. split.
  - intros i I. split; [apply D|]. split; [|apply O]. rewrite orient_cycle. apply O.
  - assert (Q : forall l : list nat, (exists i, In i l /\ orient (corner ps i) (corner ps (i + 1)) (corner ps (i + 2)) <> 0)
      \/ (forall i, In i l -> orient (corner ps i) (corner ps (i + 1)) (corner ps (i + 2)) = 0)).
    { induction l as [|i l [(j & J & Hj)|IH]]; [right; intros i []|left; exists j; split; [right; exact J|exact Hj]|].
      destruct (Z.eq_dec (orient (corner ps i) (corner ps (i + 1)) (corner ps (i + 2))) 0) as [Z0|Z0].
      - right. intros j [<-|J]; auto.
      - left. exists i. split; [left; reflexivity|exact Z0]. }
    destruct (Q (seq 0 (length ps))) as [(i & I & Hi)|Q'].
    + apply in_seq in I. exists i. split; [lia|exact Hi].
    + exfalso. destruct A as (i & j & k & A). apply A. apply all_collinear; [lia|exact D|].
      intros m. rewrite <- (corner_mod ps m), <- (corner_mod_add ps m 1), <- (corner_mod_add ps m 2). apply Q'. apply in_seq.
      pose proof (Nat.mod_upper_bound m (length ps)). lia.
Qed.

Lemma rotate_convex : forall k ps, (k <= length ps)%nat -> convex ps -> convex (rotate k ps).
Proof.
  intros k ps K (L & D & O & a & b & c & A). split; [rewrite rotate_length; exact L|]. split; [|split].
  - intros i. rewrite !corner_rotate by exact K. rewrite Nat.add_assoc. apply D.
  - intros i j. rewrite !corner_rotate by exact K. rewrite Nat.add_assoc. apply O.
  - assert (Q : forall i, exists i', corner (rotate k ps) i' = corner ps i).
    { intros i. exists (i + (length ps - k))%nat. rewrite corner_rotate by exact K.
      replace (k + (i + (length ps - k)))%nat with (length ps + i)%nat by lia.
      rewrite <- corner_mod_add, Nat.mod_same by lia. reflexivity. }
    destruct (Q a) as (a' & Ea). destruct (Q b) as (b' & Eb). destruct (Q c) as (c' & Ec).
    exists a', b', c'. rewrite Ea, Eb, Ec. exact A.
Qed.

Lemma convex_rotations : forall ps, inRange ps -> ps <> [] ->
  (convex ps <-> forall k, (k < length ps)%nat -> isConvex (rotate k ps) = Ok true).
Proof.
  intros ps R N. split.
  - intros C k K. apply convex_accepted; [apply rotate_range; exact R|]. apply rotate_convex; [lia|exact C].
  - intros H. assert (L0 : (0 < length ps)%nat) by (destruct ps; [congruence|cbn; lia]).
    assert (G : forall k, (k < length ps)%nat -> (3 <= length ps)%nat /\
      (forall i, (i < length ps)%nat -> good (rotate k ps) i) /\
      exists i, (i < length ps)%nat /\
        orient (corner (rotate k ps) i) (corner (rotate k ps) (i + 1)) (corner (rotate k ps) (i + 2)) <> 0).
    { intros k K. destruct (isConvex_ok (rotate k ps) (rotate_range k ps R)) as (b & E & Hb).
      rewrite rotate_length in Hb. apply Hb. rewrite (H k K) in E. congruence. }
    destruct (G 0%nat L0) as (L & G0 & i0 & I0 & A0).
    assert (R0 : rotate 0 ps = ps) by (unfold rotate; cbn [skipn firstn]; apply app_nil_r). rewrite R0 in *.
    split; [exact L|]. split; [|split].
    + intros i. rewrite <- (corner_mod ps i), <- (corner_mod_add ps i 1). apply G0. apply Nat.mod_upper_bound. lia.
    + intros i j. rewrite <- (corner_mod ps i), <- (corner_mod_add ps i 1), <- (corner_mod ps j).
      pose proof (Nat.mod_upper_bound i (length ps)) as Mi. pose proof (Nat.mod_upper_bound j (length ps)) as Mj.
      set (i1 := (i mod length ps)%nat) in *. set (j1 := (j mod length ps)%nat) in *.
      destruct (G j1) as (_ & Gj & _); [lia|].
      destruct (Gj ((i1 + (length ps - j1)) mod length ps)%nat) as (_ & Q & _); [apply Nat.mod_upper_bound; lia|].
      rewrite !corner_rotate in Q by lia. rewrite Nat.add_0_r in Q.
      set (x := (i1 + (length ps - j1))%nat) in *.
      replace (j1 + x mod length ps)%nat with (x mod length ps + j1)%nat in Q by lia.
      replace (j1 + (x mod length ps + 1))%nat with (x mod length ps + (1 + j1))%nat in Q by lia.
      rewrite !corner_mod_add in Q.
      replace (x + j1)%nat with (length ps + i1)%nat in Q by lia.
      replace (x + (1 + j1))%nat with (length ps + (i1 + 1))%nat in Q by lia.
      rewrite <- (corner_mod_add ps (length ps) i1), <- (corner_mod_add ps (length ps) (i1 + 1)), Nat.mod_same in Q by lia.
      rewrite orient_cycle in Q. exact Q.
    + exists i0, (i0 + 1)%nat, (i0 + 2)%nat. exact A0.
Qed.
