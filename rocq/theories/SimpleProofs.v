(* Segments in the plane with respect to a sweep line in the order of U. *)
From Verif Require Import Tac GeoModel GeoSpec GeoProofs.

(* the order of the events is the lexicographic one: a shear makes it the order of one number *)
Definition U (p : Z * Z) : Z := 4294967296 * fst p + snd p.

Lemma U_lt : forall p q, small p -> small q ->
  (U p < U q <-> fst p < fst q \/ fst p = fst q /\ snd p < snd q).
Proof. intros p q (A & B) (C & D). unfold U. lia. Qed.

Lemma U_inj : forall p q, small p -> small q -> U p = U q -> p = q.
Proof.
  intros [a b] [c d] (A & B) (C & D). unfold U. cbn [fst snd] in *. intros E.
  assert (a = c) by lia. assert (b = d) by lia. congruence.
Qed.

(* the segment lr at a point in the sweep line through q *)
Definition inU (l r q : Z * Z) : Prop := U l <= U q <= U r.

(* orient as an affine function on the other segment *)
Lemma side_split : forall a b c d q,
  orient a b q * (U d - U c) =
  orient a b c * (U d - U q) + orient a b d * (U q - U c) + (U b - U a) * orient c d q.
Proof. intros [ax ay] [bx by_] [cx cy] [dx dy] [qx qy]. unfold orient, U. cbn [fst snd]. ring. Qed.

Lemma side_diff : forall a b c d, orient a b d - orient a b c = orient c d a - orient c d b.
Proof. intros [ax ay] [bx by_] [cx cy] [dx dy]. unfold orient. cbn [fst snd]. ring. Qed.

Lemma pos_mul : forall x y, 0 < y -> (0 < x * y <-> 0 < x) /\ (x * y < 0 <-> x < 0) /\ (x * y = 0 <-> x = 0).
Proof. intros. nia. Qed.

Lemma neg_mul : forall x y, x * y < 0 -> 0 < x /\ y < 0 \/ x < 0 /\ 0 < y.
Proof. intros. destruct (Z.lt_trichotomy x 0) as [?|[?|?]]; [right|subst; lia|left]; nia. Qed.

(* segment ab is below cd *)
Definition Below (a b c d : Z * Z) : Prop :=
  forall q, inU a b q -> inU c d q ->
    (0 < orient c d q -> 0 < orient a b q) /\ (orient a b q < 0 -> orient c d q < 0).

Section two.
  Variables a b c d : Z * Z.
  Hypothesis AB : U a < U b.
  Hypothesis CD : U c < U d.

  (* cd lies on or above the line through ab *)
  Lemma below_up : forall q, inU c d q ->
    0 <= orient a b c * (U d - U q) + orient a b d * (U q - U c) ->
    (0 < orient c d q -> 0 < orient a b q) /\ (orient a b q < 0 -> orient c d q < 0).
  Proof.
    intros q Q H. pose proof (side_split a b c d q) as I.
    pose proof (pos_mul (orient a b q) (U d - U c) ltac:(lia)) as (P1 & P2 & _).
    pose proof (pos_mul (orient c d q) (U b - U a) ltac:(lia)) as (Q1 & Q2 & _).
    split; intros S.
    - apply P1. rewrite I. apply Q1 in S. lia.
    - apply Q2. apply P2 in S. lia.
  Qed.

  (* ab lies on or below the line through cd *)
  Lemma below_down : forall q, inU a b q ->
    orient c d a * (U b - U q) + orient c d b * (U q - U a) <= 0 ->
    (0 < orient c d q -> 0 < orient a b q) /\ (orient a b q < 0 -> orient c d q < 0).
  Proof.
    intros q Q H. pose proof (side_split c d a b q) as I.
    pose proof (pos_mul (orient c d q) (U b - U a) ltac:(lia)) as (P1 & P2 & _).
    pose proof (pos_mul (orient a b q) (U d - U c) ltac:(lia)) as (Q1 & Q2 & _).
    split; intros S.
    - apply Q1. apply P1 in S. lia.
    - apply P2. rewrite I. apply Q2 in S. lia.
  Qed.
End two.

(* the result of the test of the header *)
Definition apart (a b c d : Z * Z) : Prop :=
  ~ (Z.sgn (orient a b c) * orient a b d <= 0 /\ Z.sgn (orient c d a) * orient c d b <= 0).

Lemma sgn_pos : forall x y, 0 < Z.sgn x * y -> 0 < x /\ 0 < y \/ x < 0 /\ y < 0.
Proof. intros. destruct (Z.sgn_spec x) as [(S & E)|[(S & E)|(S & E)]]; rewrite E in *; lia. Qed.

Lemma apart_cases : forall a b c d, apart a b c d ->
  0 < orient a b c /\ 0 < orient a b d \/ orient a b c < 0 /\ orient a b d < 0 \/
  0 < orient c d a /\ 0 < orient c d b \/ orient c d a < 0 /\ orient c d b < 0.
Proof.
  intros a b c d H. unfold apart in H.
  destruct (Z_lt_le_dec 0 (Z.sgn (orient a b c) * orient a b d)) as [S|S].
  - apply sgn_pos in S. tauto.
  - destruct (Z_lt_le_dec 0 (Z.sgn (orient c d a) * orient c d b)) as [S'|S']; [apply sgn_pos in S'; tauto|tauto].
Qed.

Lemma apart_sym : forall a b c d, apart a b c d -> apart c d a b.
Proof. unfold apart. tauto. Qed.

Lemma combo_pos : forall x y s t, 0 < x -> 0 < y -> 0 <= s -> 0 <= t -> 0 < s + t -> 0 < x * s + y * t.
Proof. intros. nia. Qed.
Lemma combo_neg : forall x y s t, x < 0 -> y < 0 -> 0 <= s -> 0 <= t -> 0 < s + t -> x * s + y * t < 0.
Proof. intros. nia. Qed.

Lemma apart_below : forall a b c d q, U a < U b -> U c < U d -> apart a b c d ->
  inU a b q -> inU c d q -> 0 <= orient a b q -> orient c d q <= 0 -> Below a b c d.
Proof.
  intros a b c d q AB CD A Qa Qc Sa Sc.
  destruct (apart_cases _ _ _ _ A) as [(H1 & H2)|[(H1 & H2)|[(H1 & H2)|(H1 & H2)]]].
  - intros r Ra Rc. apply below_up; try assumption. unfold inU in *.
    pose proof (combo_pos (orient a b c) (orient a b d) (U d - U r) (U r - U c)). lia.
  - exfalso. pose proof (side_split a b c d q) as I. unfold inU in *.
    pose proof (combo_neg (orient a b c) (orient a b d) (U d - U q) (U q - U c)).
    pose proof (pos_mul (orient a b q) (U d - U c) ltac:(lia)).
    pose proof (pos_mul (orient c d q) (U b - U a) ltac:(lia)). nia.
  - exfalso. pose proof (side_split c d a b q) as I. unfold inU in *.
    pose proof (combo_pos (orient c d a) (orient c d b) (U b - U q) (U q - U a)).
    pose proof (pos_mul (orient c d q) (U b - U a) ltac:(lia)).
    pose proof (pos_mul (orient a b q) (U d - U c) ltac:(lia)). nia.
  - intros r Ra Rc. apply below_down; try assumption. unfold inU in *.
    pose proof (combo_neg (orient c d a) (orient c d b) (U b - U r) (U r - U a)). lia.
Qed.

(* two segments with the same point on both are not apart *)
Lemma on_not_apart : forall a b c d q, U a < U b -> U c < U d ->
  inU a b q -> inU c d q -> orient a b q = 0 -> orient c d q = 0 -> ~ apart a b c d.
Proof.
  intros a b c d q AB CD Qa Qc Sa Sc A.
  pose proof (side_split a b c d q) as I. pose proof (side_split c d a b q) as J.
  rewrite Sa, Sc in *. unfold inU in *.
  destruct (apart_cases _ _ _ _ A) as [(H1 & H2)|[(H1 & H2)|[(H1 & H2)|(H1 & H2)]]].
  - pose proof (combo_pos (orient a b c) (orient a b d) (U d - U q) (U q - U c)). lia.
  - pose proof (combo_neg (orient a b c) (orient a b d) (U d - U q) (U q - U c)). lia.
  - pose proof (combo_pos (orient c d a) (orient c d b) (U b - U q) (U q - U a)). lia.
  - pose proof (combo_neg (orient c d a) (orient c d b) (U b - U q) (U q - U a)). lia.
Qed.

Lemma orient_end1 : forall a b, orient a b a = 0.
Proof. intros. unfold orient. ring. Qed.
Lemma orient_end2 : forall a b, orient a b b = 0.
Proof. intros. unfold orient. ring. Qed.

(* common right end *)
Lemma below_right : forall a c v q, U a < U v -> U c < U v -> orient a v c <> 0 ->
  inU a v q -> inU c v q -> 0 <= orient a v q -> orient c v q <= 0 ->
  orient a v q <> 0 \/ orient c v q <> 0 -> Below a v c v.
Proof.
  intros a c v q AV CV N Qa Qc Sa Sc Z.
  destruct (Z_lt_le_dec 0 (orient a v c)) as [P|P].
  - intros r Ra Rc. apply below_up; try assumption. rewrite orient_end2. unfold inU in *. nia.
  - exfalso. pose proof (side_split a v c v q) as I. rewrite orient_end2 in I. unfold inU in *.
    assert (S1 : 0 <= orient a v q * (U v - U c)) by nia.
    assert (S2 : (U v - U a) * orient c v q <= 0) by nia.
    assert (S3 : orient a v c * (U v - U q) <= 0) by nia.
    assert (E1 : orient a v q * (U v - U c) = 0) by lia.
    assert (E2 : (U v - U a) * orient c v q = 0) by lia.
    apply Z.mul_eq_0 in E1. apply Z.mul_eq_0 in E2. lia.
Qed.

(* common left end *)
Lemma below_left_pos : forall v b d, U v < U b -> U v < U d -> 0 < orient v b d -> Below v b v d.
Proof.
  intros v b d VB VD P r Ra Rc. apply below_up; try assumption. rewrite orient_end1. unfold inU in *. nia.
Qed.

Lemma below_left : forall v b d q, U v < U b -> U v < U d -> orient v b d <> 0 ->
  inU v b q -> inU v d q -> 0 <= orient v b q -> orient v d q <= 0 ->
  orient v b q <> 0 \/ orient v d q <> 0 -> Below v b v d.
Proof.
  intros v b d q VB VD N Qa Qc Sa Sc Z.
  destruct (Z_lt_le_dec 0 (orient v b d)) as [P|P]; [apply below_left_pos; assumption|].
  exfalso. pose proof (side_split v b v d q) as I. rewrite orient_end1 in I. unfold inU in *.
  assert (S1 : 0 <= orient v b q * (U d - U v)) by nia.
  assert (S2 : (U b - U v) * orient v d q <= 0) by nia.
  assert (S3 : orient v b d * (U q - U v) <= 0) by nia.
  assert (E1 : orient v b q * (U d - U v) = 0) by lia.
  assert (E2 : (U b - U v) * orient v d q = 0) by lia.
  apply Z.mul_eq_0 in E1. apply Z.mul_eq_0 in E2. lia.
Qed.

(* the right end of one is the left end of the other *)
Lemma below_chain1 : forall a v d, U a < U v -> U v < U d -> Below a v v d.
Proof.
  intros a v d AV VD r Ra Rc. apply below_up; try assumption. unfold inU in *.
  assert (U r = U v) by lia. rewrite orient_end2. nia.
Qed.
Lemma below_chain2 : forall a v d, U a < U v -> U v < U d -> Below v d a v.
Proof.
  intros a v d AV VD r Ra Rc. apply below_down; try assumption. unfold inU in *.
  assert (U r = U v) by lia. rewrite orient_end2. nia.
Qed.

(* onSegment in terms of the sweep *)
Lemma on_iff : forall l r q, small l -> small r -> small q -> U l < U r ->
  (onSegment l r q <-> orient l r q = 0 /\ inU l r q).
Proof.
  intros l r q Sl Sr Sq LR. unfold onSegment, between, inU. split.
  - intros (O & (X1 & X2) & Y1 & Y2). split; [exact O|].
    apply (U_lt l r Sl Sr) in LR. destruct l as [lx ly], r as [rx ry], q as [qx qy].
    unfold small, U, orient in *. cbn [fst snd] in *.
    destruct LR as [X|(X & Y)]; [|lia].
    rewrite Z.min_l in X1 by lia. rewrite Z.max_r in X2 by lia.
    destruct (Z.eq_dec qx lx) as [E|E].
    + subst qx. assert ((rx - lx) * (qy - ly) = 0) as O' by lia. apply Z.mul_eq_0 in O'. lia.
    + destruct (Z.eq_dec qx rx) as [E'|E']; [|lia].
      subst qx. assert ((rx - lx) * (qy - ry) = 0) as O' by nia. apply Z.mul_eq_0 in O'. lia.
  - intros (O & I). split; [exact O|].
    assert (LQ : U l = U q \/ U l < U q) by lia. assert (QR : U q = U r \/ U q < U r) by lia.
    destruct LQ as [E|LQ]; [apply U_inj in E; [subst q; lia|assumption|assumption]|].
    destruct QR as [E|QR]; [apply U_inj in E; [subst q; lia|assumption|assumption]|].
    apply U_lt in LR, LQ, QR; try assumption. clear I Sl Sr Sq.
    destruct l as [lx ly], r as [rx ry], q as [qx qy]. unfold orient in *. cbn [fst snd] in *.
    destruct LR as [X|(X & Y)]; [|lia].
    destruct (Z.eq_dec qx lx) as [E|E].
    + subst qx. assert ((rx - lx) * (qy - ly) = 0) as O' by lia. apply Z.mul_eq_0 in O'. lia.
    + destruct (Z.eq_dec qx rx) as [E'|E'].
      * subst qx. assert ((rx - lx) * (qy - ry) = 0) as O' by nia. apply Z.mul_eq_0 in O'. lia.
      * split; [lia|]. assert (lx < qx < rx) by lia. clear - O H X. nia.
Qed.

(* disjoint because both ends of cd are above ab *)
Lemma above_disjoint : forall a b c d, small a -> small b -> small c -> small d -> U a < U b -> U c < U d ->
  0 < orient a b c -> 0 < orient a b d -> ~ meet a b c d.
Proof.
  intros a b c d Sa Sb Sc Sd AB CD H1 H2 [(P & _)|[(P & _)|[(P & _)|[P|P]]]]; try nia.
  - apply on_iff in P; try assumption. destruct P as (P & Q). unfold inU in Q.
    pose proof (side_split a b c d a) as I. rewrite P, orient_end1 in I.
    pose proof (combo_pos (orient a b c) (orient a b d) (U d - U a) (U a - U c)). lia.
  - apply on_iff in P; try assumption. destruct P as (P & Q). unfold inU in Q.
    pose proof (side_split a b c d b) as I. rewrite P, orient_end2 in I.
    pose proof (combo_pos (orient a b c) (orient a b d) (U d - U b) (U b - U c)). lia.
Qed.

Lemma below_disjoint : forall a b c d, small a -> small b -> small c -> small d -> U a < U b -> U c < U d ->
  orient a b c < 0 -> orient a b d < 0 -> ~ meet a b c d.
Proof.
  intros a b c d Sa Sb Sc Sd AB CD H1 H2 [(P & _)|[(P & _)|[(P & _)|[P|P]]]]; try nia.
  - apply on_iff in P; try assumption. destruct P as (P & Q). unfold inU in Q.
    pose proof (side_split a b c d a) as I. rewrite P, orient_end1 in I.
    pose proof (combo_neg (orient a b c) (orient a b d) (U d - U a) (U a - U c)). lia.
  - apply on_iff in P; try assumption. destruct P as (P & Q). unfold inU in Q.
    pose proof (side_split a b c d b) as I. rewrite P, orient_end2 in I.
    pose proof (combo_neg (orient a b c) (orient a b d) (U d - U b) (U b - U c)). lia.
Qed.

(* cd starts first and ends first; the sign tells which one is above *)
Lemma stagger_disjoint : forall a b c d, small a -> small b -> small c -> small d -> U a < U b -> U c < U d ->
  U c <= U a -> U d <= U b -> orient c d a <> 0 -> orient c d a * orient a b d < 0 -> ~ meet a b c d.
Proof.
  intros a b c d Sa Sb Sc Sd AB CD H1 H2 N H [(P & Q)|[P|[(P & _)|[(P & _)|P]]]].
  - pose proof (side_diff a b c d). nia.
  - apply on_iff in P; try assumption. destruct P as (P & Q). unfold inU in Q.
    assert (E : c = a) by (apply U_inj; try assumption; lia). subst a. rewrite orient_end1 in N. lia.
  - nia.
  - lia.
  - apply on_iff in P; try assumption. destruct P as (P & Q). unfold inU in Q.
    assert (E : d = b) by (apply U_inj; try assumption; lia). subst b. rewrite orient_end2 in H. lia.
Qed.

Lemma meet_sym : forall a b c d, meet a b c d -> meet c d a b.
Proof. unfold meet, properlyCross. tauto. Qed.

(* one segment ends before the other starts *)
Lemma left_disjoint : forall a b c d, small a -> small b -> small c -> small d -> U a < U b -> U c < U d ->
  U b < U c -> ~ meet a b c d.
Proof.
  intros a b c d Sa Sb Sc Sd AB CD H [(P & Q)|[P|[P|[P|P]]]].
  - pose proof (side_split c d a b c) as I. rewrite orient_end1 in I.
    pose proof (side_diff a b c d) as J.
    assert (S : 0 < orient c d a /\ orient c d b < 0 \/ orient c d a < 0 /\ 0 < orient c d b) by (apply neg_mul; exact Q).
    destruct S as [(S1 & S2)|(S1 & S2)].
    + assert (orient c d a * (U b - U c) < 0) by nia. assert (orient c d b * (U c - U a) < 0) by nia.
      assert (0 < orient a b c) by nia. nia.
    + assert (0 < orient c d a * (U b - U c)) by nia. assert (0 < orient c d b * (U c - U a)) by nia.
      assert (orient a b c < 0) by nia. nia.
  - apply on_iff in P; try assumption. unfold inU in P. lia.
  - apply on_iff in P; try assumption. unfold inU in P. lia.
  - apply on_iff in P; try assumption. unfold inU in P. lia.
  - apply on_iff in P; try assumption. unfold inU in P. lia.
Qed.

(* segments that are not apart and reach the same sweep line meet *)
Lemma weak_meet : forall a b c d, small a -> small b -> small c -> small d -> U a < U b -> U c < U d ->
  U a <= U d -> U c <= U b -> orient a b c = 0 \/ orient a b d = 0 -> orient c d a * orient c d b <= 0 -> meet a b c d.
Proof.
  intros a b c d Sa Sb Sc Sd AB CD H1 H2 Z Q.
  pose proof (side_split a b c d a) as I. pose proof (side_split a b c d b) as J.
  rewrite orient_end1 in I. rewrite orient_end2 in J.
  destruct (Z.eq_dec (orient a b c) 0) as [E1|E1].
  - destruct (Z_le_gt_dec (U a) (U c)) as [L|L].
    { right. left. apply on_iff; try assumption. split; [exact E1|]. unfold inU. lia. }
    rewrite E1 in *. destruct (Z.eq_dec (orient a b d) 0) as [E2|E2].
    + rewrite E2 in *. right. right. right. left. apply on_iff; try assumption. split; [nia|]. unfold inU. lia.
    + exfalso. assert (0 < orient a b d \/ orient a b d < 0) as [S|S] by lia.
      * assert (0 < orient a b d * (U a - U c)) by nia. assert (0 < orient a b d * (U b - U c)) by nia.
        assert (orient c d a < 0) by nia. assert (orient c d b < 0) by nia. nia.
      * assert (orient a b d * (U a - U c) < 0) by nia. assert (orient a b d * (U b - U c) < 0) by nia.
        assert (0 < orient c d a) by nia. assert (0 < orient c d b) by nia. nia.
  - assert (E2 : orient a b d = 0) by tauto. rewrite E2 in *.
    destruct (Z_le_gt_dec (U d) (U b)) as [L|L].
    { right. right. left. apply on_iff; try assumption. split; [exact E2|]. unfold inU. lia. }
    exfalso. assert (0 < orient a b c \/ orient a b c < 0) as [S|S] by lia.
    * assert (0 < orient a b c * (U d - U a)) by nia. assert (0 < orient a b c * (U d - U b)) by nia.
      assert (orient c d a < 0) by nia. assert (orient c d b < 0) by nia. nia.
    * assert (orient a b c * (U d - U a) < 0) by nia. assert (orient a b c * (U d - U b) < 0) by nia.
      assert (0 < orient c d a) by nia. assert (0 < orient c d b) by nia. nia.
Qed.

Lemma not_meet_apart : forall a b c d, small a -> small b -> small c -> small d -> U a < U b -> U c < U d ->
  U a <= U d -> U c <= U b -> ~ meet a b c d -> apart a b c d.
Proof.
  intros a b c d Sa Sb Sc Sd AB CD H1 H2 N (P & Q). apply N. clear N.
  assert (P' : orient a b c * orient a b d <= 0) by (destruct (Z.sgn_spec (orient a b c)) as [(S & E)|[(S & E)|(S & E)]]; nia).
  assert (Q' : orient c d a * orient c d b <= 0) by (destruct (Z.sgn_spec (orient c d a)) as [(S & E)|[(S & E)|(S & E)]]; nia).
  clear P Q.
  destruct (Z.eq_dec (orient a b c) 0) as [E1|E1]; [apply weak_meet; auto|].
  destruct (Z.eq_dec (orient a b d) 0) as [E2|E2]; [apply weak_meet; auto|].
  destruct (Z.eq_dec (orient c d a) 0) as [E3|E3]; [apply meet_sym, weak_meet; auto|].
  destruct (Z.eq_dec (orient c d b) 0) as [E4|E4]; [apply meet_sym, weak_meet; auto|].
  left. split; nia.
Qed.
