(* Common points of segments; witnesses for isSimple. *)
From Verif Require Import Tac GeoModel GeoSpec GeoProofs GeoProofs2 GeoProofs3 SimpleModel SimpleSpec SimpleProofs SimpleProofs2 SimpleProofs3.

(* ---- meet is a common point *)
Lemma sq_pos : forall u v, u <> 0 \/ v <> 0 -> 0 < u * u + v * v.
Proof. intros. nia. Qed.

Lemma line_between : forall u v x y z, u <> 0 \/ v <> 0 ->
  u * (snd y - snd x) = v * (fst y - fst x) -> u * (snd z - snd x) = v * (fst z - fst x) ->
  u * fst x + v * snd x <= u * fst z + v * snd z <= u * fst y + v * snd y -> between x y z.
Proof.
  intros u v [x x'] [y y'] [z z'] N H1 H2 (F1 & F2). unfold between. cbn [fst snd] in *.
  set (w := u * u + v * v). assert (W : 0 < w) by (unfold w; nia).
  set (s := u * (z - x) + v * (z' - x')). set (t := u * (y - x) + v * (y' - x')).
  assert (S0 : 0 <= s <= t) by (unfold s, t; lia).
  assert (A : w * (z - x) = u * s /\ w * (y - x) = u * t).
  { unfold w, s, t. split.
    - transitivity (u * u * (z - x) + v * (v * (z - x))); [ring|rewrite <- H2; ring].
    - transitivity (u * u * (y - x) + v * (v * (y - x))); [ring|rewrite <- H1; ring]. }
  assert (B : w * (z' - x') = v * s /\ w * (y' - x') = v * t).
  { unfold w, s, t. split.
    - transitivity (v * v * (z' - x') + u * (u * (z' - x'))); [ring|rewrite H2; ring].
    - transitivity (v * v * (y' - x') + u * (u * (y' - x'))); [ring|rewrite H1; ring]. }
  destruct A as (A1 & A2), B as (B1 & B2). clearbody s t w. clear - W S0 A1 A2 B1 B2.
  split.
  - destruct (Z_le_gt_dec 0 u).
    + assert (w * (z - x) >= 0 /\ w * (y - z) >= 0) by nia. assert (0 <= z - x) by nia. assert (0 <= y - z) by nia. lia.
    + assert (w * (z - x) <= 0 /\ w * (y - z) <= 0) by nia. assert (z - x <= 0) by nia. assert (y - z <= 0) by nia. lia.
  - destruct (Z_le_gt_dec 0 v).
    + assert (w * (z' - x') >= 0 /\ w * (y' - z') >= 0) by nia. assert (0 <= z' - x') by nia. assert (0 <= y' - z') by nia. lia.
    + assert (w * (z' - x') <= 0 /\ w * (y' - z') <= 0) by nia. assert (z' - x' <= 0) by nia. assert (y' - z' <= 0) by nia. lia.
Qed.

Lemma segment_ratio : forall a b c, onSegment a b c ->
  exists m j, 0 < m /\ 0 <= j <= m /\ (m - j) * fst a + j * fst b = m * fst c /\ (m - j) * snd a + j * snd b = m * snd c.
Proof.
  intros [ax ay] [bx by_] [cx cy]. unfold onSegment, between, orient. cbn [fst snd]. intros (O & X & Y).
  destruct (Z.eq_dec ax bx) as [E|E]; [destruct (Z.eq_dec ay by_) as [F|F]|].
  - exists 1, 0. lia.
  - destruct (Z_lt_le_dec ay by_).
    + exists (by_ - ay), (cy - ay). assert (cx = ax) by lia. subst. lia.
    + exists (ay - by_), (ay - cy). assert (cx = ax) by lia. subst. lia.
  - destruct (Z_lt_le_dec ax bx).
    + exists (bx - ax), (cx - ax). lia.
    + exists (ax - bx), (ax - cx). lia.
Qed.

Lemma meet_common1 : forall a b c d, onSegment a b c -> commonPoint a b c d.
Proof.
  intros a b c d H. apply segment_ratio in H. destruct H as (m & j & M & J & E1 & E2).
  exists m, j, 0. split; [exact M|]. split; [exact J|]. split; [lia|]. split; lia.
Qed.
Lemma common_sym : forall a b c d, commonPoint a b c d -> commonPoint c d a b.
Proof. intros a b c d (m & j & k & M & J & K & E1 & E2). exists m, k, j. auto. Qed.
Lemma common_swap : forall a b c d, commonPoint a b c d -> commonPoint a b d c.
Proof. intros a b c d (m & j & k & M & J & K & E1 & E2). exists m, j, (m - k). split; [exact M|]. split; [exact J|]. split; [lia|]. split; lia. Qed.

Lemma meet_common : forall a b c d, meet a b c d -> commonPoint a b c d.
Proof.
  intros a b c d [(H & K)|[H|[H|[H|H]]]].
  - pose proof (side_diff a b c d) as D.
    assert (E : forall P : Z * Z -> Z, P = fst \/ P = snd ->
      (orient c d a - orient c d b - orient c d a) * P a + orient c d a * P b =
      (orient c d a - orient c d b + orient a b c) * P c - orient a b c * P d).
    { intros P [->| ->]; unfold orient; ring. }
    pose proof (E fst (or_introl eq_refl)) as E1. pose proof (E snd (or_intror eq_refl)) as E2. clear E.
    set (p := orient c d a) in *. set (q := orient c d b) in *. set (r := orient a b c) in *. set (s := orient a b d) in *.
    clearbody p q r s. apply neg_mul in H. apply neg_mul in K. destruct K as [K|K].
    + exists (p - q), p, (- r). split; [lia|]. split; [lia|]. split; [lia|]. split; lia.
    + exists (q - p), (- p), r. split; [lia|]. split; [lia|]. split; [lia|]. split; lia.
  - apply meet_common1, H.
  - apply common_swap, meet_common1, H.
  - apply common_sym, meet_common1, H.
  - apply common_sym, common_swap, meet_common1, H.
Qed.

(* a common point that is an end of a segment *)
Lemma ratio_segment : forall a b c m j, 0 < m -> 0 <= j <= m -> (m - j) * fst a + j * fst b = m * fst c ->
  (m - j) * snd a + j * snd b = m * snd c -> onSegment a b c.
Proof.
  intros [ax ay] [bx by_] [cx cy] m j M J. unfold onSegment, between, orient. cbn [fst snd]. intros E1 E2.
  assert (A : m * (cx - ax) = j * (bx - ax)) by lia. assert (B : m * (cy - ay) = j * (by_ - ay)) by lia.
  split.
  - assert (m * ((bx - ax) * (cy - ay) - (by_ - ay) * (cx - ax)) = 0) as O.
    { transitivity ((bx - ax) * (m * (cy - ay)) - (by_ - ay) * (m * (cx - ax))); [ring|]. rewrite A, B. ring. }
    apply Z.mul_eq_0 in O. lia.
  - assert (A' : m * (bx - cx) = (m - j) * (bx - ax)) by lia. assert (B' : m * (by_ - cy) = (m - j) * (by_ - ay)) by lia.
    split.
    + destruct (Z_le_gt_dec ax bx).
      * assert (0 <= cx - ax) by nia. assert (0 <= bx - cx) by nia. lia.
      * assert (cx - ax <= 0) by nia. assert (bx - cx <= 0) by nia. lia.
    + destruct (Z_le_gt_dec ay by_).
      * assert (0 <= cy - ay) by nia. assert (0 <= by_ - cy) by nia. lia.
      * assert (cy - ay <= 0) by nia. assert (by_ - cy <= 0) by nia. lia.
Qed.

Lemma common_meet : forall a b c d, commonPoint a b c d -> meet a b c d.
Proof.
  intros a b c d (m & j & k & M & J & K & E1 & E2).
  assert (Q : (m - k) * orient a b c + k * orient a b d = 0).
  { transitivity ((fst b - fst a) * ((m - k) * snd c + k * snd d - m * snd a) - (snd b - snd a) * ((m - k) * fst c + k * fst d - m * fst a));
      [unfold orient; ring|]. rewrite <- E1, <- E2. ring. }
  assert (P : (m - j) * orient c d a + j * orient c d b = 0).
  { transitivity ((fst d - fst c) * ((m - j) * snd a + j * snd b - m * snd c) - (snd d - snd c) * ((m - j) * fst a + j * fst b - m * fst c));
      [unfold orient; ring|]. rewrite E1, E2. ring. }
  destruct (Z.eq_dec k 0) as [->|K0].
  { right. left. apply (ratio_segment a b c m j); [exact M|exact J|lia|lia]. }
  destruct (Z.eq_dec k m) as [->|K1].
  { right. right. left. apply (ratio_segment a b d m j); [exact M|exact J|lia|lia]. }
  destruct (Z.eq_dec j 0) as [->|J0].
  { right. right. right. left. apply (ratio_segment c d a m k); [exact M|exact K|lia|lia]. }
  destruct (Z.eq_dec j m) as [->|J1].
  { right. right. right. right. apply (ratio_segment c d b m k); [exact M|exact K|lia|lia]. }
  destruct (Z.eq_dec (orient a b c) 0) as [C0|C0].
  - (* all on one line *)
    assert (D0 : orient a b d = 0) by (rewrite C0 in Q; assert (k * orient a b d = 0) as Q' by lia; apply Z.mul_eq_0 in Q'; lia).
    destruct (Z.eq_dec (fst b - fst a) 0) as [U0|U0]; [destruct (Z.eq_dec (snd b - snd a) 0) as [V0|V0]|].
    { right. right. right. left. apply (ratio_segment c d a m k); [exact M|exact K|rewrite <- E1; nia|rewrite <- E2; nia]. }
    all: assert (NZ : fst b - fst a <> 0 \/ snd b - snd a <> 0) by lia; clear U0; try clear V0.
    all: assert (F : (m - j) * 0 + j * ((fst b - fst a) * (fst b - fst a) + (snd b - snd a) * (snd b - snd a)) =
            (m - k) * ((fst b - fst a) * (fst c - fst a) + (snd b - snd a) * (snd c - snd a)) +
            k * ((fst b - fst a) * (fst d - fst a) + (snd b - snd a) * (snd d - snd a)))
      by (transitivity ((fst b - fst a) * ((m - j) * fst a + j * fst b - m * fst a) + (snd b - snd a) * ((m - j) * snd a + j * snd b - m * snd a)); [ring|];
          rewrite E1, E2; ring).
    all: assert (LA : forall z, orient a b z = 0 -> (fst b - fst a) * (snd z - snd a) = (snd b - snd a) * (fst z - fst a)) by (intros z Hz; unfold orient in Hz; lia).
    all: pose proof (LA c C0) as LC; pose proof (LA d D0) as LD; clear LA.
    all: set (u := fst b - fst a) in *; set (v := snd b - snd a) in *.
    all: set (fb := u * u + v * v) in *; set (fc := u * (fst c - fst a) + v * (snd c - snd a)) in *; set (fd := u * (fst d - fst a) + v * (snd d - snd a)) in *.
    all: assert (W : 0 < fb) by (apply sq_pos; exact NZ).
    all: assert (T : 0 <= fc <= fb \/ 0 <= fd <= fb \/ fc <= 0 <= fd \/ fd <= 0 <= fc)
      by (clearbody fb fc fd; clear - M J K W F K0 K1 J0 J1; destruct (Z_lt_le_dec fc 0), (Z_lt_le_dec fd 0); try lia;
          [nia|destruct (Z_le_gt_dec fc fb); [lia|]; destruct (Z_le_gt_dec fd fb); [lia|]; nia]).
    all: assert (OO : orient c d a = 0) by (apply (collinear3 a b); [intros ->; unfold u, v in NZ; lia|exact C0|exact D0|apply orient_same]).
    all: destruct T as [T|[T|[T|T]]].
    all: try (right; left; split; [exact C0|]; apply (line_between u v); [exact NZ|unfold u, v; ring|exact LC|unfold fb, fc, u, v in *; lia]).
    all: try (right; right; left; split; [exact D0|]; apply (line_between u v); [exact NZ|unfold u, v; ring|exact LD|unfold fb, fd, u, v in *; lia]).
    all: right; right; right; left.
    all: try (split; [exact OO|]; apply (line_between u v); [exact NZ|lia|lia|unfold fc, fd in *; lia]).
    all: apply onSegment_swap; split; [unfold orient in *; lia|]; apply (line_between u v); [exact NZ|lia|lia|unfold fc, fd in *; lia].
  - assert (D0 : orient a b d <> 0) by (intros E; rewrite E in Q; assert ((m - k) * orient a b c = 0) as Q' by lia; apply Z.mul_eq_0 in Q'; lia).
    pose proof (side_diff a b c d) as SD.
    assert (NC : orient a b c * orient a b d < 0) by (clear - Q M K K0 K1 C0 D0; nia).
    left. split; [exact NC|].
    assert (A0 : orient c d a <> 0).
    { intros E. rewrite E in P. assert (j * orient c d b = 0) as P' by lia. apply Z.mul_eq_0 in P'. rewrite E in SD. clear - SD P' J0 NC. nia. }
    assert (B0 : orient c d b <> 0) by (intros E; rewrite E in P; assert ((m - j) * orient c d a = 0) as P' by lia; apply Z.mul_eq_0 in P'; lia).
    clear - P M J J0 J1 A0 B0. nia.
Qed.

Lemma meet_iff : forall a b c d, meet a b c d <-> commonPoint a b c d.
Proof. intros. split; [apply meet_common|apply common_meet]. Qed.

(* ---- a search: the first element that is not known to be smaller or equivalent *)
Fixpoint scan (z : seg) (l : list seg) : nat :=
  match l with
  | [] => O
  | s :: l => match segLess z s with Ok false => S (scan z l) | _ => O end
  end.
Definition lin (k : nat) (z : seg) (l : list seg) : nat := scan z l.

Lemma lin_searches : searches lin.
Proof.
  intros k z l. unfold lin. split; [|split].
  - induction l as [|s l IH]; cbn [scan length]; [lia|]. destruct (segLess z s) as [[]| | |]; lia.
  - induction l as [|s l IH]; cbn [scan]; intros t H; [discriminate|].
    destruct (segLess z s) as [[]| | |] eqn:E; cbn [nth_error] in H; try (inv H; congruence). auto.
  - induction l as [|s l IH]; cbn [scan]; intros t P H; [lia|].
    destruct (segLess z s) as [[]| | |] eqn:E; try lia. cbn [Nat.sub] in H. rewrite Nat.sub_0_r in H.
    destruct (scan z l) eqn:K; cbn [nth_error] in H; [inv H; congruence|].
    apply IH; [lia|]. rewrite Nat.sub_succ, Nat.sub_0_r. exact H.
Qed.

(* ---- a spike may hide an intersection *)
Lemma isSimple_spike : exists ps, inRange ps /\ isSimple lin ps = Ok true /\
  meet (corner ps 0) (corner ps 1) (corner ps 2) (corner ps 3) /\ ~ simple ps.
Proof.
  exists [(3, 8); (2, 2); (4, 4); (0, 0)]. split; [apply range_dec; vm_compute; reflexivity|]. split; [vm_compute; reflexivity|].
  assert (M : meet (3, 8) (2, 2) (4, 4) (0, 0)) by (right; right; right; right; split; [reflexivity|]; unfold between; cbn; lia).
  split; [exact M|]. intros (_ & H & _). apply (H 0%nat 2%nat); cbn; try lia. exact M.
Qed.

Definition noSpikeb (ps : list (Z * Z)) : bool :=
  forallb (fun i => negb (onSegmentb (corner ps i) (corner ps (i + 1)) (corner ps (i + 2))) &&
                    negb (onSegmentb (corner ps (i + 1)) (corner ps (i + 2)) (corner ps i))) (seq 0 (length ps)).
Lemma noSpikeb_ok : forall ps, ps <> [] -> noSpikeb ps = true -> noSpike ps.
Proof.
  intros ps NE H i. unfold noSpikeb in H. rewrite forallb_forall in H. specialize (H (i mod length ps)%nat). rewrite in_seq in H.
  assert (length ps <> 0)%nat by (destruct ps; [congruence|discriminate]).
  pose proof (Nat.mod_upper_bound i (length ps)). specialize (H ltac:(lia)).
  rewrite corner_mod, !corner_mod_add in H. apply andb_true_iff in H. rewrite !negb_true_iff in H.
  destruct H as (H3 & H4). split; intros S0; apply onSegmentb_ok in S0; congruence.
Qed.
