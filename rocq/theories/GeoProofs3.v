(* isCCW. *)
From Coq Require Import ZArith List Lia Bool PeanoNat.
From Verif Require Import Base BaseLemmas GeoModel GeoSpec GeoProofs GeoProofs2.
Import ListNotations.
Local Open Scope Z_scope.
Local Arguments Z.add : simpl never.
Local Arguments Z.mul : simpl never.

Definition vec (a b : Z * Z) : Z := fst a * snd b - snd a * fst b.

Fixpoint shoe (p : Z * Z) (ps : list (Z * Z)) : Z :=
  match ps with
  | [] => 0
  | q :: ps => vec p q + shoe q ps
  end.

Definition total (ps : list (Z * Z)) : Z :=
  match ps with
  | [] => 0
  | p :: ps => vec (last ps p) p + shoe p ps
  end.

Lemma orient_vec : forall o p q, orient o p q = vec p q + vec o p - vec o q.
Proof. intros. unfold orient, vec. ring. Qed.

Lemma last_cons : forall A (l : list A) a d, last (a :: l) d = last l a.
Proof.
  induction l as [|b l IH]; intros a d; [reflexivity|]. change (last (a :: b :: l) d) with (last (b :: l) d).
  rewrite !IH. reflexivity.
Qed.

Lemma fan_shoe : forall ps o p, fan o p ps = shoe p ps + vec o p - vec o (last ps p).
Proof.
  induction ps as [|q ps IH]; intros o p; cbn [fan shoe].
  - cbn [last]. ring.
  - rewrite IH, last_cons, orient_vec. ring.
Qed.

Lemma vec_same : forall a, vec a a = 0.
Proof. intros. unfold vec. ring. Qed.

Lemma vec_anti : forall a b, vec a b = - vec b a.
Proof. intros. unfold vec. ring. Qed.

Lemma area2_total : forall ps, area2 ps = total ps.
Proof.
  intros [|p ps]; [reflexivity|]. cbn [area2 total]. rewrite fan_shoe, vec_same, (vec_anti p (last ps p)). ring.
Qed.

(* the same with any other point in place of the first corner *)
Lemma fan_total : forall o p ps, fan o p ps + orient o (last ps p) p = total (p :: ps).
Proof. intros o p ps. rewrite fan_shoe, orient_vec. cbn [total]. ring. Qed.

Lemma areaLoop_inv : forall ps p area r, inRange (p :: ps) -> areaLoop p ps area = Ok r -> r = area + shoe p ps.
Proof.
  induction ps as [|q ps IH]; intros p area r R E; cbn [areaLoop shoe] in *.
  - injection E as <-. ring.
  - inversion_clear R as [|? ? P R']. pose proof R' as R2. inversion_clear R' as [|? ? Q _].
    rewrite (cross_small p q) in E by assumption. cbn [bind] in E.
    destruct (chk_cases (area + (fst p * snd q - snd p * fst q))) as [(Ec & _)|(Ec & _)]; rewrite Ec in E; [|discriminate].
    cbn [bind] in E. rewrite (IH q _ r R2 E). unfold vec. ring.
Qed.

Lemma aget_last : forall ps (p : Z * Z), aget (p :: ps) (alen (p :: ps) - 1) = Ok (last ps p).
Proof.
  intros ps p. rewrite (aget_Ok _ _ _ p) by (unfold alen; cbn [length]; lia). f_equal.
  replace (Z.to_nat (alen (p :: ps) - 1)) with (length ps) by (unfold alen; cbn [length]; lia).
  revert p. induction ps as [|q ps IH]; intros p; [reflexivity|].
  rewrite last_cons, <- (IH q). cbn [length]. change (nth (S (length ps)) (p :: q :: ps) p) with (nth (length ps) (q :: ps) p).
  apply nth_indep. cbn [length]. lia.
Qed.

Lemma total_one : forall p, total [p] = 0.
Proof. intros. cbn [total last shoe]. rewrite vec_same. reflexivity. Qed.

Lemma last_In : forall A (l : list A) d, In (last l d) (d :: l).
Proof.
  induction l as [|a l IH]; intros d; [left; reflexivity|]. rewrite last_cons. right. apply IH.
Qed.

Lemma isCCW_area : forall ps b, inRange ps -> isCCW ps = Ok b -> (b = true <-> 0 < area2 ps).
Proof.
  intros ps b R E. rewrite area2_total. unfold isCCW in E. rewrite (assertBounds_ok ps R) in E. cbn [bind] in E.
  destruct ps as [|p ps]; [injection E as <-; split; [discriminate|cbn; lia]|].
  destruct (Z.ltb_spec (alen (p :: ps)) 2) as [L|L].
  - injection E as <-. destruct ps; [|unfold alen in L; cbn [length] in L; lia]. rewrite total_one. split; [discriminate|lia].
  - rewrite aget_last in E. cbn [bind] in E. change 0 with (Z.of_nat 0) in E at 1.
    change (aget (p :: ps) (Z.of_nat 0)) with (Ok p) in E. cbn [bind] in E.
    rewrite cross_small in E.
    + cbn [bind tl] in E. destruct (areaLoop p ps (fst (last ps p) * snd p - snd (last ps p) * fst p)) as [a| | |] eqn:Ea;
        cbn [bind] in E; try discriminate. apply areaLoop_inv in Ea; [|exact R]. injection E as <-.
      rewrite Z.ltb_lt. cbn [total]. unfold vec. lia.
    + apply (proj1 (Forall_forall _ _) R). apply last_In.
    + inversion_clear R. assumption.
Qed.

(* no overflow if the coordinates are small enough for the number of corners *)
Lemma areaLoop_ok : forall m ps p area k, 0 <= m < 2 ^ 30 ->
  Forall (fun p => Z.abs (fst p) <= m /\ Z.abs (snd p) <= m) (p :: ps) ->
  0 <= k -> Z.abs area <= k * (2 * (m * m)) -> (k + alen ps) * (2 * (m * m)) < two63 ->
  exists r, areaLoop p ps area = Ok r.
Proof.
  intros m. induction ps as [|q ps IH]; intros p area k M F K A B; [eexists; reflexivity|].
  cbn [areaLoop]. inversion_clear F as [|? ? (P1 & P2) F']. pose proof F' as F2. inversion_clear F' as [|? ? (Q1 & Q2) _].
  assert (Am : alen (q :: ps) = 1 + alen ps) by (unfold alen; cbn [length]; lia). rewrite Am in B.
  assert (L0 : 0 <= alen ps) by (unfold alen; lia).
  pose proof (prod_bound (fst p) (snd q) m P1 Q2) as B1. pose proof (prod_bound (snd p) (fst q) m P2 Q1) as B2.
  assert (B3 : 0 <= m * m) by nia. set (mm := m * m) in *.
  assert (B0 : 0 <= alen ps * (2 * mm)) by nia.
  rewrite (cross_ok m) by (fold mm; nia). cbn [bind].
  set (c := fst p * snd q - snd p * fst q) in *.
  assert (C : Z.abs c <= 2 * mm) by lia. clearbody c. clear B1 B2.
  assert (B4 : (k + (1 + alen ps)) * (2 * mm) = k * (2 * mm) + 2 * mm + alen ps * (2 * mm)) by ring.
  rewrite chk_Ok by (unfold is_i64, I64_MIN, I64_MAX; lia). cbn [bind].
  apply (IH q _ (k + 1) M F2); [lia| |].
  - replace ((k + 1) * (2 * mm)) with (k * (2 * mm) + 2 * mm) by ring. lia.
  - replace (k + 1 + alen ps) with (k + (1 + alen ps)) by ring. exact B.
Qed.

Lemma isCCW_defined : forall m ps, 0 <= m < 2 ^ 30 ->
  Forall (fun p => Z.abs (fst p) <= m /\ Z.abs (snd p) <= m) ps -> alen ps * (2 * (m * m)) < two63 ->
  exists b, isCCW ps = Ok b.
Proof.
  intros m ps M F B.
  assert (R : inRange ps) by (eapply Forall_impl; [|exact F]; cbn; intros; lia).
  unfold isCCW. rewrite (assertBounds_ok ps R). cbn [bind]. destruct ps as [|p ps]; [eexists; reflexivity|].
  destruct (Z.ltb_spec (alen (p :: ps)) 2) as [L|L]; [eexists; reflexivity|].
  rewrite aget_last. cbn [bind]. change (aget (p :: ps) 0) with (Ok p). cbn [bind].
  pose proof (proj1 (Forall_forall _ _) F _ (last_In _ ps p)) as (L1 & L2). cbn beta in L1, L2.
  pose proof F as F0. inversion_clear F0 as [|? ? (P1 & P2) _].
  assert (Am : alen (p :: ps) = 1 + alen ps) by (unfold alen; cbn [length]; lia). rewrite Am in B.
  assert (L0 : 0 <= alen ps) by (unfold alen; lia).
  pose proof (prod_bound _ _ m L1 P2) as B1. pose proof (prod_bound _ _ m L2 P1) as B2.
  assert (B3 : 0 <= m * m) by nia.
  rewrite (cross_ok m) by (try assumption; try lia; nia). cbn [bind tl].
  destruct (areaLoop_ok m ps p (fst (last ps p) * snd p - snd (last ps p) * fst p) 1 M F) as (r & ->); [lia|lia|exact B|].
  cbn [bind]. eexists. reflexivity.
Qed.

(* ------------------------------------------------------------ the area is what it should be *)

Lemma shoe_app : forall l1 l2 p, shoe p (l1 ++ l2) = shoe p l1 + shoe (last l1 p) l2.
Proof.
  induction l1 as [|q l1 IH]; intros l2 p; cbn [app shoe]; [reflexivity|].
  rewrite IH, last_cons. ring.
Qed.

Lemma total_rot1 : forall p ps, total (ps ++ [p]) = total (p :: ps).
Proof.
  intros p [|q ps]; [reflexivity|]. cbn [app total]. rewrite shoe_app, last_last. cbn [shoe]. rewrite last_cons.
  ring.
Qed.

Lemma total_rotate : forall k ps, total (rotate k ps) = total ps.
Proof.
  induction k as [|k IH]; intros ps.
  - unfold rotate. cbn [skipn firstn]. rewrite app_nil_r. reflexivity.
  - destruct ps as [|p ps]; [reflexivity|]. rewrite <- (total_rot1 p ps).
    destruct (Nat.le_gt_cases k (length ps)) as [H|H].
    + rewrite <- (IH (ps ++ [p])). f_equal. unfold rotate. cbn [skipn firstn].
      rewrite skipn_app, firstn_app. replace (k - length ps)%nat with 0%nat by lia. cbn [skipn firstn].
      rewrite app_nil_r, <- app_assoc. reflexivity.
    + unfold rotate. cbn [skipn firstn]. rewrite skipn_all2, firstn_all2 by lia. symmetry. apply total_rot1.
Qed.

Lemma shoe_rev : forall ps p, shoe (last ps p) (tl (rev (p :: ps))) = - shoe p ps.
Proof.
  induction ps as [|q ps IH]; intros p; [reflexivity|].
  rewrite last_cons. cbn [shoe]. cbn [rev]. specialize (IH q). cbn [rev] in IH.
  assert (N : rev ps ++ [q] <> []) by (destruct (rev ps); discriminate).
  assert (Q : last (tl (rev ps ++ [q])) (last ps q) = q).
  { destruct ps as [|r ps] using rev_ind; [reflexivity|]. rewrite rev_app_distr. cbn [rev app tl].
    apply last_last. }
  replace (tl ((rev ps ++ [q]) ++ [p])) with (tl (rev ps ++ [q]) ++ [p]) by (destruct (rev ps); reflexivity).
  rewrite shoe_app, Q, IH. cbn [shoe]. rewrite (vec_anti q p). ring.
Qed.

Lemma total_rev : forall ps, total (rev ps) = - total ps.
Proof.
  intros [|p ps]; [reflexivity|]. pose proof (shoe_rev ps p) as H.
  assert (E : rev (p :: ps) = last ps p :: tl (rev (p :: ps))).
  { cbn [rev]. destruct ps as [|q ps] using rev_ind; [reflexivity|]. rewrite rev_app_distr, last_last. reflexivity. }
  rewrite E. cbn [total]. rewrite H.
  assert (L : last (tl (rev (p :: ps))) (last ps p) = p).
  { rewrite <- (last_cons _ (tl (rev (p :: ps))) (last ps p) p), <- E. cbn [rev]. apply last_last. }
  rewrite L, (vec_anti p). ring.
Qed.

(* ------------------------------------------------------------ convex polygons *)

Fixpoint chain (P : Z * Z -> Z * Z -> Prop) (p : Z * Z) (ps : list (Z * Z)) : Prop :=
  match ps with
  | [] => True
  | q :: ps => P p q /\ chain P q ps
  end.

Lemma chain_corner : forall (P : Z * Z -> Z * Z -> Prop) ps p, (forall i, (i + 1 < S (length ps))%nat -> P (nth i (p :: ps) (0, 0)) (nth (i + 1) (p :: ps) (0, 0))) ->
  chain P p ps.
Proof.
  intros P. induction ps as [|q ps IH]; intros p H; [exact I|]. split; [apply (H 0%nat); cbn; lia|].
  apply IH. intros i L. apply (H (S i)). cbn [length] in *. lia.
Qed.

Lemma fan_nonneg : forall o ps p, chain (fun a b => 0 <= orient o a b) p ps -> 0 <= fan o p ps.
Proof.
  intros o. induction ps as [|q ps IH]; intros p H; cbn [fan]; [lia|]. destruct H as (A & B). specialize (IH q B). lia.
Qed.

Lemma fan_pos : forall o ps p i, chain (fun a b => 0 <= orient o a b) p ps -> (i + 1 < S (length ps))%nat ->
  orient o (nth i (p :: ps) (0, 0)) (nth (i + 1) (p :: ps) (0, 0)) <> 0 -> 0 < fan o p ps.
Proof.
  intros o. induction ps as [|q ps IH]; intros p i H L N; cbn [length] in L; [lia|].
  cbn [fan]. destruct H as (A & B). destruct i as [|i].
  - cbn [nth Nat.add] in N. pose proof (fan_nonneg o ps q B). lia.
  - specialize (IH q i B ltac:(lia) N). lia.
Qed.

Lemma convex_area : forall ps, convex ps -> 0 < area2 ps.
Proof.
  intros ps (L & D & O & A). rewrite area2_total. destruct ps as [|p ps]; [cbn in L; lia|].
  set (l := p :: ps) in *. assert (Ll : length l = S (length ps)) by reflexivity.
  assert (Cn : forall i, (i < length l)%nat -> corner l i = nth i l (0, 0)) by (intros i I; unfold corner; rewrite Nat.mod_small by exact I; reflexivity).
  assert (Cl : corner l (length ps) = last ps p).
  { rewrite Cn by lia. unfold l. clear. revert p. induction ps as [|q ps IH]; intros p; [reflexivity|].
    cbn [length nth]. rewrite last_cons. apply IH. }
  assert (Ch : forall o, (exists j, o = corner l j) -> chain (fun a b => 0 <= orient o a b) p ps).
  { intros o (j & ->). apply chain_corner. intros i I. fold l. rewrite <- !Cn by lia.
    rewrite orient_cycle. apply O. }
  assert (Cz : forall o, (exists j, o = corner l j) -> 0 <= orient o (last ps p) p).
  { intros o (j & ->). rewrite <- Cl. rewrite orient_cycle.
    replace p with (corner l (length ps + 1)); [apply O|].
    replace (length ps + 1)%nat with (length l) by lia. rewrite <- (corner_mod l (length l)), Nat.mod_same, Cn by lia.
    reflexivity. }
  (* a corner and a side that are not on one line *)
  assert (Q : exists i j, (i < length l)%nat /\ orient (corner l j) (corner l i) (corner l (i + 1)) <> 0).
  { assert (Dec : forall s : list nat, (exists i, In i s /\ orient (corner l i) (corner l (i + 1)) (corner l (i + 2)) <> 0)
      \/ (forall i, In i s -> orient (corner l i) (corner l (i + 1)) (corner l (i + 2)) = 0)).
    { induction s as [|i s [(j & J & Hj)|IH]]; [right; intros i []|left; exists j; split; [right; exact J|exact Hj]|].
      destruct (Z.eq_dec (orient (corner l i) (corner l (i + 1)) (corner l (i + 2))) 0) as [Z0|Z0].
      - right. intros j [<-|J]; auto.
      - left. exists i. split; [left; reflexivity|exact Z0]. }
    destruct (Dec (seq 0 (length l))) as [(i & I & Hi)|Q'].
    - apply in_seq in I. exists i, (i + 2)%nat. split; [lia|]. rewrite orient_cycle. exact Hi.
    - exfalso. destruct A as (i & j & k & A). apply A. apply all_collinear; [lia|exact D|].
      intros m. rewrite <- (corner_mod l m), <- (corner_mod_add l m 1), <- (corner_mod_add l m 2). apply Q'. apply in_seq.
      pose proof (Nat.mod_upper_bound m (length l)). lia. }
  destruct Q as (i & j & I & N). unfold l at 1. rewrite <- (fan_total (corner l j) p ps).
  assert (F0 : 0 <= fan (corner l j) p ps) by (apply fan_nonneg, Ch; eauto).
  assert (Z1 : 0 <= orient (corner l j) (last ps p) p) by (apply Cz; eauto).
  destruct (Nat.eq_dec i (length ps)) as [->|Ni].
  - rewrite Cl in N. replace (corner l (length ps + 1)) with p in N; [lia|].
    replace (length ps + 1)%nat with (length l) by lia. rewrite <- (corner_mod l (length l)), Nat.mod_same, Cn by lia.
    reflexivity.
  - assert (P : 0 < fan (corner l j) p ps); [|lia].
    apply (fan_pos _ _ _ i); [apply Ch; eauto|lia|]. fold l. rewrite <- !Cn by lia.
    exact N.
Qed.

(* ------------------------------------------------------------ overflow *)

Definition M : Z := 2 ^ 30 - 1.

(* a spiral of width 1 winding around the origin a bit more than once *)
Definition band : list (Z * Z) :=
  [(M, -M); (M, M); (-M, M); (-M, -M + 2); (M - 2, -M + 2); (M - 2, M - 2);
   (M - 3, M - 2); (M - 3, -M + 3); (-M + 1, -M + 3); (-M + 1, M - 1); (M - 1, M - 1); (M - 1, -M)].

Definition betweenb (a b c : Z * Z) : bool :=
  (Z.min (fst a) (fst b) <=? fst c) && (fst c <=? Z.max (fst a) (fst b)) &&
  (Z.min (snd a) (snd b) <=? snd c) && (snd c <=? Z.max (snd a) (snd b)).
Definition onSegmentb (a b c : Z * Z) : bool := (orient a b c =? 0) && betweenb a b c.
Definition meetb (a b c d : Z * Z) : bool :=
  ((orient a b c * orient a b d <? 0) && (orient c d a * orient c d b <? 0)) ||
  onSegmentb a b c || onSegmentb a b d || onSegmentb c d a || onSegmentb c d b.
Definition simpleb (ps : list (Z * Z)) : bool :=
  let n := length ps in
  (3 <=? n)%nat &&
  forallb (fun i => forallb (fun j =>
    (i =? j)%nat || ((i + 1) mod n =? j)%nat || ((j + 1) mod n =? i)%nat ||
    negb (meetb (corner ps i) (corner ps (i + 1)) (corner ps j) (corner ps (j + 1)))) (seq 0 n)) (seq 0 n) &&
  forallb (fun i => negb (onSegmentb (corner ps i) (corner ps (i + 1)) (corner ps (i + 2))) &&
                    negb (onSegmentb (corner ps (i + 1)) (corner ps (i + 2)) (corner ps i))) (seq 0 n).

Lemma onSegmentb_ok : forall a b c, onSegmentb a b c = true <-> onSegment a b c.
Proof.
  intros a b c. unfold onSegmentb, onSegment, betweenb, between. rewrite !andb_true_iff, Z.eqb_eq, !Z.leb_le. tauto.
Qed.

Lemma meetb_ok : forall a b c d, meetb a b c d = true <-> meet a b c d.
Proof.
  intros a b c d. unfold meetb, meet, properlyCross. rewrite !orb_true_iff, !onSegmentb_ok, andb_true_iff, !Z.ltb_lt. tauto.
Qed.

Lemma simpleb_ok : forall ps, simpleb ps = true -> simple ps.
Proof.
  intros ps H. unfold simpleb in H. apply andb_true_iff in H. destruct H as (H & H3).
  apply andb_true_iff in H. destruct H as (H1 & H2). apply Nat.leb_le in H1.
  rewrite forallb_forall in H2, H3. split; [exact H1|]. split.
  - intros i j I J N N1 N2 Mt. specialize (H2 i). rewrite in_seq in H2. specialize (H2 ltac:(lia)).
    rewrite forallb_forall in H2. specialize (H2 j). rewrite in_seq in H2. specialize (H2 ltac:(lia)).
    apply meetb_ok in Mt. rewrite Mt in H2. apply Nat.eqb_neq in N, N1, N2. rewrite N, N1, N2 in H2. discriminate.
  - intros i. specialize (H3 (i mod length ps)%nat). rewrite in_seq in H3.
    pose proof (Nat.mod_upper_bound i (length ps)). specialize (H3 ltac:(lia)).
    rewrite corner_mod, !corner_mod_add in H3. apply andb_true_iff in H3. rewrite !negb_true_iff in H3.
    destruct H3 as (H3 & H4). split; intros S0; apply onSegmentb_ok in S0; congruence.
Qed.

Lemma isCCW_overflows : exists ps, inRange ps /\ simple ps /\ isCCW ps = UB.
Proof.
  exists band. split; [apply range_dec; vm_compute; reflexivity|].
  split; [apply simpleb_ok; vm_compute; reflexivity|]. vm_compute. reflexivity.
Qed.

Lemma isConvex_defined : forall ps, inRange ps ->
  (exists b, isConvex ps = Ok b) /\ (exists b, isStrictlyConvex ps = Ok b).
Proof.
  intros ps R. destruct (isConvex_ok ps R) as (b & E & _). destruct (isStrictlyConvex_ok ps R) as (c & F & _). eauto.
Qed.

Lemma isConvex_rejects : forall ps, ~ inRange ps ->
  Forall (fun p => Z.abs (fst p) < two63 /\ Z.abs (snd p) < two63) ps ->
  isConvex ps = Throw /\ isStrictlyConvex ps = Throw /\ isCCW ps = Throw.
Proof.
  intros ps R F. pose proof (assertBounds_throw ps R F) as E. unfold isStrictlyConvex, isConvex, isCCW. rewrite E. auto.
Qed.

Lemma area_rotate : forall k ps, area2 (rotate k ps) = area2 ps.
Proof. intros. rewrite !area2_total. apply total_rotate. Qed.

Lemma area_rev : forall ps, area2 (rev ps) = - area2 ps.
Proof. intros. rewrite !area2_total. apply total_rev. Qed.

Lemma rev_range : forall ps, inRange ps -> inRange (rev ps).
Proof. intros ps R. apply Forall_forall. intros p I. apply in_rev in I. apply (proj1 (Forall_forall _ _) R _ I). Qed.

Lemma isCCW_rotate : forall k ps b c, inRange ps -> isCCW ps = Ok b -> isCCW (rotate k ps) = Ok c -> b = c.
Proof.
  intros k ps b c R B C. pose proof (isCCW_area _ _ R B) as Hb. pose proof (isCCW_area _ _ (rotate_range k ps R) C) as Hc.
  rewrite area_rotate in Hc. destruct b, c; try reflexivity; exfalso.
  - assert (false = true) by tauto. discriminate.
  - assert (false = true) by tauto. discriminate.
Qed.

Lemma isCCW_rev : forall ps, inRange ps -> isCCW ps = Ok true -> isCCW (rev ps) <> Ok true.
Proof.
  intros ps R B C. pose proof (isCCW_area _ _ R B) as Hb. pose proof (isCCW_area _ _ (rev_range ps R) C) as Hc.
  rewrite area_rev in Hc. assert (0 < area2 ps) by tauto. assert (0 < - area2 ps) by tauto. lia.
Qed.

Lemma isCCW_convex : forall ps b, inRange ps -> convex ps -> isCCW ps = Ok b -> b = true.
Proof. intros ps b R C E. apply (isCCW_area ps b R E). apply convex_area. exact C. Qed.
