(* The polygon with given sides sorted by angle. *)
From Verif Require Import Base BaseLemmas RandSpec ConvexSpec ConvexProofs.
From Coq Require Import ZArith Lia List Permutation Sorted.
Import ListNotations.
Open Scope Z_scope.

Definition poly (base : point) (ds : list point) : list point :=
  map (fun i => vadd base (vsum (firstn i ds))) (seq 0 (length ds)).

Lemma poly_length : forall base ds, length (poly base ds) = length ds.
Proof. intros. unfold poly. rewrite map_length. apply seq_length. Qed.
Lemma corner_poly : forall base ds i, (i < length ds)%nat -> corner (poly base ds) i = vadd base (vsum (firstn i ds)).
Proof.
  intros base ds i H. unfold corner. rewrite poly_length, Nat.mod_small by exact H. unfold poly.
  set (f := fun i => vadd base (vsum (firstn i ds))).
  rewrite nth_indep with (d' := f 0%nat) by (rewrite map_length, seq_length; exact H).
  rewrite map_nth. rewrite seq_nth by exact H. reflexivity.
Qed.
Lemma corner_mod : forall ps i, corner ps (i mod length ps) = corner ps i.
Proof. intros [| p ps] i; unfold corner; [rewrite !(fun k => nth_overflow [] (n := k) (0, 0) (Nat.le_0_l k)); reflexivity |]. rewrite Nat.mod_mod by (cbn; lia). reflexivity. Qed.
Lemma corner_add : forall ps i, corner ps (i + length ps) = corner ps i.
Proof.
  intros [| p ps] i; unfold corner; [cbn [length]; rewrite Nat.add_0_r; reflexivity |].
  replace ((i + length (p :: ps)) mod length (p :: ps))%nat with (i mod length (p :: ps))%nat; [reflexivity |].
  rewrite <- (Nat.mod_add i 1 (length (p :: ps))) by (cbn; lia). rewrite Nat.mul_1_l. reflexivity.
Qed.

Lemma vadd_assoc : forall a b c, vadd (vadd a b) c = vadd a (vadd b c).
Proof. intros. unfold vadd. cbn. f_equal; ring. Qed.
Lemma vadd_comm : forall a b, vadd a b = vadd b a.
Proof. intros. unfold vadd. f_equal; ring. Qed.
Lemma vadd_0_r : forall a, vadd a (0, 0) = a.
Proof. intros [x y]. unfold vadd. cbn. f_equal; ring. Qed.
Lemma orient_vadd : forall c u v, orient c (vadd c u) (vadd c v) = cr u v.
Proof. intros. unfold orient, cr, vadd. cbn [fst snd]. f_equal; f_equal; ring. Qed.

Section closed.
  Variable base : point.
  Variable ds : list point.
  Hypothesis Z0 : vsum ds = (0, 0).
  Let n := length ds.
  Let ps := poly base ds.

  Lemma corner_from : forall i m, (i < n)%nat -> (m <= n)%nat ->
    corner ps (i + m) = vadd (corner ps i) (vsum (firstn m (rotate i ds))).
  Proof.
    intros i m Hi Hm. unfold ps. rewrite (corner_poly base ds i Hi).
    rewrite vadd_assoc. unfold rotate. rewrite firstn_app, skipn_length. fold n.
    rewrite vsum_app.
    assert (Sk : vsum (firstn i ds) = vsum (firstn i ds)) by reflexivity.
    destruct (Nat.le_gt_cases n (i + m)) as [G | G].
    - replace (i + m)%nat with ((i + m - n) + length (poly base ds))%nat by (rewrite poly_length; fold n; lia).
      rewrite corner_add.
      assert (K : (i + m - n < n)%nat \/ (i + m - n = n)%nat) by lia.
      rewrite (firstn_all2 (skipn i ds)) by (rewrite skipn_length; fold n; lia).
      rewrite firstn_firstn. replace (Nat.min (m - (n - i)) i) with (i + m - n)%nat by lia.
      rewrite <- (vadd_assoc (vsum (firstn i ds))). rewrite <- (vsum_app (firstn i ds)). rewrite firstn_skipn. rewrite Z0.
      rewrite (vadd_comm (0, 0)), vadd_0_r.
      rewrite corner_poly by (fold n; lia). reflexivity.
    - rewrite corner_poly by (fold n; lia). replace (m - (n - i))%nat with 0%nat by lia. cbn [firstn].
      change (vsum []) with (0, 0). rewrite vadd_0_r. f_equal. rewrite <- vsum_app. f_equal.
      rewrite <- (firstn_skipn i ds) at 1. rewrite firstn_app, firstn_length. fold n.
      rewrite firstn_firstn. replace (Nat.min (i + m) i) with i by lia.
      replace (i + m - Nat.min i n)%nat with m by lia. reflexivity.
  Qed.

  Lemma rotate_cons : forall i, (i < n)%nat -> exists d l1 l2, ds = l1 ++ d :: l2 /\ rotate i ds = d :: l2 ++ l1 /\
    d = nth i ds (0, 0) /\ length l1 = i.
  Proof.
    intros i Hi. exists (nth i ds (0, 0)), (firstn i ds), (skipn (S i) ds).
    assert (E : skipn i ds = nth i ds (0, 0) :: skipn (S i) ds).
    { clear Z0. unfold n in Hi. revert i Hi. clear. induction ds as [| d l IH]; intros i Hi; cbn [length] in Hi; [lia |].
      destruct i; [reflexivity |]. cbn [skipn nth]. apply IH. lia. }
    split; [| split; [| split]].
    - rewrite <- E. symmetry. apply firstn_skipn.
    - unfold rotate. rewrite E. reflexivity.
    - reflexivity.
    - rewrite firstn_length. fold n. lia.
  Qed.

  Lemma vsum_rotate : forall i, vsum (rotate i ds) = (0, 0).
  Proof.
    intros i. rewrite <- Z0. apply vsum_perm. unfold rotate. rewrite Permutation_app_comm.
    rewrite firstn_skipn. reflexivity.
  Qed.

  Lemma corner_next : forall i, (i < n)%nat -> corner ps (i + 1) = vadd (corner ps i) (nth i ds (0, 0)).
  Proof.
    intros i Hi. rewrite (corner_from i 1) by lia. destruct (rotate_cons i Hi) as (d & l1 & l2 & E & R & N & _).
    rewrite R. cbn [firstn vsum fold_right]. rewrite vadd_0_r, N. reflexivity.
  Qed.

  (* every side sees the directions turn left first and right afterwards *)
  Hypothesis turns : forall l1 d l2, ds = l1 ++ d :: l2 ->
    exists A B, map (cr d) (l2 ++ l1) = A ++ B /\ nn A /\ np B.
  Hypothesis nz : Forall (fun d => d <> (0, 0)) ds.
  Hypothesis n3 : (3 <= n)%nat.

  Lemma poly_len : length ps = n. Proof. apply poly_length. Qed.

  Lemma left_of_side : forall i m, (i < n)%nat -> (m <= n)%nat ->
    0 <= orient (corner ps i) (corner ps (i + 1)) (corner ps (i + m)).
  Proof.
    intros i m Hi Hm. rewrite corner_next by exact Hi. rewrite corner_from by assumption.
    rewrite orient_vadd, cr_vsum. rewrite <- firstn_map.
    destruct (rotate_cons i Hi) as (d & l1 & l2 & E & R & N & _). rewrite <- N.
    destruct (turns l1 d l2 E) as (A & B & T & HA & HB).
    assert (S0 : zsum (map (cr d) (rotate i ds)) = 0).
    { rewrite <- cr_vsum, vsum_rotate. unfold cr. cbn. ring. }
    rewrite R in *. cbn [map] in *. rewrite T in *.
    assert (D : cr d d = 0) by (unfold cr; ring). rewrite D in *.
    assert (HA' : nn (0 :: A)) by (constructor; [lia | exact HA]).
    assert (E' : 0 :: A ++ B = (0 :: A) ++ B ++ []) by (rewrite app_nil_r; reflexivity).
    rewrite E' in *.
    pose proof (wave (0 :: A) B [] m HA' HB (Forall_nil _) S0) as W.
    rewrite !zsum_app in S0. change (zsum []) with 0 in S0. lia.
  Qed.

  Lemma left_of_side' : forall i j, 0 <= orient (corner ps i) (corner ps (i + 1)) (corner ps j).
  Proof.
    intros i j. assert (N0 : (n <> 0)%nat) by lia.
    set (i' := (i mod n)%nat). set (j' := (j mod n)%nat).
    assert (Hi : (i' < n)%nat) by (apply Nat.mod_upper_bound; exact N0).
    assert (Hj : (j' < n)%nat) by (apply Nat.mod_upper_bound; exact N0).
    assert (E1 : corner ps i = corner ps i') by (unfold i'; rewrite <- poly_len, corner_mod; reflexivity).
    assert (E2 : corner ps (i + 1) = corner ps (i' + 1)).
    { rewrite <- (corner_mod ps (i + 1)), <- (corner_mod ps (i' + 1)), poly_len. f_equal.
      unfold i'. rewrite Nat.add_mod_idemp_l by exact N0. reflexivity. }
    rewrite E1, E2.
    destruct (Nat.le_gt_cases i' j') as [G | G].
    - replace (corner ps j) with (corner ps (i' + (j' - i'))).
      + apply left_of_side; lia.
      + replace (i' + (j' - i'))%nat with j' by lia. unfold j'. rewrite <- poly_len. apply corner_mod.
    - replace (corner ps j) with (corner ps (i' + (j' + n - i'))).
      + apply left_of_side; lia.
      + replace (i' + (j' + n - i'))%nat with (j' + length ps)%nat by (rewrite poly_len; lia).
        rewrite corner_add. unfold j'. rewrite <- poly_len. apply corner_mod.
  Qed.

  Lemma sides_proper : forall i, corner ps i <> corner ps (i + 1).
  Proof.
    intros i. assert (N0 : (n <> 0)%nat) by lia. set (i' := (i mod n)%nat).
    assert (Hi : (i' < n)%nat) by (apply Nat.mod_upper_bound; exact N0).
    assert (E1 : corner ps i = corner ps i') by (unfold i'; rewrite <- poly_len, corner_mod; reflexivity).
    assert (E2 : corner ps (i + 1) = corner ps (i' + 1)).
    { rewrite <- (corner_mod ps (i + 1)), <- (corner_mod ps (i' + 1)), poly_len. f_equal.
      unfold i'. rewrite Nat.add_mod_idemp_l by exact N0. reflexivity. }
    rewrite E1, E2, corner_next by exact Hi. intros E.
    assert (Q : nth i' ds (0, 0) <> (0, 0)) by (rewrite Forall_forall in nz; apply nz, nth_In; exact Hi).
    apply Q. destruct (nth i' ds (0, 0)) as [x y]. destruct (corner ps i') as [u v]. unfold vadd in E. cbn [fst snd] in E.
    injection E as X Y. f_equal; lia.
  Qed.

  Lemma all_parallel_dec :
    {forall a b, In a ds -> In b ds -> cr a b = 0} +
    {exists i j, (i < n)%nat /\ (j < n)%nat /\ cr (nth i ds (0, 0)) (nth j ds (0, 0)) <> 0}.
  Proof.
    assert (D : forall a, {Forall (fun b => cr a b = 0) ds} + {Exists (fun b => ~ cr a b = 0) ds}).
    { intros a. apply Forall_Exists_dec. intros b. apply Z.eq_dec. }
    destruct (Forall_Exists_dec (fun a => Forall (fun b => cr a b = 0) ds)) with (l := ds) as [F | F].
    - intros a. destruct (D a) as [H | H]; [left; exact H | right]. intros H'. apply Exists_exists in H as (b & Ib & Nb).
      rewrite Forall_forall in H'. auto.
    - left. intros a b Ia Ib. rewrite Forall_forall in F. specialize (F a Ia). rewrite Forall_forall in F. auto.
    - right. apply Exists_exists in F as (a & Ia & Na).
      destruct (D a) as [H | H]; [contradiction |]. apply Exists_exists in H as (b & Ib & Nb).
      apply (In_nth _ _ (0, 0)) in Ia as (i & Hi & Ei). apply (In_nth _ _ (0, 0)) in Ib as (j & Hj & Ej).
      exists i, j. rewrite Ei, Ej. auto.
  Qed.

  Lemma parallel_flat : (forall a b, In a ds -> In b ds -> cr a b = 0) -> flat ps.
  Proof.
    intros P. assert (N0 : (n <> 0)%nat) by lia.
    assert (C : forall i, exists l, incl l ds /\ corner ps i = vadd base (vsum l)).
    { intros i. exists (firstn (i mod n) ds). split.
      - intros d Hd. rewrite <- (firstn_skipn (i mod n) ds). apply in_or_app. left. exact Hd.
      - rewrite <- corner_mod, poly_len. unfold ps. apply corner_poly. apply Nat.mod_upper_bound. exact N0. }
    intros i j k. destruct (C i) as (l1 & I1 & ->). destruct (C j) as (l2 & I2 & ->). destruct (C k) as (l3 & I3 & ->).
    assert (Q0 : forall a l, In a ds -> incl l ds -> cr a (vsum l) = 0).
    { intros a l Ia Il. rewrite cr_vsum. clear - P Ia Il. induction l as [| b l IH]; [reflexivity |].
      cbn [map]. rewrite zsum_cons. rewrite (P a b Ia (Il b (or_introl eq_refl))). rewrite IH; [reflexivity |].
      intros x Hx. apply Il. right. exact Hx. }
    assert (Q : forall l l', incl l ds -> incl l' ds -> cr (vsum l) (vsum l') = 0).
    { intros l l' Il Il'. rewrite cr_anti, cr_vsum. clear - Q0 Il Il'. induction l as [| b l IH]; [reflexivity |].
      cbn [map]. rewrite zsum_cons. rewrite cr_anti. rewrite (Q0 b l' (Il b (or_introl eq_refl)) Il').
      rewrite Z.opp_add_distr. rewrite IH; [reflexivity |]. intros x Hx. apply Il. right. exact Hx. }
    pose proof (Q l1 l2 I1 I2) as A. pose proof (Q l1 l3 I1 I3) as B. pose proof (Q l2 l3 I2 I3) as D.
    clear - A B D. unfold orient, vadd, cr in *. cbn [fst snd] in *.
    destruct (vsum l1) as [x1 y1]. destruct (vsum l2) as [x2 y2]. destruct (vsum l3) as [x3 y3]. cbn [fst snd] in *.
    destruct base as [bx b_y]. cbn [fst snd] in *.
    replace (bx + x2 - (bx + x1)) with (x2 - x1) by ring. replace (b_y + y3 - (b_y + y1)) with (y3 - y1) by ring.
    replace (b_y + y2 - (b_y + y1)) with (y2 - y1) by ring. replace (bx + x3 - (bx + x1)) with (x3 - x1) by ring.
    replace ((x2 - x1) * (y3 - y1) - (y2 - y1) * (x3 - x1)) with
      ((x2 * y3 - y2 * x3) - (x1 * y3 - y1 * x3) + (x1 * y2 - y1 * x2)) by ring. lia.
  Qed.

  Lemma poly_convex : flat ps \/ convex ps.
  Proof.
    destruct all_parallel_dec as [P | (i & j & Hi & Hj & N)].
    - left. apply parallel_flat. exact P.
    - right. split; [rewrite poly_len; exact n3 |]. split; [exact sides_proper |]. split; [exact left_of_side' |].
      destruct (Z.eq_dec (orient (corner ps i) (corner ps (i + 1)) (corner ps j)) 0) as [E | E].
      + exists i, (i + 1)%nat, (j + 1)%nat. intros E'. apply N.
        rewrite !corner_next in * by assumption.
        destruct (corner ps i) as [x y]. destruct (corner ps j) as [x' y']. unfold orient, vadd, cr in *. cbn [fst snd] in *.
        destruct (nth i ds (0, 0)) as [a b]. destruct (nth j ds (0, 0)) as [c e]. cbn [fst snd] in *.
        replace (a * e - b * c) with ((x + a - x) * (y' + e - y) - (y + b - y) * (x' + c - x) -
          ((x + a - x) * (y' - y) - (y + b - y) * (x' - x))) by ring. lia.
      + exists i, (i + 1)%nat, j. exact E.
  Qed.
End closed.
