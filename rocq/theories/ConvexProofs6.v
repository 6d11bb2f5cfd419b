(* A polygon whose sides are sorted by angle goes around once. *)
From Verif Require Import Base BaseLemmas RandSpec ConvexSpec ConvexProofs ConvexProofs2 ConvexProofs3.
From Coq Require Import ZArith Lia List Permutation Sorted.
Import ListNotations.
Open Scope Z_scope.

Lemma left_sum : forall l, l <> [] -> Forall leftHalf l -> leftHalf (vsum l).
Proof.
  intros l N F. induction F as [| [x y] l Hd F IH]; [contradiction N; reflexivity |].
  cbn [vsum fold_right]. fold (vsum l). destruct l as [| e l].
  - unfold vsum. cbn [fold_right]. rewrite vadd_0_r. exact Hd.
  - specialize (IH ltac:(discriminate)). destruct (vsum (e :: l)) as [u v]. unfold leftHalf, vadd in *. cbn [fst snd] in *. lia.
Qed.
Lemma right_sum : forall l, l <> [] -> Forall rightHalf l -> rightHalf (vsum l).
Proof.
  intros l N F. induction F as [| [x y] l Hd F IH]; [contradiction N; reflexivity |].
  cbn [vsum fold_right]. fold (vsum l). destruct l as [| e l].
  - unfold vsum. cbn [fold_right]. rewrite vadd_0_r. exact Hd.
  - specialize (IH ltac:(discriminate)). destruct (vsum (e :: l)) as [u v]. unfold rightHalf, vadd in *. cbn [fst snd] in *. lia.
Qed.
Lemma left_nz : ~ leftHalf (0, 0). Proof. unfold leftHalf. cbn. lia. Qed.
Lemma right_nz : ~ rightHalf (0, 0). Proof. unfold rightHalf. cbn. lia. Qed.

Lemma cr_sum_nonneg : forall a l, (forall b, In b l -> 0 <= cr a b) ->
  0 <= cr a (vsum l) /\ (cr a (vsum l) = 0 -> forall b, In b l -> cr a b = 0).
Proof.
  intros a l H. rewrite cr_vsum. induction l as [| b l IH].
  - cbn. split; [lia | intros _ b []].
  - destruct IH as [I1 I2]; [intros x Hx; apply H; right; exact Hx |]. pose proof (H b (or_introl eq_refl)).
    cbn [map]. rewrite zsum_cons. split; [lia |]. intros E x [<- | Hx]; [lia | apply I2; [lia | exact Hx]].
Qed.
Lemma cr_vsum_l : forall d l, cr (vsum l) d = zsum (map (fun e => cr e d) l).
Proof.
  induction l as [| e l IH]; cbn [map]; [unfold cr; cbn; ring |].
  rewrite zsum_cons, <- IH. cbn [vsum fold_right]. fold (vsum l). unfold cr, vadd. cbn [fst snd]. ring.
Qed.
Lemma cr_sums : forall k l, (forall a b, In a k -> In b l -> 0 <= cr a b) ->
  0 <= cr (vsum k) (vsum l) /\ (cr (vsum k) (vsum l) = 0 -> forall a b, In a k -> In b l -> cr a b = 0).
Proof.
  intros k l H. rewrite cr_vsum_l. induction k as [| a k IH].
  - cbn. split; [lia | intros _ a b []].
  - destruct IH as [I1 I2]; [intros x y Hx; apply H; right; exact Hx |].
    destruct (cr_sum_nonneg a l) as [J1 J2]; [intros b; apply H; left; reflexivity |].
    cbn [map]. rewrite zsum_cons. split; [lia |]. intros E x y [<- | Hx] Hy; [apply J2; [lia | exact Hy] | apply I2; [lia | exact Hx | exact Hy]].
Qed.
Lemma parallel_trans : forall a b c, b <> (0, 0) -> cr a b = 0 -> cr b c = 0 -> cr a c = 0.
Proof.
  intros [ax ay] [bx b_y] [cx cy] N. unfold cr. cbn [fst snd]. intros H1 H2.
  assert (bx <> 0 \/ b_y <> 0) as [G | G].
  { destruct (Z.eq_dec bx 0), (Z.eq_dec b_y 0); auto. subst. contradiction N. reflexivity. }
  - assert (bx * (ax * cy - ay * cx) = 0).
    { replace (bx * (ax * cy - ay * cx)) with (ax * (bx * cy - b_y * cx) + cx * (ax * b_y - ay * bx)) by ring. rewrite H1, H2. ring. }
    apply Z.mul_eq_0 in H. tauto.
  - assert (b_y * (ax * cy - ay * cx) = 0).
    { replace (b_y * (ax * cy - ay * cx)) with (ay * (bx * cy - b_y * cx) + cy * (ax * b_y - ay * bx)) by ring. rewrite H1, H2. ring. }
    apply Z.mul_eq_0 in H. tauto.
Qed.
Lemma parallel_sym : forall a b, cr a b = 0 -> cr b a = 0.
Proof. intros. rewrite cr_anti. lia. Qed.
Lemma parallel_all : forall l l' : list point, l <> [] -> l' <> [] -> Forall (fun d => d <> (0, 0)) (l ++ l') ->
  (forall a b, In a l -> In b l' -> cr a b = 0) -> forall a b, In a (l ++ l') -> In b (l ++ l') -> cr a b = 0.
Proof.
  intros l l' N N' F H. destruct l as [| x l]; [contradiction |]. destruct l' as [| y l']; [contradiction |].
  rewrite Forall_forall in F.
  assert (Nx : x <> (0, 0)) by (apply F, in_or_app; left; left; reflexivity).
  assert (Ny : y <> (0, 0)) by (apply F, in_or_app; right; left; reflexivity).
  assert (K : forall a, In a ((x :: l) ++ y :: l') -> cr x a = 0).
  { intros a Ia. apply in_app_or in Ia as [Ia | Ia].
    - apply parallel_trans with y; [exact Ny | apply H; left; reflexivity | apply parallel_sym, H; [exact Ia | left; reflexivity]].
    - apply H; [left; reflexivity | exact Ia]. }
  intros a b Ia Ib. apply parallel_trans with x; [exact Nx | apply parallel_sym, K; exact Ia | apply K; exact Ib].
Qed.

Lemma zsum_zero : forall l : list point, zsum (map (fun _ => 0) l) = 0.
Proof. induction l as [| d l IH]; [reflexivity |]. cbn [map]. rewrite zsum_cons, IH. reflexivity. Qed.

Lemma poly_nodup : forall ds, vsum ds = (0, 0) -> Forall (fun d => d <> (0, 0)) ds ->
  StronglySorted (fun a b => ~ before b a) ds ->
  (exists i j, (i < j)%nat /\ (j < length ds)%nat /\ vsum (firstn i ds) = vsum (firstn j ds)) ->
  forall a b, In a ds -> In b ds -> cr a b = 0.
Proof.
  intros ds Z0 NZ SS (i & j & Hij & Hj & E).
  destruct (sorted_halves ds NZ SS) as (L & R & Eds & FL & FR & PL & PR).
  (* the part between the two visits of the corner, and the rest *)
  assert (B0 : vsum (skipn i (firstn j ds)) = (0, 0)).
  { assert (Q : vsum (firstn j ds) = vadd (vsum (firstn i ds)) (vsum (skipn i (firstn j ds)))).
    { rewrite <- vsum_app. f_equal. rewrite <- (firstn_skipn i (firstn j ds)) at 1. f_equal.
      rewrite firstn_firstn. f_equal. lia. }
    rewrite <- E in Q. destruct (vsum (firstn i ds)) as [x y]. destruct (vsum (skipn i (firstn j ds))) as [u v].
    unfold vadd in Q. cbn [fst snd] in Q. injection Q as Q1 Q2. f_equal; lia. }
  assert (C0 : vadd (vsum (firstn i ds)) (vsum (skipn j ds)) = (0, 0)).
  { rewrite E, <- vsum_app, firstn_skipn. exact Z0. }
  assert (LB : length (skipn i (firstn j ds)) = (j - i)%nat) by (rewrite skipn_length, firstn_length; lia).
  assert (LC : length (skipn j ds) = (length ds - j)%nat) by apply skipn_length.
  subst ds. rewrite app_length in *.
  destruct (Nat.le_gt_cases j (length L)) as [G | G].
  { exfalso. rewrite firstn_app in B0, LB. replace (j - length L)%nat with 0%nat in B0, LB by lia. cbn [firstn] in B0, LB.
    rewrite app_nil_r in B0, LB. apply left_nz. rewrite <- B0. apply left_sum; [intros Q; rewrite Q in LB; cbn in LB; lia |].
    rewrite <- (firstn_skipn j L) in FL. apply Forall_app in FL as (FL & _).
    rewrite <- (firstn_skipn i (firstn j L)) in FL. apply Forall_app in FL. tauto. }
  destruct (Nat.le_gt_cases (length L) i) as [G' | G'].
  { exfalso. rewrite firstn_app in B0, LB. rewrite (firstn_all2 L) in B0, LB by lia. rewrite skipn_app in B0, LB.
    rewrite (skipn_all2 L) in B0, LB by lia. cbn [app] in B0, LB. apply right_nz. rewrite <- B0.
    apply right_sum; [intros Q; rewrite Q in LB; cbn in LB; lia |].
    rewrite <- (firstn_skipn (j - length L) R) in FR. apply Forall_app in FR as (FR & _).
    rewrite <- (firstn_skipn (i - length L) (firstn (j - length L) R)) in FR. apply Forall_app in FR. tauto. }
  (* the corner is on both chains *)
  set (L0 := firstn i L) in *. set (L1 := skipn i L) in *. set (R0 := firstn (j - length L) R). set (R1 := skipn (j - length L) R).
  assert (EL : L = L0 ++ L1) by (symmetry; apply firstn_skipn). assert (ER : R = R0 ++ R1) by (symmetry; apply firstn_skipn).
  assert (B : skipn i (firstn j (L ++ R)) = L1 ++ R0).
  { rewrite firstn_app, (firstn_all2 L) by lia. rewrite skipn_app. replace (i - length L)%nat with 0%nat by lia. reflexivity. }
  assert (C1 : firstn i (L ++ R) = L0).
  { rewrite firstn_app. replace (i - length L)%nat with 0%nat by lia. cbn [firstn]. apply app_nil_r. }
  assert (C2 : skipn j (L ++ R) = R1).
  { rewrite skipn_app, (skipn_all2 L) by lia. reflexivity. }
  rewrite B in B0, LB. rewrite C1, C2 in C0. rewrite C2 in LC. clear B C1 C2 E.
  rewrite vsum_app in B0.
  assert (N1 : L1 <> []) by (intros Q; apply (f_equal (@length _)) in Q; unfold L1 in Q; rewrite skipn_length in Q; cbn in Q; lia).
  assert (N2 : R0 <> []).
  { intros Q. apply (f_equal (@length _)) in Q. unfold R0 in Q. rewrite firstn_length in Q. cbn in Q. lia. }
  assert (N3 : R1 <> []) by (intros Q; rewrite Q in LC; cbn in LC; lia).
  rewrite EL in FL, PL. rewrite ER in FR, PR. apply Forall_app in FL as [FL0 FL1]. apply Forall_app in FR as [FR0 FR1].
  assert (N4 : L0 <> []).
  { intros Q. rewrite Q in C0. change (vsum []) with (0, 0) in C0. rewrite vadd_comm, vadd_0_r in C0.
    apply right_nz. rewrite <- C0. apply right_sum; assumption. }
  apply FOP_app in PL as (_ & _ & PL). apply FOP_app in PR as (_ & _ & PR).
  destruct (cr_sums L0 L1 PL) as [X1 X2]. destruct (cr_sums R0 R1 PR) as [Y1 Y2].
  assert (S : cr (vsum R0) (vsum R1) = - cr (vsum L0) (vsum L1)).
  { destruct (vsum L0) as [a0 a1]. destruct (vsum L1) as [b0 b1]. destruct (vsum R0) as [c0 c1]. destruct (vsum R1) as [d0 d1].
    unfold vadd in B0, C0. cbn [fst snd] in B0, C0. injection B0 as B1 B2. injection C0 as C1 C2.
    assert (c0 = - b0) by lia. assert (c1 = - b1) by lia. assert (d0 = - a0) by lia. assert (d1 = - a1) by lia.
    subst c0 c1 d0 d1. unfold cr. cbn [fst snd]. ring. }
  assert (X0 : cr (vsum L0) (vsum L1) = 0) by lia. assert (Y0 : cr (vsum R0) (vsum R1) = 0) by lia.
  assert (NZ' : Forall (fun d => d <> (0, 0)) (L0 ++ L1) /\ Forall (fun d => d <> (0, 0)) (R0 ++ R1)).
  { rewrite <- EL, <- ER. apply Forall_app. exact NZ. }
  destruct NZ' as [NZL NZR].
  pose proof (parallel_all L0 L1 N4 N1 NZL (X2 X0)) as QL. pose proof (parallel_all R0 R1 N2 N3 NZR (Y2 Y0)) as QR.
  rewrite <- EL in QL. rewrite <- ER in QR.
  set (u := vsum L0) in *.
  assert (Nu : u <> (0, 0)) by (intros Q; apply left_nz; rewrite <- Q; apply left_sum; assumption).
  assert (UL : forall a, In a L -> cr a u = 0).
  { intros a Ia. unfold u. rewrite cr_vsum. rewrite <- (map_ext_in (fun _ => 0)).
    - apply zsum_zero.
    - intros e He. symmetry. apply QL; [exact Ia |]. rewrite EL. apply in_or_app. left. exact He. }
  assert (UR : forall a, In a R -> cr u a = 0).
  { intros a Ia. assert (W : cr a (vsum R1) = 0).
    { rewrite cr_vsum. rewrite <- (map_ext_in (fun _ => 0)).
      - apply zsum_zero.
      - intros e He. symmetry. apply QR; [exact Ia |]. rewrite ER. apply in_or_app. right. exact He. }
    destruct u as [u0 u1]. destruct (vsum R1) as [v0 v1]. unfold vadd in C0. cbn [fst snd] in C0. injection C0 as C1 C2.
    assert (v0 = - u0) by lia. assert (v1 = - u1) by lia. subst v0 v1. unfold cr in *. cbn [fst snd] in *. lia. }
  intros a b Ia Ib. apply in_app_or in Ia as [Ia | Ia]; apply in_app_or in Ib as [Ib | Ib].
  - apply QL; assumption.
  - apply parallel_trans with u; auto.
  - apply parallel_sym. apply parallel_trans with u; auto.
  - apply QR; assumption.
Qed.

Lemma poly_once : forall base ds, (3 <= length ds)%nat -> vsum ds = (0, 0) -> Forall (fun d => d <> (0, 0)) ds ->
  StronglySorted (fun a b => ~ before b a) ds ->
  flat (poly base ds) \/ convex (poly base ds) /\ NoDup (poly base ds).
Proof.
  intros base ds N3 Z0 NZ SS.
  destruct (all_parallel_dec ds) as [P | (i & j & Hi & Hj & C)].
  { left. apply parallel_flat; [apply sorted_turns; assumption | exact N3 | exact P]. }
  destruct (poly_convex base ds Z0 (sorted_turns ds NZ SS) NZ N3) as [F | F]; [left; exact F |]. right. split; [exact F |].
  apply (NoDup_nth _ (0, 0)). rewrite poly_length.
  assert (K : forall k, (k < length ds)%nat -> nth k (poly base ds) (0, 0) = vadd base (vsum (firstn k ds))).
  { intros k Hk. rewrite <- (corner_poly base ds k Hk). unfold corner. rewrite poly_length, Nat.mod_small by exact Hk. reflexivity. }
  assert (Inj : forall k l, (k < l)%nat -> (l < length ds)%nat -> nth k (poly base ds) (0, 0) = nth l (poly base ds) (0, 0) -> False).
  { intros k l Hkl Hl E. rewrite !K in E by lia. apply C.
    apply (poly_nodup ds Z0 NZ SS); [| apply nth_In; exact Hi | apply nth_In; exact Hj].
    exists k, l. split; [exact Hkl |]. split; [exact Hl |].
    destruct base as [x y]. destruct (vsum (firstn k ds)) as [a b]. destruct (vsum (firstn l ds)) as [a' b'].
    unfold vadd in E. cbn [fst snd] in E. injection E as E1 E2. f_equal; lia. }
  intros k l Hk Hl E. destruct (Nat.lt_trichotomy k l) as [G | [G | G]]; [| exact G |]; exfalso.
  - eapply Inj; eauto.
  - eapply Inj; eauto.
Qed.
