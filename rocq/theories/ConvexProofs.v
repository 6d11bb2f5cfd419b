(* Walking along directions sorted by angle gives a convex polygon. *)
From Verif Require Import Base BaseLemmas RandSpec ConvexSpec.
From Coq Require Import ZArith Lia List Permutation Sorted.
Import ListNotations.
Open Scope Z_scope.

Notation point := (Z * Z)%type.
Definition cr (a b : point) : Z := fst a * snd b - snd a * fst b.
Definition vadd (a b : point) : point := (fst a + fst b, snd a + snd b).
Definition vsum (l : list point) : point := fold_right vadd (0, 0) l.
Definition neg (a : point) : point := (- fst a, - snd a).

Lemma vsum_app : forall l l', vsum (l ++ l') = vadd (vsum l) (vsum l').
Proof.
  induction l as [| d l IH]; intros l'; cbn [app vsum fold_right].
  - fold (vsum l'). destruct (vsum l') as [x y]. unfold vadd. cbn [fst snd]. rewrite !Z.add_0_l. reflexivity.
  - fold (vsum (l ++ l')) (vsum l). rewrite IH. unfold vadd. cbn [fst snd]. f_equal; ring.
Qed.
Lemma vsum_perm : forall l l', Permutation l l' -> vsum l = vsum l'.
Proof.
  induction 1; cbn [vsum fold_right]; auto.
  - unfold vsum in IHPermutation. rewrite IHPermutation. reflexivity.
  - unfold vadd. cbn [fst snd]. f_equal; ring.
  - congruence.
Qed.
Lemma fst_vsum : forall l, fst (vsum l) = zsum (map fst l).
Proof. induction l; cbn [vsum fold_right map zsum vadd fst] in *; [reflexivity |]. unfold vsum in IHl. rewrite IHl. reflexivity. Qed.
Lemma snd_vsum : forall l, snd (vsum l) = zsum (map snd l).
Proof. induction l; cbn [vsum fold_right map zsum vadd snd] in *; [reflexivity |]. unfold vsum in IHl. rewrite IHl. reflexivity. Qed.
Lemma cr_vsum : forall d l, cr d (vsum l) = zsum (map (cr d) l).
Proof.
  induction l as [| e l IH]; cbn [vsum fold_right map zsum]; [unfold cr; cbn; ring |].
  fold (vsum l) (zsum (map (cr d) l)). rewrite <- IH. unfold cr, vadd. cbn [fst snd]. ring.
Qed.
Lemma zsum_app : forall l l', zsum (l ++ l') = zsum l + zsum l'.
Proof. induction l as [| z l IH]; intros l'; [reflexivity |]. cbn [app]. change (zsum (z :: l ++ l')) with (z + zsum (l ++ l')). change (zsum (z :: l)) with (z + zsum l). rewrite IH. lia. Qed.
Lemma zsum_cons : forall x l, zsum (x :: l) = x + zsum l. Proof. reflexivity. Qed.

(* ---- numbers with at most two changes of sign *)
Definition nn (l : list Z) := Forall (fun z => 0 <= z) l.
Definition np (l : list Z) := Forall (fun z => z <= 0) l.

Lemma nn_pre : forall l k, nn l -> 0 <= zsum (firstn k l) <= zsum l.
Proof.
  induction l as [| z l IH]; intros k H; [rewrite firstn_nil; cbn; lia |].
  apply Forall_inv in H as Hz. apply Forall_inv_tail in H. cbn beta in Hz.
  destruct k; cbn [firstn]; rewrite !zsum_cons.
  - pose proof (IH 0%nat H). cbn in *. lia.
  - pose proof (IH k H). lia.
Qed.
Lemma np_pre : forall l k, np l -> zsum l <= zsum (firstn k l) <= 0.
Proof.
  induction l as [| z l IH]; intros k H; [rewrite firstn_nil; cbn; lia |].
  apply Forall_inv in H as Hz. apply Forall_inv_tail in H. cbn beta in Hz.
  destruct k; cbn [firstn]; rewrite !zsum_cons.
  - pose proof (IH 0%nat H). cbn in *. lia.
  - pose proof (IH k H). lia.
Qed.

Lemma wave : forall a b c k, nn a -> np b -> nn c -> zsum (a ++ b ++ c) = 0 ->
  zsum a + zsum b <= zsum (firstn k (a ++ b ++ c)) <= zsum a.
Proof.
  intros a b c k Ha Hb Hc Z. rewrite !firstn_app, !zsum_app. rewrite !zsum_app in Z.
  set (k1 := (k - length a)%nat). set (k2 := (k1 - length b)%nat).
  pose proof (nn_pre a k Ha) as A. pose proof (np_pre b k1 Hb) as B. pose proof (nn_pre c k2 Hc) as C.
  destruct (Nat.le_gt_cases (length a) k) as [K1 | K1].
  2:{ assert (E1 : k1 = 0%nat) by lia. assert (E2 : k2 = 0%nat) by lia. rewrite E1, E2. cbn. 
      pose proof (nn_pre c 0 Hc). pose proof (np_pre b 0 Hb). lia. }
  rewrite (firstn_all2 a) by lia.
  destruct (Nat.le_gt_cases (length b) k1) as [K2 | K2].
  2:{ assert (E2 : k2 = 0%nat) by lia. rewrite E2. cbn. lia. }
  rewrite (firstn_all2 b) by lia. lia.
Qed.

Lemma once_negative : forall l,
  ForallOrdPairs (fun u v => u < 0 -> v <= 0) l -> exists a b, l = a ++ b /\ nn a /\ np b.
Proof.
  intros l. induction l as [| z l IH]; intros H; [exists [], []; repeat constructor |].
  inversion_clear H as [| ? ? Hz Hl]. destruct (IH Hl) as (a & b & E & A & B).
  destruct (Z.lt_ge_cases z 0) as [Hn | Hn].
  - exists [], (z :: l). split; [reflexivity |]. split; [constructor |]. constructor; [lia |].
    eapply Forall_impl; [| exact Hz]. cbn. auto.
  - exists (z :: a), b. rewrite E. split; [reflexivity |]. split; [constructor |]; auto.
Qed.

(* ---- half planes *)
Definition rightHalf (p : point) : Prop := 0 < fst p \/ fst p = 0 /\ 0 < snd p.

Lemma half_cases : forall p, p <> (0, 0) -> leftHalf p \/ rightHalf p.
Proof.
  intros [x y] H. unfold leftHalf, rightHalf. cbn.
  destruct (Z.lt_trichotomy x 0) as [| [|]]; auto. subst x.
  destruct (Z.lt_trichotomy y 0) as [| [|]]; auto. subst y. contradiction H. reflexivity.
Qed.
Lemma half_excl : forall p, leftHalf p -> rightHalf p -> False.
Proof. intros [x y]. unfold leftHalf, rightHalf. cbn. lia. Qed.
Lemma half_dec : forall p, {leftHalf p} + {~ leftHalf p}.
Proof.
  intros [x y]. unfold leftHalf. cbn. destruct (Z_lt_dec x 0); [auto |].
  destruct (Z.eq_dec x 0); [| right; lia]. destruct (Z_lt_dec y 0); [auto | right; lia].
Qed.
Lemma neg_left : forall p, leftHalf p -> rightHalf (neg p).
Proof. intros [x y]. unfold leftHalf, rightHalf, neg. cbn. lia. Qed.
Lemma neg_right : forall p, rightHalf p -> leftHalf (neg p).
Proof. intros [x y]. unfold leftHalf, rightHalf, neg. cbn. lia. Qed.

(* in a half plane the order by angle is transitive *)
Lemma right_trans : forall f e1 e2, rightHalf f -> rightHalf e1 -> rightHalf e2 ->
  0 <= cr f e1 -> 0 <= cr e1 e2 -> 0 <= cr f e2.
Proof.
  intros [fx fy] [x1 y1] [x2 y2]. unfold rightHalf, cr. cbn [fst snd]. intros F E1 E2 C1 C2.
  assert (I : x1 * (fx * y2 - fy * x2) = fx * (x1 * y2 - y1 * x2) + x2 * (fx * y1 - fy * x1)) by ring.
  set (u := fx * y2 - fy * x2) in *. set (v := x1 * y2 - y1 * x2) in *. set (w := fx * y1 - fy * x1) in *.
  destruct E1 as [P | [P Q]].
  - assert (0 <= x1 * u). { rewrite I. apply Z.add_nonneg_nonneg; apply Z.mul_nonneg_nonneg; lia. }
    nia.
  - subst x1. unfold v in C2. assert (x2 = 0) by nia. subst x2. unfold u. nia.
Qed.
Lemma right_trans_strict : forall f e1 e2, rightHalf f -> rightHalf e1 -> rightHalf e2 ->
  0 < cr f e1 -> 0 <= cr e1 e2 -> 0 < cr f e2.
Proof.
  intros [fx fy] [x1 y1] [x2 y2]. unfold rightHalf, cr. cbn [fst snd]. intros F E1 E2 C1 C2.
  assert (I : x1 * (fx * y2 - fy * x2) = fx * (x1 * y2 - y1 * x2) + x2 * (fx * y1 - fy * x1)) by ring.
  set (u := fx * y2 - fy * x2) in *. set (v := x1 * y2 - y1 * x2) in *. set (w := fx * y1 - fy * x1) in *.
  destruct E1 as [P | [P Q]].
  - destruct E2 as [P2 | [P2 Q2]].
    + assert (0 < x1 * u). { rewrite I. apply Z.add_nonneg_pos; [apply Z.mul_nonneg_nonneg; lia | apply Z.mul_pos_pos; lia]. }
      nia.
    + subst x2. unfold u. destruct F as [F | [F G]]; [nia |]. subst fx. unfold w in C1. nia.
  - subst x1. unfold v in C2. assert (x2 = 0) by nia. subst x2. unfold u, w in *. nia.
Qed.
Lemma cr_neg : forall a b, cr (neg a) (neg b) = cr a b.
Proof. intros. unfold cr, neg. cbn. ring. Qed.
Lemma cr_negl : forall a b, cr (neg a) b = - cr a b.
Proof. intros. unfold cr, neg. cbn. ring. Qed.
Lemma cr_negr : forall a b, cr a (neg b) = - cr a b.
Proof. intros. unfold cr, neg. cbn. ring. Qed.
Lemma cr_anti : forall a b, cr a b = - cr b a.
Proof. intros. unfold cr. ring. Qed.
Lemma left_trans : forall f e1 e2, leftHalf f -> leftHalf e1 -> leftHalf e2 ->
  0 <= cr f e1 -> 0 <= cr e1 e2 -> 0 <= cr f e2.
Proof.
  intros f e1 e2 F E1 E2 C1 C2. rewrite <- cr_neg. apply right_trans with (neg e1); try (apply neg_left; assumption);
    rewrite cr_neg; assumption.
Qed.
