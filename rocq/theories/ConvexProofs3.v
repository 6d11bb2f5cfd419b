(* Directions sorted by angle. *)
From Verif Require Import Base BaseLemmas RandSpec ConvexSpec ConvexProofs ConvexProofs2.
From Coq Require Import ZArith Lia List Permutation Sorted.
Import ListNotations.
Open Scope Z_scope.

Lemma SS_FOP : forall A (R : A -> A -> Prop) l, StronglySorted R l -> ForallOrdPairs R l.
Proof. intros A R l H. induction H; constructor; assumption. Qed.
Lemma FOP_app : forall A (R : A -> A -> Prop) l l', ForallOrdPairs R (l ++ l') ->
  ForallOrdPairs R l /\ ForallOrdPairs R l' /\ (forall a b, In a l -> In b l' -> R a b).
Proof.
  intros A R l l' H. induction l as [| x l IH]; cbn [app] in H.
  - split; [constructor |]. split; [exact H |]. intros a b [].
  - inversion_clear H as [| ? ? Hx Hl]. destruct (IH Hl) as (H1 & H2 & H3). rewrite Forall_app in Hx. destruct Hx as [X1 X2].
    split; [constructor; assumption |]. split; [exact H2 |].
    intros a b [-> | Ia] Ib; [rewrite Forall_forall in X2; auto | auto].
Qed.
Lemma FOP_impl_in : forall A (R S : A -> A -> Prop) l, (forall a b, In a l -> In b l -> R a b -> S a b) ->
  ForallOrdPairs R l -> ForallOrdPairs S l.
Proof.
  intros A R S l H F. induction F as [| x l Hx Hl IH]; constructor.
  - rewrite Forall_forall in *. intros b Ib. apply H; [left; reflexivity | right; exact Ib | auto].
  - apply IH. intros a b Ia Ib. apply H; right; assumption.
Qed.
Lemma FOP_map : forall A B (f : A -> B) (R : B -> B -> Prop) l,
  ForallOrdPairs (fun a b => R (f a) (f b)) l -> ForallOrdPairs R (map f l).
Proof.
  intros A B f R l F. induction F as [| x l Hx Hl IH]; constructor; [| exact IH].
  rewrite Forall_forall in *. intros b Ib. apply in_map_iff in Ib as (a & <- & Ia). auto.
Qed.

Lemma sorted_halves : forall ds, Forall (fun d => d <> (0, 0)) ds -> StronglySorted (fun a b => ~ before b a) ds ->
  exists L R, ds = L ++ R /\ Forall leftHalf L /\ Forall rightHalf R /\
    ForallOrdPairs (fun a b => 0 <= cr a b) L /\ ForallOrdPairs (fun a b => 0 <= cr a b) R.
Proof.
  intros ds NZ SS. apply SS_FOP in SS. induction SS as [| d ds Hd Hs IH].
  - exists [], []. repeat constructor.
  - apply Forall_inv in NZ as Nd. apply Forall_inv_tail in NZ. destruct (IH NZ) as (L & R & -> & FL & FR & PL & PR).
    rewrite Forall_app in Hd. destruct Hd as [HL HR].
    assert (K : forall e, (leftHalf d <-> leftHalf e) -> ~ before e d -> 0 <= cr d e).
    { intros e He Hb. rewrite cr_anti. destruct (Z.le_gt_cases (cr e d) 0) as [| G]; [lia |].
      exfalso. apply Hb. right. split; [tauto | exact G]. }
    destruct (half_cases d Nd) as [D | D].
    + exists (d :: L), R. split; [reflexivity |]. split; [constructor; assumption |]. split; [exact FR |].
      split; [| exact PR]. constructor; [| exact PL]. rewrite Forall_forall in *. intros e He. apply K; [| auto].
      split; auto.
    + assert (L = []).
      { destruct L as [| e L]; [reflexivity |]. exfalso. apply Forall_inv in HL. apply Forall_inv in FL.
        apply HL. left. split; [exact FL |]. intros D'. exact (half_excl d D' D). }
      subst L. exists [], (d :: R). split; [reflexivity |]. split; [constructor |]. split; [constructor; assumption |].
      split; [constructor |]. constructor; [| exact PR]. rewrite Forall_forall in *. intros e He. apply K; [| auto].
      pose proof (FR e He) as Re. split; intros Q; exfalso; [exact (half_excl d Q D) | exact (half_excl e Q Re)].
Qed.

Lemma nn_cr : forall d l, Forall (fun e => 0 <= cr d e) l -> nn (map (cr d) l).
Proof. intros d l F. unfold nn. rewrite Forall_map. exact F. Qed.

(* the other half plane *)
Lemma opposite : forall d M, (leftHalf d /\ Forall rightHalf M) \/ (rightHalf d /\ Forall leftHalf M) ->
  ForallOrdPairs (fun a b => 0 <= cr a b) M -> exists A B, map (cr d) M = A ++ B /\ nn A /\ np B.
Proof.
  intros d M H F. apply once_negative. apply FOP_map. eapply FOP_impl_in; [| exact F].
  intros a b Ia Ib C N. cbn beta in *.
  destruct H as [[D FM] | [D FM]]; rewrite Forall_forall in FM.
  - assert (0 <= cr (neg d) b).
    { apply right_trans with a; auto; [apply neg_left; exact D | rewrite cr_negl; lia]. }
    rewrite cr_negl in H. lia.
  - assert (0 <= cr (neg d) b).
    { apply left_trans with a; auto; [apply neg_right; exact D | rewrite cr_negl; lia]. }
    rewrite cr_negl in H. lia.
Qed.

Lemma sorted_turns : forall ds, Forall (fun d => d <> (0, 0)) ds -> StronglySorted (fun a b => ~ before b a) ds ->
  forall l1 d l2, ds = l1 ++ d :: l2 -> exists A B, map (cr d) (l2 ++ l1) = A ++ B /\ nn A /\ np B.
Proof.
  intros ds NZ SS l1 d l2 E. destruct (sorted_halves ds NZ SS) as (L & R & E' & FL & FR & PL & PR).
  rewrite E' in E. clear E' NZ SS ds.
  assert (C : (exists l', L = l1 ++ d :: l' /\ l2 = l' ++ R) \/ (exists l, l1 = L ++ l /\ R = l ++ d :: l2)).
  { apply app_eq_app in E as (l & [[E1 E2] | [E1 E2]]).
    - destruct l as [| e l].
      + right. exists []. rewrite app_nil_r in *. cbn [app] in *. split; [symmetry; exact E1 | symmetry; exact E2].
      + left. exists l. cbn [app] in E2. injection E2 as -> ->. auto.
    - right. exists l. auto. }
  destruct C as [(l' & -> & ->) | (l & -> & ->)].
  - apply FOP_app in PL as (_ & P2 & P3). inversion_clear P2 as [| ? ? Pd _].
    apply Forall_app in FL as (_ & FL). apply Forall_inv in FL.
    destruct (opposite d R) as (A & B & EAB & HA & HB); [left; auto | exact PR |].
    exists (map (cr d) l' ++ A), (B ++ map (cr d) l1). rewrite !map_app, EAB, <- !app_assoc. split; [reflexivity |].
    split; [apply Forall_app; split; [apply nn_cr; exact Pd | exact HA] |].
    apply Forall_app. split; [exact HB |]. rewrite Forall_map, Forall_forall. intros e He.
    rewrite cr_anti. pose proof (P3 e d He (or_introl eq_refl)). lia.
  - apply FOP_app in PR as (_ & P2 & P3). inversion_clear P2 as [| ? ? Pd _].
    apply Forall_app in FR as (_ & FR). apply Forall_inv in FR.
    destruct (opposite d L) as (A & B & EAB & HA & HB); [right; auto | exact PL |].
    exists (map (cr d) l2 ++ A), (B ++ map (cr d) l). rewrite !map_app, EAB, <- !app_assoc. split; [reflexivity |].
    split; [apply Forall_app; split; [apply nn_cr; exact Pd | exact HA] |].
    apply Forall_app. split; [exact HB |]. rewrite Forall_map, Forall_forall. intros e He.
    rewrite cr_anti. pose proof (P3 e d He (or_introl eq_refl)). lia.
Qed.

(* ---- extents *)
Definition negs (l : list Z) : Z := zsum (map (Z.min 0) l).
Lemma negs_app : forall l l', negs (l ++ l') = negs l + negs l'.
Proof. intros. unfold negs. rewrite map_app. apply zsum_app. Qed.
Lemma zsum_perm : forall l l', Permutation l l' -> zsum l = zsum l'.
Proof. induction 1; rewrite ?zsum_cons in *; try lia. Qed.
Lemma negs_perm : forall l l', Permutation l l' -> negs l = negs l'.
Proof. intros l l' P. unfold negs. apply zsum_perm. apply Permutation_map. exact P. Qed.
Lemma negs_nn : forall l, nn l -> negs l = 0.
Proof.
  induction 1 as [| z l Hz _ IH]; [reflexivity |]. unfold negs in *. cbn [map]. rewrite zsum_cons, IH. lia.
Qed.
Lemma negs_np : forall l, np l -> negs l = zsum l.
Proof.
  induction 1 as [| z l Hz _ IH]; [reflexivity |]. unfold negs in *. cbn [map]. rewrite !zsum_cons, IH. lia.
Qed.

(* a closed walk that goes up, down and up again *)
Lemma extent : forall a b c, nn a -> np b -> nn c -> zsum (a ++ b ++ c) = 0 ->
  let s := a ++ b ++ c in let D := - negs s in let m := zsum a in
  (forall k, m - D <= zsum (firstn k s) <= m) /\
  (exists k, (k <= length s)%nat /\ zsum (firstn k s) = m) /\
  (exists k, (k <= length s)%nat /\ zsum (firstn k s) = m - D).
Proof.
  intros a b c Ha Hb Hc Z s D m.
  assert (ED : D = - zsum b).
  { unfold D, s. rewrite !negs_app, (negs_nn a Ha), (negs_np b Hb), (negs_nn c Hc). lia. }
  split; [| split].
  - intros k. pose proof (wave a b c k Ha Hb Hc Z). unfold m, s. lia.
  - exists (length a). unfold s. split; [rewrite app_length; lia |]. rewrite firstn_app, Nat.sub_diag, firstn_all.
    cbn [firstn]. rewrite app_nil_r. reflexivity.
  - exists (length (a ++ b)). unfold s. rewrite app_assoc. split; [rewrite !app_length; lia |].
    rewrite firstn_app, Nat.sub_diag, firstn_all. cbn [firstn]. rewrite app_nil_r, zsum_app. unfold m. lia.
Qed.

Lemma sorted_xs : forall ds, Forall (fun d => d <> (0, 0)) ds -> StronglySorted (fun a b => ~ before b a) ds ->
  exists b c, map fst ds = b ++ c /\ np b /\ nn c.
Proof.
  intros ds NZ SS. destruct (sorted_halves ds NZ SS) as (L & R & -> & FL & FR & _ & _).
  exists (map fst L), (map fst R). rewrite map_app. split; [reflexivity |]. unfold np, nn. rewrite !Forall_map.
  split; [eapply Forall_impl; [| exact FL] | eapply Forall_impl; [| exact FR]]; intros [x y]; unfold leftHalf, rightHalf; cbn; lia.
Qed.

Lemma sorted_ys : forall ds, Forall (fun d => d <> (0, 0)) ds -> StronglySorted (fun a b => ~ before b a) ds ->
  exists a b c, map snd ds = a ++ b ++ c /\ nn a /\ np b /\ nn c.
Proof.
  intros ds NZ SS. destruct (sorted_halves ds NZ SS) as (L & R & -> & FL & FR & PL & PR).
  destruct (once_negative (map snd L)) as (a & b & Ea & Ha & Hb).
  { apply FOP_map. eapply FOP_impl_in; [| exact PL]. rewrite Forall_forall in FL.
    intros [x1 y1] [x2 y2] I1 I2. pose proof (FL _ I1) as L1. pose proof (FL _ I2) as L2. clear - L1 L2.
    unfold leftHalf, cr in *. cbn [fst snd] in *. intros C N.
    destruct (Z.le_gt_cases y2 0) as [| G]; [assumption |]. exfalso. nia. }
  destruct (once_negative (map (fun d => - snd d) R)) as (b' & c & Eb & Hb' & Hc).
  { apply FOP_map. eapply FOP_impl_in; [| exact PR]. rewrite Forall_forall in FR.
    intros [x1 y1] [x2 y2] I1 I2. pose proof (FR _ I1) as L1. pose proof (FR _ I2) as L2. clear - L1 L2.
    unfold rightHalf, cr in *. cbn [fst snd] in *. intros C N.
    destruct (Z.le_gt_cases (- y2) 0) as [| G]; [assumption |]. exfalso. nia. }
  exists a, (b ++ map Z.opp b'), (map Z.opp c). rewrite map_app, Ea.
  assert (E : map snd R = map Z.opp b' ++ map Z.opp c).
  { rewrite <- map_app, <- Eb, map_map. apply map_ext. intros. lia. }
  rewrite E, <- !app_assoc. split; [reflexivity |]. split; [exact Ha |].
  split; [apply Forall_app; split; [exact Hb |] |]; unfold np, nn in *; rewrite Forall_map;
    (eapply Forall_impl; [| first [exact Hb' | exact Hc]]); cbn; intros; lia.
Qed.

(* ---- the order *)
Lemma before_irrefl : forall a, ~ before a a.
Proof. intros a [H | [_ H]]; [tauto |]. lia. Qed.
Lemma notleft_right : forall a, a <> (0, 0) -> ~ leftHalf a -> rightHalf a.
Proof. intros a N H. destruct (half_cases a N); [contradiction | assumption]. Qed.
Lemma before_trans : forall a b c, a <> (0, 0) -> b <> (0, 0) -> c <> (0, 0) ->
  before a b -> before b c -> before a c.
Proof.
  intros a b c Na Nb Nc H1 H2. unfold before in *. fold (cr a b) in *. fold (cr b c) in *. fold (cr a c).
  destruct (half_dec a) as [A | A], (half_dec b) as [B | B], (half_dec c) as [C | C]; try tauto.
  - destruct H1 as [H1 | [_ H1]]; [tauto |]. destruct H2 as [H2 | [_ H2]]; [tauto |].
    right. split; [tauto |]. rewrite <- cr_neg. apply right_trans_strict with (neg b); try (apply neg_left; assumption);
      rewrite cr_neg; lia.
  - destruct H1 as [H1 | [_ H1]]; [tauto |]. destruct H2 as [H2 | [_ H2]]; [tauto |].
    right. split; [tauto |]. apply right_trans_strict with b; try (apply notleft_right; assumption); lia.
Qed.
Lemma before_total : forall a b c, a <> (0, 0) -> b <> (0, 0) -> c <> (0, 0) ->
  ~ before b a -> ~ before c b -> ~ before c a.
Proof.
  intros a b c Na Nb Nc H1 H2 H. unfold before in *. fold (cr b a) in *. fold (cr c b) in *. fold (cr c a) in H.
  destruct (half_dec a) as [A | A], (half_dec b) as [B | B], (half_dec c) as [C | C]; try tauto.
  - assert (E1 : 0 <= cr a b) by (rewrite cr_anti; destruct (Z.le_gt_cases (cr b a) 0); [lia | exfalso; apply H1; right; tauto]).
    assert (E2 : 0 <= cr b c) by (rewrite cr_anti; destruct (Z.le_gt_cases (cr c b) 0); [lia | exfalso; apply H2; right; tauto]).
    destruct H as [H | [_ H]]; [tauto |]. pose proof (left_trans a b c A B C E1 E2). rewrite cr_anti in H. lia.
  - assert (E1 : 0 <= cr a b) by (rewrite cr_anti; destruct (Z.le_gt_cases (cr b a) 0); [lia | exfalso; apply H1; right; tauto]).
    assert (E2 : 0 <= cr b c) by (rewrite cr_anti; destruct (Z.le_gt_cases (cr c b) 0); [lia | exfalso; apply H2; right; tauto]).
    destruct H as [H | [_ H]]; [tauto |].
    pose proof (right_trans a b c (notleft_right _ Na A) (notleft_right _ Nb B) (notleft_right _ Nc C) E1 E2).
    rewrite cr_anti in H. lia.
Qed.
