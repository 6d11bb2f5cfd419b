From Verif Require Import Base BaseLemmas Tac GeoModel GeoSpec HullModel HullSpec HullProofs AuditProofs.
From Coq Require Import ZArith List Sorted Lia Permutation.
Import ListNotations.
Open Scope Z_scope.

(* ---- sorting ---- *)
Definition upto (a b : pt) : Prop := a = b \/ before a b.
Lemma less_before : forall a b, lexLess a b = true <-> before a b.
Proof. intros [a1 a2] [b1 b2]. unfold lexLess, before. cbn [fst snd]. destruct (Z.eqb_spec a1 b1); lia. Qed.
Lemma not_less_upto : forall a b, lexLess a b = false -> upto b a.
Proof.
  intros a b H. assert (N : ~ before a b) by (rewrite <- less_before; congruence). destruct (before_total a b) as [K|[->|K]]; [contradiction|left; reflexivity|right; exact K].
Qed.
Lemma upto_trans : forall a b c, upto a b -> upto b c -> upto a c.
Proof. intros a b c [->|H] [->|K]; unfold upto; auto. right. apply (before_trans a b c); assumption. Qed.
Lemma insert_in : forall x l q, In q (insertPoint x l) <-> q = x \/ In q l.
Proof.
  intros x l q. induction l as [|y l IH]; cbn [insertPoint]; [cbn; intuition congruence|].
  destruct (lexLess y x); cbn [In]; [rewrite IH|]; intuition congruence.
Qed.
Lemma insert_sorted : forall x l, StronglySorted upto l -> StronglySorted upto (insertPoint x l).
Proof.
  intros x l. induction l as [|y l IH]; intros S; cbn [insertPoint]; [repeat constructor|]. inversion S as [|? ? S' F]; subst. rewrite Forall_forall in F.
  destruct (lexLess y x) eqn:E.
  - constructor; [auto|]. rewrite Forall_forall. intros q I. apply insert_in in I. destruct I as [->|I]; [right; apply less_before, E|auto].
  - constructor; [exact S|]. rewrite Forall_forall. apply not_less_upto in E. intros q [<-|I]; [exact E|]. apply (upto_trans x y q); auto.
Qed.
Lemma sort_sorted : forall l, StronglySorted upto (sortPoints l).
Proof. induction l as [|x l IH]; cbn; [constructor|apply insert_sorted; exact IH]. Qed.
Lemma sort_in : forall l q, In q (sortPoints l) <-> In q l.
Proof. induction l as [|x l IH]; intros q; cbn; [tauto|]. rewrite insert_in, IH. intuition congruence. Qed.
Lemma unique_in : forall l q, In q (uniquePoints l) <-> In q l.
Proof.
  induction l as [|a l IH]; intros q; [tauto|]. cbn [uniquePoints]. destruct l as [|b l]; [tauto|].
  destruct ((fst a =? fst b) && (snd a =? snd b)) eqn:E; [|cbn [In]; rewrite IH; reflexivity].
  assert (a = b) by (destruct a, b; cbn in E; f_equal; lia). subst b. rewrite IH. cbn [In]. tauto.
Qed.
Lemma unique_sorted : forall l, StronglySorted upto l -> StronglySorted before (uniquePoints l).
Proof.
  induction l as [|a l IH]; intros S; [constructor|]. cbn [uniquePoints]. inversion S as [|? ? S' F]; subst. destruct l as [|b l]; [repeat constructor|].
  destruct ((fst a =? fst b) && (snd a =? snd b)) eqn:E; [auto|]. constructor; [auto|]. rewrite Forall_forall. intros q I. apply (unique_in (b :: l)) in I.
  assert (AB : before a b). { destruct (Forall_inv F) as [->|H]; [|exact H]. exfalso. lia. }
  destruct I as [<-|I]; [exact AB|]. inversion S' as [|? ? _ F']; subst. rewrite Forall_forall in F'. destruct (F' q I) as [<-|H]; [exact AB|apply (before_trans a b q); assumption].
Qed.

(* ---- no overflow ---- *)
Definition tiny (p : pt) : Prop := Z.abs (fst p) < 2 ^ 30 /\ Z.abs (snd p) < 2 ^ 30.
Lemma small_product : forall x y, Z.abs x < 2 ^ 31 -> Z.abs y < 2 ^ 31 -> Z.abs (x * y) < 2 ^ 62.
Proof. intros x y X Y. rewrite Z.abs_mul. change (2 ^ 62) with (2 ^ 31 * 2 ^ 31). apply Z.mul_lt_mono_nonneg; lia. Qed.
Lemma cross3_tiny : forall a b c, tiny a -> tiny b -> tiny c -> cross3 a b c = Ok (orient a b c).
Proof.
  intros [a1 a2] [b1 b2] [c1 c2] (A1 & A2) (B1 & B2) (C1 & C2). cbn [fst snd] in *.
  apply (proj2 (cross3_iff (a1, a2) (b1, b2) (c1, c2) _)). unfold orient. cbn [fst snd].
  assert (P : Z.abs ((b1 - a1) * (c2 - a2)) < 2 ^ 62) by (apply small_product; lia).
  assert (Q : Z.abs ((b2 - a2) * (c1 - a1)) < 2 ^ 62) by (apply small_product; lia).
  set (u := (b1 - a1) * (c2 - a2)) in *. set (v := (b2 - a2) * (c1 - a1)) in *. clearbody u v. unfold is_i64. repeat split; mach; lia.
Qed.
Lemma drop_step : forall t b a r c, (t < length (b :: a :: r))%nat -> tiny a -> tiny b -> tiny c ->
  dropTurns t (b :: a :: r) c = if orient a b c <? 0 then dropTurns t (a :: r) c else Ok (b :: a :: r).
Proof.
  intros t b a r c L A B C. change (dropTurns t (b :: a :: r) c) with
    (if (t <? length (b :: a :: r))%nat then let! x := cross3 a b c in if x <? 0 then dropTurns t (a :: r) c else Ok (b :: a :: r) else Ok (b :: a :: r)).
  apply Nat.ltb_lt in L. rewrite L, cross3_tiny by assumption. reflexivity.
Qed.
Lemma pop_step : forall b a r c, pop (b :: a :: r) c = if orient a b c <? 0 then pop (a :: r) c else b :: a :: r.
Proof. reflexivity. Qed.
Lemma drop_pop : forall c l m u, tiny c -> Forall tiny (u ++ m :: l) -> dropTurns (S (length l)) (u ++ m :: l) c = Ok (pop (u ++ [m]) c ++ l).
Proof.
  intros c l m u C. induction u as [|b u IH]; intros F.
  - cbn [app pop dropTurns]. destruct l as [|a l]; [reflexivity|]. cbn [length]. rewrite Nat.ltb_irrefl. reflexivity.
  - cbn [app] in *. inversion F as [|? ? FB F']; subst. specialize (IH F').
    destruct u as [|a u]; cbn [app] in *.
    + rewrite drop_step by first [assumption|exact (Forall_inv F')|cbn [length]; lia]. rewrite pop_step. destruct (orient m b c <? 0); [exact IH|reflexivity].
    + rewrite drop_step by first [assumption|exact (Forall_inv F')|cbn [length]; rewrite app_length; cbn [length]; lia]. rewrite pop_step.
      destruct (orient a b c <? 0); [exact IH|]. cbn [app]. rewrite <- app_assoc. reflexivity.
Qed.
Lemma pop_suffix : forall h c, exists l, h = l ++ pop h c.
Proof.
  induction h as [|b h IH]; intros c; [exists []; reflexivity|]. destruct h as [|a r]; [exists []; reflexivity|]. rewrite pop_step.
  destruct (orient a b c <? 0); [|exists []; reflexivity]. destruct (IH c) as [l E]. exists (b :: l). cbn [app]. rewrite <- E. reflexivity.
Qed.
Lemma pop_ends : forall u m c, exists u', pop (u ++ [m]) c = u' ++ [m].
Proof.
  induction u as [|b u IH]; intros m c; [exists []; reflexivity|]. destruct u as [|a u]; cbn [app]; rewrite pop_step.
  - destruct (orient m b c <? 0); [exists []; reflexivity|exists [b]; reflexivity].
  - destruct (orient a b c <? 0); [apply IH|]. exists (b :: a :: u). reflexivity.
Qed.
Lemma pass_chain : forall ps l m u, Forall tiny ps -> Forall tiny (u ++ m :: l) -> hullPass (S (length l)) (u ++ m :: l) ps = Ok (chain (u ++ [m]) ps ++ l).
Proof.
  induction ps as [|c ps IH]; intros l m u P F; cbn [hullPass chain].
  - rewrite <- app_assoc. reflexivity.
  - inversion P as [|? ? PC P']; subst. rewrite drop_pop by assumption. cbn [bind]. destruct (pop_ends u m c) as [u' E]. rewrite E, <- app_assoc. cbn [app].
    apply (IH l m (c :: u') P'). cbn [app]. constructor; [exact PC|]. destruct (pop_suffix (u ++ [m]) c) as [x X]. rewrite E in X.
    assert (F2 : Forall tiny ((u ++ [m]) ++ l)) by (rewrite <- app_assoc; exact F). rewrite X in F2. rewrite <- !app_assoc in F2. rewrite Forall_app in F2. exact (proj2 F2).
Qed.

(* ---- turning by 180 degrees ---- *)
Definition neg (p : pt) : pt := (- fst p, - snd p).
Lemma neg_neg : forall p, neg (neg p) = p.
Proof. intros [x y]. unfold neg. cbn. f_equal; lia. Qed.
Lemma neg_orient : forall a b c, orient (neg a) (neg b) (neg c) = orient a b c.
Proof. intros [a1 a2] [b1 b2] [c1 c2]. unfold orient, neg. cbn. ring. Qed.
Lemma neg_before : forall a b, before (neg a) (neg b) <-> before b a.
Proof. intros [a1 a2] [b1 b2]. unfold before, neg. cbn. lia. Qed.
Lemma neg_pop : forall h c, pop (map neg h) (neg c) = map neg (pop h c).
Proof.
  induction h as [|b h IH]; intros c; [reflexivity|]. destruct h as [|a r]; [reflexivity|]. cbn [map]. rewrite !pop_step, neg_orient.
  destruct (orient a b c <? 0); [apply (IH c)|reflexivity].
Qed.
Lemma neg_chain : forall ps h, chain (map neg h) (map neg ps) = map neg (chain h ps).
Proof. induction ps as [|c ps IH]; intros h; [reflexivity|]. cbn [map chain]. rewrite neg_pop. apply (IH (c :: pop h c)). Qed.
Lemma neg_map : forall l, map neg (map neg l) = l.
Proof. intros l. rewrite map_map. rewrite <- (map_id l) at 2. apply map_ext. exact neg_neg. Qed.
Lemma neg_in : forall l q, In (neg q) (map neg l) <-> In q l.
Proof. intros l q. rewrite in_map_iff. split; [intros (x & E & I)|intros I; exists q; auto]. rewrite <- (neg_neg q), <- E, neg_neg. exact I. Qed.
Lemma neg_edge : forall h a b, edge (map neg h) (neg a) (neg b) <-> edge h a b.
Proof.
  assert (K : forall h a b, edge h a b -> edge (map neg h) (neg a) (neg b)) by (induction 1; cbn; constructor; assumption).
  intros h a b. split; [|apply K]. intros E. apply K in E. rewrite neg_map, !neg_neg in E. exact E.
Qed.
Lemma sorted_map_neg : forall l, StronglySorted (fun a b => before b a) l -> StronglySorted before (map neg l).
Proof.
  induction 1 as [|a l S IH F]; cbn; [constructor|]. constructor; [exact IH|]. rewrite Forall_forall in *. intros y I. apply in_map_iff in I. destruct I as (x & <- & I).
  apply neg_before. auto.
Qed.
Lemma sorted_rev : forall (R : pt -> pt -> Prop) l, StronglySorted R l -> StronglySorted (fun a b => R b a) (rev l).
Proof.
  intros R. induction 1 as [|a l S IH F]; cbn; [constructor|]. apply sorted_app. split; [exact IH|]. split; [repeat constructor|]. intros x y I [<-|[]]. apply in_rev in I. rewrite Forall_forall in F. auto.
Qed.

(* a chain over all points from the first to the last *)
Lemma whole_chain : forall m ps, StronglySorted before (m :: ps) -> let h := chain [m] ps in
  desc h /\ turns h /\ (forall q, In q (m :: ps) -> covered h q) /\ incl h (m :: ps) /\ (forall d, last h d = m) /\ (forall d, hd d h = last ps m) /\ h <> [].
Proof.
  intros m ps S h. inversion S as [|? ? S' F]; subst. rewrite Forall_forall in F.
  apply (chain_good ps [m] [m]); auto.
  - discriminate.
  - repeat constructor.
  - cbn. exact I.
  - intros q [<-|[]]. left. left. reflexivity.
  - intros x y [<-|[]] J. auto.
Qed.
Lemma ends_split : forall (h : list pt) x y, h <> [] -> (forall d, hd d h = x) -> (forall d, last h d = y) -> x <> y -> exists u, h = x :: u ++ [y].
Proof.
  intros h x y N H L D. destruct h as [|a h]; [congruence|]. specialize (H a). cbn in H. subst a.
  destruct (exists_last N) as (u & z & E). specialize (L x). rewrite E in L. rewrite last_last in L. subst z.
  destruct u as [|b u]; cbn in E; inv E; [congruence|]. exists u. reflexivity.
Qed.

Lemma edge_side : forall h a b, edge h a b <-> side (rev h) a b.
Proof.
  intros h a b. split.
  - induction 1 as [b c r|c h a b E (l & r & IH)].
    + exists (rev r), []. cbn. rewrite <- !app_assoc. reflexivity.
    + exists l, (r ++ [c]). cbn. rewrite IH, <- app_assoc. reflexivity.
  - intros (l & r & E). assert (h = rev r ++ b :: a :: rev l) by (rewrite <- (rev_involutive h), E, rev_app_distr; cbn; rewrite <- !app_assoc; reflexivity). subst h. clear E.
    induction (rev r) as [|x k IH]; cbn; constructor. exact IH.
Qed.
Lemma side_app : forall l m r a b, side (l ++ m :: r) a b <-> side (l ++ [m]) a b \/ side (m :: r) a b.
Proof.
  intros l m r a b. split.
  - intros (x & y & E). revert x E. induction l as [|z l IH]; intros x E; cbn [app] in E.
    + right. exists x, y. exact E.
    + destruct x as [|w x]; cbn [app] in E; inv E.
      * left. destruct l as [|c l]; cbn [app] in *; inv H1; [exists [], []; reflexivity|]. exists [], (l ++ [m]). reflexivity.
      * destruct (IH x H1) as [(p & q & K)|K]; [left; exists (w :: p), q; cbn; rewrite K; reflexivity|right; exact K].
  - intros [(x & y & E)|(x & y & E)].
    + exists x, (y ++ r). change (m :: r) with ([m] ++ r). rewrite app_assoc, E, <- app_assoc. reflexivity.
    + exists (l ++ x), y. rewrite E, <- app_assoc. reflexivity.
Qed.

Lemma last_member : forall (m : pt) ps, ps <> [] -> In (last ps m) ps.
Proof. intros m ps N. destruct (exists_last N) as (x & y & ->). rewrite last_last. apply in_or_app. right. left. reflexivity. Qed.
Lemma last_in : forall (m : pt) ps, In (last ps m) (m :: ps).
Proof. intros m ps. destruct ps as [|p ps]; [left; reflexivity|]. right. apply last_member. discriminate. Qed.
Lemma last_last' : forall (m : pt) ps, ps <> [] -> m :: ps = removelast (m :: ps) ++ [last ps m].
Proof. intros m ps N. rewrite (app_removelast_last m) at 1 by discriminate. destruct ps; [congruence|reflexivity]. Qed.
Lemma hull_two : forall m ps, ps <> [] -> StronglySorted before (m :: ps) -> Forall tiny (m :: ps) ->
  exists h, (let! h := hullPass 1 [] (m :: ps) in let! h := hullPass (length h) h (tl (rev (m :: ps))) in Ok (rev h)) = Ok h /\ isHull (m :: ps) h.
Proof.
  intros m ps N S F. set (M := last ps m). inversion F as [|? ? F0 F']; subst.
  destruct (whole_chain m ps S) as (D & T & C & I & L & H & NN). set (lo := chain [m] ps) in *.
  assert (MM : before m M) by (inversion S as [|? ? _ FS]; subst; rewrite Forall_forall in FS; apply FS, last_member, N).
  assert (NE : M <> m) by (intros E; rewrite E in MM; exact (before_irrefl _ MM)).
  destruct (ends_split lo M m NN H L NE) as [u U].
  (* the way back *)
  assert (RV : rev (m :: ps) = M :: rev (removelast (m :: ps))) by (rewrite (last_last' m ps N) at 1; rewrite rev_app_distr; reflexivity).
  set (qs := rev (removelast (m :: ps))) in *.
  assert (S2 : StronglySorted before (neg M :: map neg qs)) by (change (neg M :: map neg qs) with (map neg (M :: qs)); rewrite <- RV; apply sorted_map_neg, sorted_rev, S).
  destruct (whole_chain (neg M) (map neg qs) S2) as (D2 & T2 & C2 & I2 & L2 & H2 & N2).
  change [neg M] with (map neg [M]) in *. rewrite neg_chain in *. set (hi := chain [M] qs) in *.
  assert (LQ : last (map neg qs) (neg M) = neg m).
  { assert (K : forall (l : list pt) d, last (map neg l) (neg d) = neg (last l d)). { induction l as [|x l IH]; intros d; [reflexivity|]. cbn [map last]. destruct l; [reflexivity|]. apply IH. }
    rewrite K. f_equal. unfold qs. destruct ps as [|p ps]; [congruence|]. cbn [removelast]. change (match ps with [] => [] | _ => p :: removelast ps end) with (removelast (p :: ps)). cbn [rev]. apply last_last. }
  rewrite LQ in H2.
  assert (NH : hi <> []) by (intros E; rewrite E in N2; apply N2; reflexivity).
  assert (HH : forall d, hd d hi = m). { intros d. specialize (H2 (neg d)). destruct hi as [|x hi']; [congruence|]. cbn in *. rewrite <- (neg_neg x), H2. apply neg_neg. }
  assert (LL : forall d, last hi d = M). { intros d. specialize (L2 (neg d)). destruct (exists_last NH) as (x & y & E). rewrite E, map_app in L2. cbn in L2. rewrite last_last in L2. rewrite E, last_last. rewrite <- (neg_neg y), L2. apply neg_neg. }
  destruct (ends_split hi m M NH HH LL (not_eq_sym NE)) as [v V].
  exists (rev (hi ++ tl lo)). split.
  { assert (P1 : hullPass 1 [] (m :: ps) = Ok lo).
    { change (hullPass 1 [] (m :: ps)) with (hullPass 1 [m] ps). pose proof (pass_chain ps [] m [] F' ltac:(cbn; constructor; [exact F0|constructor])) as K. cbn [app length] in K. rewrite K, app_nil_r. reflexivity. }
    rewrite P1. cbn [bind]. rewrite RV. cbn [tl].
    assert (FQ : Forall tiny (M :: qs)) by (rewrite <- RV; apply Forall_rev; exact F).
    pose proof (pass_chain qs (u ++ [m]) M []) as K. cbn [app] in K. assert (P2 : hullPass (length lo) lo qs = Ok (hi ++ tl lo)).
    2:{ change (bind (hullPass (length lo) lo qs) (fun h => Ok (rev h)) = Ok (rev (hi ++ tl lo))). rewrite P2. reflexivity. }
    rewrite U. cbn [tl]. apply K.
    - exact (Forall_inv_tail FQ).
    - rewrite <- U. rewrite Forall_forall in *. intros x X. apply F. apply I. exact X. }
  assert (INH : incl hi (m :: ps)). { intros x X. apply (proj2 (neg_in _ _)) in X. apply I2 in X. change (neg M :: map neg qs) with (map neg (M :: qs)) in X. apply (proj1 (neg_in _ _)) in X. rewrite <- RV in X. apply (proj2 (in_rev _ _)) in X. exact X. }
  assert (RES : rev (hi ++ tl lo) = m :: rev u ++ M :: rev v ++ [m]).
  { rewrite rev_app_distr, U, V. cbn [tl rev]. rewrite !rev_app_distr. cbn [rev app]. repeat (rewrite <- !app_assoc || cbn [app]). reflexivity. }
  assert (SL : rev lo = (m :: rev u) ++ [M]) by (rewrite U; cbn [rev]; rewrite rev_app_distr; reflexivity).
  assert (SH : rev hi = M :: rev v ++ [m]) by (rewrite V; cbn [rev]; rewrite rev_app_distr; cbn [rev app]; reflexivity).
  assert (SIDES : forall a b, side (rev (hi ++ tl lo)) a b <-> edge lo a b \/ edge hi a b).
  { intros a b. rewrite RES. rewrite !edge_side, SL, SH. rewrite <- side_app. reflexivity. }
  assert (SUP : forall a b, edge lo a b \/ edge hi a b -> forall q, In q (m :: ps) -> 0 <= orient a b q /\ (~ In q (rev (hi ++ tl lo)) -> 0 < orient a b q)).
  { intros a b [E|E] q Q.
    - destruct (supported lo D T a b E q (C q Q)) as [X Y]. split; [exact X|]. intros K. apply Y. intros J. apply K. rewrite RES. rewrite in_rev, SL in J.
      change (m :: rev u ++ M :: rev v ++ [m]) with ((m :: rev u) ++ [M] ++ (rev v ++ [m])). rewrite app_assoc. apply in_or_app. left. exact J.
    - assert (CQ : covered (map neg hi) (neg q)) by (apply C2; change (neg M :: map neg qs) with (map neg (M :: qs)); apply neg_in; rewrite <- RV; apply (proj1 (in_rev _ _)); exact Q).
      apply (proj2 (neg_edge _ _ _)) in E. destruct (supported (map neg hi) D2 T2 (neg a) (neg b) E (neg q) CQ) as [X Y]. rewrite neg_orient in *. split; [exact X|]. intros K. apply Y. intros J. apply (proj1 (neg_in _ _)) in J. apply K.
      rewrite <- in_rev. apply in_or_app. left. exact J. }
  assert (DH : forall a b, edge hi a b -> before b a). { intros a b E. apply (proj2 (neg_edge _ _ _)) in E. apply (edge_before _ _ _ D2) in E. apply (proj1 (neg_before _ _)) in E. exact E. }
  split.
  - exists m, M, (rev u), (rev v). split; [left; reflexivity|]. split; [apply last_in|]. split; [|split; [exact RES|split]].
    + intros q Q. split.
      * destruct Q as [->|Q]; [left; reflexivity|right]. inversion S as [|? ? _ FS]; subst. rewrite Forall_forall in FS. auto.
      * rewrite (last_last' m ps N) in Q, S. apply in_app_or in Q. apply sorted_app in S. destruct S as (_ & _ & S3). destruct Q as [Q|[Q|[]]]; [right|left; symmetry; exact Q]. apply S3; [exact Q|left; reflexivity].
    + change (m :: rev u ++ [M]) with ((m :: rev u) ++ [M]). rewrite <- SL. apply (sorted_rev (fun a b => before b a)). exact D.
    + rewrite <- SH. pose proof (sorted_rev _ _ D2) as R. cbv beta in R. rewrite <- map_rev in R. revert R. generalize (rev hi). clear. intros l.
      induction l as [|x l IH]; intros R; [constructor|]. cbn [map] in R. inversion R as [|? ? R' F]; subst. constructor; [apply IH, R'|].
      rewrite Forall_forall in *. intros y Y. apply neg_before. apply F. apply in_map. exact Y.
  - split; [|split].
    + intros x X. rewrite <- in_rev in X. apply in_app_or in X. destruct X as [X|X]; [auto|]. apply I. destruct lo; [exact X|right; exact X].
    + intros a b E. apply SIDES in E. split; [|intros q Q; apply SUP; assumption].
      intros ->. destruct E as [E|E]; [apply (before_irrefl b), (edge_before lo); assumption|apply (before_irrefl b), DH; assumption].
    + intros q Q K a b E. apply SIDES in E. apply SUP; assumption.
Qed.
