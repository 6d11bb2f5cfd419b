From Verif Require Import Base BaseLemmas Tac GeoModel GeoSpec HullModel HullSpec HullProofs HullProofs2.
From Coq Require Import ZArith List Sorted Lia Permutation.
Import ListNotations.
Open Scope Z_scope.

Lemma isHull_ext : forall p q h, (forall x, In x p <-> In x q) -> isHull p h -> isHull q h.
Proof.
  intros p q h E ((m & M & low & high & I1 & I2 & B & K) & (J1 & J2 & J3)). split.
  - exists m, M, low, high. split; [apply E, I1|]. split; [apply E, I2|]. split; [intros x X; apply B, E, X|exact K].
  - split; [intros x X; apply E, J1, X|]. split.
    + intros a b S. destruct (J2 a b S) as [N O]. split; [exact N|]. intros x X. apply O, E, X.
    + intros x X. apply J3, E, X.
Qed.
Lemma hull_correct : forall p, small p -> exists h, convexHull p = Ok h /\
  ((exists a b, In a p /\ In b p /\ a <> b) -> isHull p h) /\ (forall a, In a p -> (forall b, In b p -> b = a) -> h = [a]) /\ (p = [] -> h = []).
Proof.
  intros p S. unfold convexHull. pose proof (unique_sorted _ (sort_sorted p)) as SO.
  assert (EQ : forall x, In x (uniquePoints (sortPoints p)) <-> In x p) by (intros x; rewrite unique_in; apply sort_in).
  set (q := uniquePoints (sortPoints p)) in *. clearbody q.
  assert (F : Forall tiny q) by (unfold small in S; rewrite Forall_forall in *; intros x X; apply S, EQ, X).
  destruct q as [|m ps].
  - exists []. split; [reflexivity|]. split; [|split; [|reflexivity]].
    + intros (a & b & A & _). apply EQ in A. contradiction.
    + intros a A. apply EQ in A. contradiction.
  - destruct ps as [|p0 ps].
    + exists [m]. split; [reflexivity|]. split; [|split].
      * intros (a & b & A & B & N). apply EQ in A. apply EQ in B. destruct A as [<-|[]], B as [<-|[]]. congruence.
      * intros a A _. apply EQ in A. destruct A as [<-|[]]. reflexivity.
      * intros ->. destruct (proj1 (EQ m)). left. reflexivity.
    + destruct (hull_two m (p0 :: ps)) as (h & E & H); [discriminate|exact SO|exact F|]. exists h. split; [exact E|]. split; [|split].
      * intros _. revert H. apply isHull_ext. exact EQ.
      * intros a A U. exfalso. assert (before m p0) by (inversion SO as [|? ? _ FF]; exact (Forall_inv FF)).
        assert (m = a) by (apply U, EQ; left; reflexivity). assert (p0 = a) by (apply U, EQ; right; left; reflexivity). subst. exact (before_irrefl _ H0).
      * intros ->. destruct (proj1 (EQ m)). left. reflexivity.
Qed.

(* ---- distinct corners ---- *)
Lemma parallel : forall A B w, pos A -> pos B -> cr A B = 0 -> 0 <= cr B w -> cr A w <= 0 -> cr B w = 0.
Proof.
  intros [a1 a2] [b1 b2] [w1 w2] PA PB E H K. unfold pos, cr in *. cbn [fst snd] in *.
  set (s := b1 * w2 - b2 * w1) in *. set (t := a1 * w2 - a2 * w1) in *.
  assert (I1 : s * a1 = t * b1) by (unfold s, t; replace ((b1 * w2 - b2 * w1) * a1) with ((a1 * w2 - a2 * w1) * b1 - w1 * (a1 * b2 - a2 * b1)) by ring; rewrite E; ring).
  assert (I2 : s * a2 = t * b2) by (unfold s, t; replace ((b1 * w2 - b2 * w1) * a2) with ((a1 * w2 - a2 * w1) * b2 - w2 * (a1 * b2 - a2 * b1)) by ring; rewrite E; ring).
  clearbody s t. clear E. assert (Q : forall x y, 0 < x -> 0 <= y -> s * x = t * y -> s = 0).
  { intros x y X Y E. assert (t * y <= 0) by (apply Z.mul_nonpos_nonneg; lia). assert (s * x = 0) by (assert (0 <= s * x) by (apply Z.mul_nonneg_nonneg; lia); lia).
    apply Z.mul_eq_0 in H1. lia. }
  destruct PA as [PA|[PA0 PA]]; destruct PB as [PB|[PB0 PB]].
  - apply (Q a1 b1); lia.
  - apply (Q a1 b1); lia.
  - rewrite PA0, Z.mul_0_r in I1. symmetry in I1. apply Z.mul_eq_0 in I1. destruct I1 as [I1|I1]; [|lia]. apply (Q a2 0); try lia; rewrite I2, I1; lia.
  - apply (Q a2 b2); lia.
Qed.
Lemma colinear : forall B u v, B <> (0, 0) -> cr B u = 0 -> cr B v = 0 -> cr u v = 0.
Proof.
  intros [b1 b2] [u1 u2] [v1 v2] N E F. unfold cr in *. cbn [fst snd] in *.
  assert (I1 : (u1 * v2 - u2 * v1) * b1 = 0) by (replace ((u1 * v2 - u2 * v1) * b1) with (u1 * (b1 * v2 - b2 * v1) - v1 * (b1 * u2 - b2 * u1)) by ring; rewrite E, F; ring).
  assert (I2 : (u1 * v2 - u2 * v1) * b2 = 0) by (replace ((u1 * v2 - u2 * v1) * b2) with (u2 * (b1 * v2 - b2 * v1) - v2 * (b1 * u2 - b2 * u1)) by ring; rewrite E, F; ring).
  apply Z.mul_eq_0 in I1, I2. destruct I1 as [I1|I1]; [exact I1|]. destruct I2 as [I2|I2]; [exact I2|]. subst. congruence.
Qed.
Lemma line_from : forall ps q b, q <> b -> (forall x, In x ps -> orient q b x = 0) -> onOneLine ps.
Proof.
  intros ps q b N H x y z X Y Z0. rewrite orient_cr. apply (colinear (vec q b)).
  - destruct q as [q1 q2], b as [b1 b2]. unfold vec. cbn. intros E. inv E. apply N. f_equal; lia.
  - pose proof (H x X) as HX. pose proof (H y Y) as HY. rewrite orient_cr in *. rewrite (cr_add_r _ q x y) in HY. lia.
  - pose proof (H x X) as HX. pose proof (H z Z0) as HY. rewrite orient_cr in *. rewrite (cr_add_r _ q x z) in HY. lia.
Qed.
Lemma side_next : forall l r q (M : pt), In q l -> exists b, side (l ++ M :: r) q b /\ In b (l ++ [M]) /\ forall R, StronglySorted R (l ++ [M]) -> R q b.
Proof.
  intros l r q M I. apply in_split in I. destruct I as (x & y & ->).
  destruct y as [|b y].
  - exists M. split; [exists x, r; rewrite <- app_assoc; reflexivity|]. split; [apply in_or_app; right; left; reflexivity|].
    intros R S. apply sorted_app in S. apply S; [apply in_or_app; right|]; left; reflexivity.
  - exists b. split; [exists x, (y ++ M :: r); rewrite <- app_assoc; reflexivity|]. split; [apply in_or_app; left; apply in_or_app; right; right; left; reflexivity|].
    intros R S. rewrite <- app_assoc in S. apply sorted_app in S. destruct S as (_ & S & _). inversion S as [|? ? _ F]; subst. exact (Forall_inv F).
Qed.
Lemma sorted_nodup : forall (R : pt -> pt -> Prop) l, (forall a, ~ R a a) -> StronglySorted R l -> NoDup l.
Proof.
  intros R l IR. induction 1 as [|a l S IH F]; constructor; [|exact IH]. intros I. rewrite Forall_forall in F. exact (IR a (F a I)).
Qed.
Lemma hull_distinct : forall ps h, isHull ps h -> ~ onOneLine ps -> NoDup (removelast h).
Proof.
  intros ps h ((m & M & low & high & I1 & I2 & B & -> & S1 & S2) & (J1 & J2 & J3)) NL.
  assert (E : removelast (m :: low ++ M :: high ++ [m]) = (m :: low) ++ M :: high).
  { replace (m :: low ++ M :: high ++ [m]) with ((m :: low ++ M :: high) ++ [m]) by (cbn; rewrite <- app_assoc; reflexivity). rewrite removelast_last. reflexivity. }
  rewrite E. assert (N1 : NoDup (m :: low ++ [M])) by (apply (sorted_nodup before); auto; exact before_irrefl).
  assert (N2 : NoDup (M :: high ++ [m])) by (apply (sorted_nodup (fun a b => before b a)); auto; intros a; exact (before_irrefl a)).
  assert (DIS : forall q, In q low -> In q high -> False).
  { intros q Q1 Q2. apply NL.
    destruct (side_next (m :: low) (high ++ [m]) q M) as (b & SB & _ & RB); [right; exact Q1|]. specialize (RB before S1).
    destruct (side_next (M :: high) [] q m) as (a & SA & _ & RA); [right; exact Q2|]. specialize (RA _ S2). cbv beta in RA.
    assert (SB' : side (m :: low ++ M :: high ++ [m]) q b) by exact SB.
    assert (SA' : side (m :: low ++ M :: high ++ [m]) q a).
    { destruct SA as (l & r & SA). exists (m :: low ++ l), r. cbn [app] in *. rewrite SA, <- app_assoc. reflexivity. }
    destruct (J2 _ _ SB') as [NB OB]. destruct (J2 _ _ SA') as [NA OA].
    assert (IA : In a ps). { apply J1. destruct SA' as (l & r & ->). apply in_or_app. right. right. left. reflexivity. }
    assert (IB : In b ps). { apply J1. destruct SB' as (l & r & ->). apply in_or_app. right. right. left. reflexivity. }
    assert (CR : forall x, cr (vec a q) x = - cr (vec q a) x) by (intros [x1 x2]; unfold cr, vec; cbn; ring).
    apply (line_from ps q b NB). intros x X. rewrite orient_cr. apply (parallel (vec a q) (vec q b) (vec q x)).
    - apply before_pos. exact RA.
    - apply before_pos. exact RB.
    - rewrite CR. pose proof (OA b IB) as K1. pose proof (OB a IA) as K2. rewrite orient_cr in K1, K2. rewrite cr_anti in K2. lia.
    - rewrite <- orient_cr. apply OB. exact X.
    - rewrite CR. rewrite <- orient_cr. specialize (OA x X). lia. }
  assert (MM : ~ In m high). { inversion N2 as [|? ? _ N]; subst. intros I. apply NoDup_remove_2 in N. apply N. rewrite app_nil_r. exact I. }
  cbn [app] in *. apply (NoDup_incl_NoDup) with (l := m :: low ++ M :: high); [| |apply incl_refl]; [|lia].
  inversion N1 as [|? ? X1 X2]; subst. inversion N2 as [|? ? Y1 Y2]; subst.
  constructor.
  - intros I. apply in_app_or in I. destruct I as [I|[I|I]].
    + apply X1. apply in_or_app. left. exact I.
    + apply X1. apply in_or_app. right. left. exact I.
    + exact (MM I).
  - assert (AP : forall l r : list pt, NoDup l -> NoDup r -> (forall x, In x l -> In x r -> False) -> NoDup (l ++ r)).
    { induction l as [|x l IH]; intros r L R D; [exact R|]. cbn. inversion L; subst. constructor; [|apply IH; auto; intros y Y Z0; apply (D y); [right; exact Y|exact Z0]].
      intros I. apply in_app_or in I. destruct I as [I|I]; [contradiction|]. apply (D x); [left; reflexivity|exact I]. }
    assert (X3 : NoDup low /\ ~ In M low). { split; [apply NoDup_remove_1 in X2; rewrite app_nil_r in X2; exact X2|]. apply NoDup_remove_2 in X2. rewrite app_nil_r in X2. exact X2. }
    assert (Y3 : NoDup high). { apply NoDup_remove_1 in Y2. rewrite app_nil_r in Y2. exact Y2. }
    apply AP; [apply X3| |].
    + constructor; [|exact Y3]. intros I. apply Y1. apply in_or_app. left. exact I.
    + intros x X [<-|Y]; [apply X3; exact X|exact (DIS x X Y)].
Qed.

(* ---- points on the boundary ---- *)
Definition dotv (u v : pt) : Z := fst u * fst v + snd u * snd v.
Lemma least : forall (f g : pt -> Z) l, l <> [] -> exists v, In v l /\ forall x, In x l -> f v < f x \/ f v = f x /\ g v <= g x.
Proof.
  intros f g. induction l as [|a l IH]; intros N; [congruence|]. destruct l as [|b l].
  - exists a. split; [left; reflexivity|]. intros x [<-|[]]. lia.
  - destruct IH as (v & I & V); [discriminate|].
    destruct (Z_lt_le_dec (f a) (f v)) as [L|L].
    + exists a. split; [left; reflexivity|]. intros x [<-|X]; [lia|]. specialize (V x X). lia.
    + destruct (Z.eq_dec (f a) (f v)) as [E|NE]; [destruct (Z_lt_le_dec (g a) (g v))|].
      * exists a. split; [left; reflexivity|]. intros x [<-|X]; [lia|]. specialize (V x X). lia.
      * exists v. split; [right; exact I|]. intros x [<-|X]; [lia|auto].
      * exists v. split; [right; exact I|]. intros x [<-|X]; [lia|auto].
Qed.
Lemma around : forall m M low high (v : pt), let h := m :: low ++ M :: high ++ [m] in In v h -> (exists u, side h u v) /\ (exists w, side h v w).
Proof.
  intros m M low high v h I.
  assert (C : v = m \/ In v (low ++ M :: high)).
  { unfold h in I. destruct I as [->|I]; [left; reflexivity|]. change (low ++ M :: high ++ [m]) with (low ++ (M :: high) ++ [m]) in I. rewrite app_assoc in I. apply in_app_or in I.
    destruct I as [I|[->|[]]]; auto. }
  assert (H : h = m :: (low ++ M :: high) ++ [m]) by (unfold h; rewrite <- app_assoc; reflexivity).
  set (t := low ++ M :: high) in *. assert (T : t <> []) by (unfold t; destruct low; discriminate). clearbody t. rewrite H. clear H h I.
  destruct C as [->|I].
  - split; [destruct (exists_last T) as (x & y & ->); exists y, (m :: x), []; cbn; rewrite <- app_assoc; reflexivity|]. destruct t as [|b t]; [congruence|]. exists b, [], (t ++ [m]). reflexivity.
  - apply in_split in I. destruct I as (x & y & ->). split.
    + destruct (exists_last (l := m :: x)) as (k & z & E); [discriminate|]. exists z, k, (y ++ [m]).
      transitivity ((m :: x) ++ v :: y ++ [m]); [cbn; rewrite <- app_assoc; reflexivity|]. rewrite E, <- app_assoc. reflexivity.
    + destruct y as [|b y].
      * exists m, (m :: x), []. cbn. rewrite <- app_assoc. reflexivity.
      * exists b, (m :: x), (y ++ [m]). cbn. rewrite <- app_assoc. reflexivity.
Qed.
Lemma mul_split : forall a b c d, 0 <= a -> 0 <= b -> 0 < c -> 0 < d -> c * a + d * b <= 0 -> b = 0.
Proof. intros. nia. Qed.
Lemma boundary_listed : forall ps h q, isHull ps h -> In q ps -> onBoundary ps q -> In q h.
Proof.
  intros ps h q ((m & M & low & high & I1 & I2 & B & EH & S1 & S2) & (J1 & J2 & J3)) Q (q' & N & SU).
  destruct (in_dec (fun a b : pt => ltac:(decide equality; apply Z.eq_dec) : {a = b} + {a <> b}) q h) as [Y|NI]; [exact Y|exfalso].
  specialize (J3 q Q NI). set (d := vec q q') in *.
  destruct (least (fun v => cr d (vec q v)) (fun v => dotv d (vec q v)) h) as (v & V & MIN); [rewrite EH; discriminate|].
  destruct (around m M low high v) as ((u & SU1) & (w & SW)); [rewrite <- EH; exact V|]. rewrite <- EH in SU1, SW.
  assert (IN : forall a b, side h a b -> In a h /\ In b h) by (intros a b (l & r & ->); split; apply in_or_app; right; cbn; auto).
  destruct (IN _ _ SU1) as [IU _]. destruct (IN _ _ SW) as [_ IW].
  pose proof (J3 _ _ SU1) as O1. pose proof (J3 _ _ SW) as O2. pose proof (proj2 (J2 _ _ SU1) w (J1 w IW)) as O3.
  pose proof (MIN u IU) as M1. pose proof (MIN w IW) as M2. cbv beta in M1, M2. pose proof (SU v (J1 v V)) as K. rewrite orient_cr in K. fold d in K.
  assert (DN : d <> (0, 0)). { intros E. unfold d, vec in E. inversion E. apply N. destruct q, q'. cbn in *. f_equal; lia. }
  rewrite orient_next in O1, O3. rewrite orient_cr in O2.
  set (A := vec u v) in *. set (Bv := vec v w) in *. set (s := vec v q) in *.
  assert (E1 : cr d s = - cr d (vec q v)) by (unfold s, cr, vec; cbn; ring).
  assert (E2 : cr d (vec q v) = cr d (vec q u) + cr d A) by apply cr_add_r.
  assert (E3 : cr d (vec q w) = cr d (vec q v) + cr d Bv) by apply cr_add_r.
  assert (E4 : dotv d (vec q w) = dotv d (vec q v) + dotv d Bv) by (unfold dotv, Bv, vec; cbn; ring).
  assert (ID : cr A Bv * cr d s = cr A s * cr d Bv - cr Bv s * cr d A) by (unfold cr; ring).
  assert (Z1 : cr d Bv = 0).
  { apply (mul_split (- cr d A) (cr d Bv) (cr Bv s) (cr A s)); try lia. }
  assert (ID2 : dotv d d * cr Bv s = dotv d Bv * cr d s - cr d Bv * dotv d s) by (unfold dotv, cr; ring). rewrite Z1 in ID2.
  assert (0 < dotv d d). { unfold dotv. destruct d as [x y]. cbn. destruct (Z.eq_dec x 0) as [->|]; [|nia]. destruct (Z.eq_dec y 0) as [->|]; [congruence|nia]. }
  assert (0 < dotv d d * cr Bv s) by (apply Z.mul_pos_pos; assumption).
  assert (0 <= dotv d Bv * - cr d s) by (apply Z.mul_nonneg_nonneg; lia). lia.
Qed.
Lemma boundary_count : forall ps h, isHull ps h -> ~ onOneLine ps -> NoDup ps -> (forall q, In q ps -> onBoundary ps q) ->
  Permutation ps (removelast h) /\ length h = S (length ps).
Proof.
  intros ps h H NL ND BD. pose proof (hull_distinct ps h H NL) as HD.
  assert (P : Permutation ps (removelast h)).
  { apply NoDup_Permutation; auto. intros x. pose proof H as ((m & M & low & high & I1 & I2 & B & EH & S1 & S2) & J). split.
    - intros X. assert (Y : In x h) by (apply (boundary_listed ps h x); [exact H|exact X|auto]).
      rewrite EH in *. replace (m :: low ++ M :: high ++ [m]) with ((m :: low ++ M :: high) ++ [m]) in * by (cbn; rewrite <- app_assoc; reflexivity).
      rewrite removelast_last. apply in_app_or in Y. destruct Y as [Y|[<-|[]]]; [exact Y|left; reflexivity].
    - intros X. apply J. rewrite (app_removelast_last (0, 0)); [|rewrite EH; discriminate]. apply in_or_app. left. exact X. }
  split; [exact P|]. apply Permutation_length in P. assert (N : h <> []) by (destruct H as ((m & M & low & high & _ & _ & _ & EH & _) & _); rewrite EH; discriminate).
  rewrite (app_removelast_last (0, 0) N), app_length. cbn [length]. lia.
Qed.
Lemma corner_boundary : forall ps h v, isHull ps h -> In v h -> onBoundary ps v.
Proof.
  intros ps h v ((m & M & low & high & I1 & I2 & B & EH & S1 & S2) & (J1 & J2 & J3)) V.
  destruct (around m M low high v) as (_ & (w & W)); [rewrite <- EH; exact V|]. rewrite <- EH in W. destruct (J2 _ _ W) as [N O]. exists w. split; [congruence|exact O].
Qed.
