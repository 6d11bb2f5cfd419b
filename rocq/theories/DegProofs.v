(* Havel and Hakimi: the exchange argument. *)
From Verif Require Import Base Tac RndModel RndLemmas DegModel DegSpec.
From Coq Require Import Permutation Sorted.

Definition cnt (f : Z -> bool) (l : list Z) : Z := Z.of_nat (length (filter f l)).
Lemma cnt_nil : forall f, cnt f [] = 0. Proof. reflexivity. Qed.
Lemma cnt_cons : forall f x l, cnt f (x :: l) = (if f x then 1 else 0) + cnt f l.
Proof. intros. unfold cnt. cbn [filter]. destruct (f x); cbn [length]; lia. Qed.
Lemma cnt_nonneg : forall f l, 0 <= cnt f l. Proof. intros. unfold cnt. lia. Qed.
Lemma cnt_app : forall f a b, cnt f (a ++ b) = cnt f a + cnt f b.
Proof. intros. unfold cnt. rewrite filter_app, app_length. lia. Qed.
Lemma cnt_ext : forall f g l, (forall x, In x l -> f x = g x) -> cnt f l = cnt g l.
Proof. intros. unfold cnt. f_equal. f_equal. apply filter_ext_in. auto. Qed.
Lemma cnt_perm : forall f a b, Permutation a b -> cnt f a = cnt f b.
Proof. intros f a b H. induction H; rewrite ?cnt_cons in *; try lia. Qed.
Lemma cnt_zero : forall f l, (forall x, In x l -> f x = false) -> cnt f l = 0.
Proof. induction l as [|x l IH]; intros H; [reflexivity|]. rewrite cnt_cons, (H x), IH; auto with datatypes. Qed.
Lemma cnt_all : forall f l, (forall x, In x l -> f x = true) -> cnt f l = Z.of_nat (length l).
Proof. induction l as [|x l IH]; intros H; [reflexivity|]. rewrite cnt_cons, (H x), IH; auto with datatypes. cbn [length]. lia. Qed.
Lemma cnt_zero_inv : forall f l x, cnt f l = 0 -> In x l -> f x = false.
Proof.
  induction l as [|y l IH]; intros x H I; [destruct I|]. rewrite cnt_cons in H. pose proof (cnt_nonneg f l).
  destruct I as [->|I]; [destruct (f x); auto; lia|]. apply IH; auto. destruct (f y); lia.
Qed.
Lemma cnt_pos : forall f l, 0 < cnt f l -> exists x, In x l /\ f x = true.
Proof.
  induction l as [|y l IH]; intros H; [rewrite cnt_nil in H; lia|]. rewrite cnt_cons in H. destruct (f y) eqn:Q; [exists y; auto with datatypes|].
  destruct IH as (x & I & X); [lia|]. exists x. auto with datatypes.
Qed.
Lemma cnt_le_length : forall f l, cnt f l <= Z.of_nat (length l).
Proof. induction l as [|x l IH]; [rewrite cnt_nil; lia|]. rewrite cnt_cons. cbn [length]. destruct (f x); lia. Qed.
Lemma cnt_le : forall f g l, (forall x, In x l -> f x = true -> g x = true) -> cnt f l <= cnt g l.
Proof.
  induction l as [|x l IH]; intros H; [reflexivity|]. rewrite !cnt_cons. specialize (IH ltac:(auto with datatypes)).
  specialize (H x ltac:(auto with datatypes)). destruct (f x), (g x); try lia; specialize (H eq_refl); discriminate.
Qed.
(* changing one value *)
Lemma cnt_change : forall f g l a, NoDup l -> In a l -> (forall x, x <> a -> f x = g x) ->
  cnt f l = cnt g l + (if f a then 1 else 0) - (if g a then 1 else 0).
Proof.
  intros f g l a N I H. induction N as [|x l NI N IH]; [destruct I|]. rewrite !cnt_cons. destruct (Z.eq_dec x a) as [->|D].
  - rewrite (cnt_ext f g l); [lia|]. intros y J. apply H. congruence.
  - rewrite (H x D), IH; [lia|]. destruct I; congruence.
Qed.
Lemma cnt_swap : forall f g l a b, NoDup l -> In a l -> In b l -> a <> b -> (forall x, x <> a -> x <> b -> f x = g x) ->
  f a = true -> f b = false -> g a = false -> g b = true -> cnt f l = cnt g l.
Proof.
  intros f g l a b N A B NE H F1 F2 G1 G2. set (h := fun x => if x =? a then true else g x).
  assert (X1 : cnt f l = cnt h l + 0 - 1).
  { rewrite (cnt_change f h l b N B). - rewrite F2. unfold h. replace (b =? a) with false by lia. rewrite G2. lia.
    - intros x D. unfold h. destruct (Z.eqb_spec x a) as [->|D']; auto. }
  assert (X2 : cnt h l = cnt g l + 1 - 0).
  { rewrite (cnt_change h g l a N A). - unfold h. rewrite Z.eqb_refl, G1. lia.
    - intros x D. unfold h. destruct (Z.eqb_spec x a); congruence. }
  lia.
Qed.
(* f counts at least as much as g but misses a g: there is an f that is no g *)
Lemma cnt_missing : forall f g l c, NoDup l -> cnt g l <= cnt f l -> In c l -> g c = true -> f c = false ->
  exists x, In x l /\ f x = true /\ g x = false.
Proof.
  intros f g l c N L I G F. destruct (cnt (fun x => f x && negb (g x)) l) eqn:Q.
  - exfalso. assert (H : forall x, In x l -> f x = true -> g x = true).
    { intros x J FX. pose proof (cnt_zero_inv _ _ x Q J) as Z. cbn beta in Z. rewrite FX in Z. destruct (g x); auto. }
    set (h := fun x => if x =? c then true else f x).
    assert (HC : h c = true) by (unfold h; rewrite Z.eqb_refl; auto).
    pose proof (cnt_change h f l c N I) as X. rewrite F, HC in X.
    specialize (X ltac:(intros x D; unfold h; destruct (Z.eqb_spec x c); congruence)).
    pose proof (cnt_le h g l) as Y. specialize (Y ltac:(intros x J; unfold h; destruct (Z.eqb_spec x c) as [->|D]; auto)). lia.
  - destruct (cnt_pos (fun x => f x && negb (g x)) l) as (x & J & X); [lia|]. exists x. apply andb_true_iff in X as (X & Y). destruct (g x); auto.
  - pose proof (cnt_nonneg (fun x => f x && negb (g x)) l). lia.
Qed.

Definition graphOn (V : list Z) (G : Z -> Z -> bool) : Prop :=
  (forall u v, G u v = G v u) /\ (forall u v, G u v = true -> In u V /\ In v V /\ u <> v).
Lemma graphOn_loop : forall V G u, graphOn V G -> G u u = false.
Proof. intros V G u (_ & H). destruct (G u u) eqn:Q; auto. apply H in Q. lia. Qed.

(* edges c-w and v-x are replaced by c-v and w-x *)
Definition pairb (a b u v : Z) : bool := (u =? a) && (v =? b) || (u =? b) && (v =? a).
Definition swap (G : Z -> Z -> bool) (c w v x : Z) : Z -> Z -> bool := fun a b =>
  if pairb c w a b || pairb v x a b then false else if pairb c v a b || pairb w x a b then true else G a b.
Lemma swap_graph : forall V G c w v x, graphOn V G -> In c V -> In w V -> In v V -> In x V -> c <> v -> w <> x ->
  graphOn V (swap G c w v x).
Proof.
  intros V G c w v x (S1 & S2) C W VV X N1 N2. split.
  - intros a b. unfold swap, pairb. rewrite (S1 a b).
    destruct (Z.eqb_spec a c), (Z.eqb_spec a w), (Z.eqb_spec a v), (Z.eqb_spec a x), (Z.eqb_spec b c), (Z.eqb_spec b w), (Z.eqb_spec b v), (Z.eqb_spec b x);
      cbn [andb orb]; auto.
  - intros a b. unfold swap. destruct (pairb c w a b || pairb v x a b); [discriminate|]. destruct (pairb c v a b || pairb w x a b) eqn:Q; [|auto].
    intros _. unfold pairb in Q. assert (D : (a = c /\ b = v) \/ (a = v /\ b = c) \/ (a = w /\ b = x) \/ (a = x /\ b = w)) by lia.
    destruct D as [[-> ->]|[[-> ->]|[[-> ->]|[-> ->]]]]; auto.
Qed.
Lemma swap_degree : forall V G c w v x, NoDup V -> graphOn V G -> G c w = true -> G v x = true -> G c v = false -> G w x = false ->
  c <> v -> w <> x -> forall u, cnt (swap G c w v x u) V = cnt (G u) V.
Proof.
  intros V G c w v x N GG E1 E2 E3 E4 N1 N2 u.
  pose proof GG as (S1 & S2). destruct (S2 _ _ E1) as (IC & IW & CW). destruct (S2 _ _ E2) as (IV & IX & VX).
  assert (CX : c <> x) by (intros ->; rewrite S1 in E2; congruence). assert (VW : v <> w) by (intros ->; congruence).
  assert (E1' : G w c = true) by (rewrite S1; auto). assert (E2' : G x v = true) by (rewrite S1; auto).
  assert (E3' : G v c = false) by (rewrite S1; auto). assert (E4' : G x w = false) by (rewrite S1; auto).
  symmetry.
  destruct (Z.eq_dec u c) as [->|Dc]; [|destruct (Z.eq_dec u w) as [->|Dw]; [|destruct (Z.eq_dec u v) as [->|Dv]; [|destruct (Z.eq_dec u x) as [->|Dx]]]].
  - apply (cnt_swap _ _ V w v); auto; unfold swap, pairb; intros; repeat match goal with |- context [?a =? ?b] => destruct (Z.eqb_spec a b); try lia; subst end; cbn [andb orb]; auto; congruence.
  - apply (cnt_swap _ _ V c x); auto; unfold swap, pairb; intros; repeat match goal with |- context [?a =? ?b] => destruct (Z.eqb_spec a b); try lia; subst end; cbn [andb orb]; auto; congruence.
  - apply (cnt_swap _ _ V x c); auto; unfold swap, pairb; intros; repeat match goal with |- context [?a =? ?b] => destruct (Z.eqb_spec a b); try lia; subst end; cbn [andb orb]; auto; congruence.
  - apply (cnt_swap _ _ V v w); auto; unfold swap, pairb; intros; repeat match goal with |- context [?a =? ?b] => destruct (Z.eqb_spec a b); try lia; subst end; cbn [andb orb]; auto; congruence.
  - apply cnt_ext. intros y _. unfold swap, pairb. replace (u =? c) with false by lia. replace (u =? w) with false by lia.
    replace (u =? v) with false by lia. replace (u =? x) with false by lia. reflexivity.
Qed.

(* c can be given the neighbours S if these have the largest degrees *)
Lemma exchange : forall V c SS, NoDup V -> In c V -> NoDup SS -> incl SS V -> ~ In c SS -> forall k G,
  graphOn V G -> cnt (G c) V = Z.of_nat (length SS) ->
  (forall s r, In s SS -> In r V -> ~ In r SS -> r <> c -> cnt (G r) V <= cnt (G s) V) ->
  cnt (fun s => negb (G c s)) SS <= Z.of_nat k ->
  exists G', graphOn V G' /\ (forall u, cnt (G' u) V = cnt (G u) V) /\ (forall s, G' c s = true <-> In s SS).
Proof.
  intros V c SS NV IC NS IS NC. induction k as [|k IH]; intros G GG D L M.
  all: destruct (Z.eq_dec (cnt (fun s => negb (G c s)) SS) 0) as [Z0|NZ].
  1, 3: exists G; split; [auto|split; [auto|]].
  1, 2: assert (A : forall s, In s SS -> G c s = true) by (intros s I; pose proof (cnt_zero_inv _ _ s Z0 I) as Q; cbn beta in Q; destruct (G c s); auto).
  1, 2: intro s; split; [|apply A]; intro Q; destruct (in_dec Z.eq_dec s SS) as [I|I]; auto; exfalso;
        pose proof GG as (S1 & S2); destruct (S2 _ _ Q) as (_ & IV & _);
        set (f := fun x => if in_dec Z.eq_dec x SS then true else false);
        assert (F : cnt f V = Z.of_nat (length SS)) by
          (unfold cnt; f_equal; apply Permutation_length, NoDup_Permutation; [apply NoDup_filter; auto|auto|];
           intro x; rewrite filter_In; unfold f; destruct (in_dec Z.eq_dec x SS); intuition (auto; discriminate));
        destruct (cnt_missing f (G c) V s NV) as (x & IX & FX & GX); auto;
        [lia|unfold f; destruct (in_dec Z.eq_dec s SS); auto; contradiction|];
        unfold f in FX; destruct (in_dec Z.eq_dec x SS) as [J|J]; [rewrite (A _ J) in GX|]; discriminate.
  - pose proof (cnt_nonneg (fun s => negb (G c s)) SS). lia.
  - pose proof (cnt_nonneg (fun s => negb (G c s)) SS) as PZ. pose proof GG as (S1 & S2).
    destruct (cnt_pos (fun s => negb (G c s)) SS) as (v & IVS & NG); [lia|]. apply negb_true_iff in NG.
    assert (IV : In v V) by (apply IS; auto). assert (CV : c <> v) by (intros ->; auto).
    set (f := fun x => if in_dec Z.eq_dec x SS then true else false).
    assert (F : cnt f V = Z.of_nat (length SS)).
    { unfold cnt. f_equal. apply Permutation_length, NoDup_Permutation; [apply NoDup_filter; auto|auto|].
      intro x. rewrite filter_In. unfold f. destruct (in_dec Z.eq_dec x SS); intuition (auto; discriminate). }
    destruct (cnt_missing (G c) f V v NV) as (w & IW & GW & FW); auto; [lia|unfold f; destruct (in_dec Z.eq_dec v SS); auto; contradiction|].
    assert (NW : ~ In w SS) by (unfold f in FW; destruct (in_dec Z.eq_dec w SS); auto; discriminate).
    destruct (S2 _ _ GW) as (_ & _ & CW). assert (VW : v <> w) by congruence.
    pose proof (L v w IVS IW NW ltac:(auto)) as LVW.
    (* an x behind v that is not behind w *)
    set (fv := fun x => if x =? w then false else G v x). set (gw := fun x => if x =? v then false else G w x).
    assert (LE : cnt gw V <= cnt fv V).
    { pose proof (cnt_change fv (G v) V w NV IW) as X. specialize (X ltac:(intros x DX; unfold fv; destruct (Z.eqb_spec x w); congruence)).
      pose proof (cnt_change gw (G w) V v NV IV) as Y. specialize (Y ltac:(intros x DX; unfold gw; destruct (Z.eqb_spec x v); congruence)).
      unfold fv at 2 in X. unfold gw at 2 in Y. rewrite Z.eqb_refl in X, Y. rewrite (S1 w v) in Y. lia. }
    destruct (cnt_missing fv gw V c NV LE IC) as (x & IX & FX & GX).
    { unfold gw. replace (c =? v) with false by lia. rewrite S1. auto. }
    { unfold fv. replace (c =? w) with false by lia. rewrite S1. auto. }
    assert (XW : x <> w) by (unfold fv in FX; destruct (Z.eqb_spec x w); congruence).
    assert (GVX : G v x = true) by (unfold fv in FX; destruct (Z.eqb_spec x w); congruence).
    assert (XV : x <> v) by (destruct (S2 _ _ GVX); intuition congruence).
    assert (GWX : G w x = false) by (unfold gw in GX; destruct (Z.eqb_spec x v); congruence).
    pose proof (swap_degree V G c w v x NV GG GW GVX NG GWX CV ltac:(auto)) as SD.
    destruct (IH (swap G c w v x)) as (G' & A1 & A2 & A3).
    + apply swap_graph; auto.
    + rewrite SD. auto.
    + intros s r I1 I2 I3 I4. rewrite !SD. auto.
    + set (h := fun s => if s =? v then false else negb (G c s)).
      assert (Q1 : cnt (fun s => negb (swap G c w v x c s)) SS <= cnt h SS).
      { apply cnt_le. intros s I. unfold h, swap, pairb. rewrite Z.eqb_refl. replace (c =? w) with false by lia. replace (c =? v) with false by lia.
        assert (s <> w) by congruence. replace (s =? w) with false by lia. destruct (Z.eqb_spec s v) as [->|D'].
        - destruct (c =? x) eqn:CX; [exfalso; apply Z.eqb_eq in CX; rewrite S1 in GVX; congruence|]. cbn [andb orb negb]. auto.
        - destruct (c =? x) eqn:CX; [exfalso; apply Z.eqb_eq in CX; rewrite S1 in GVX; congruence|]. cbn [andb orb negb]. auto. }
      pose proof (cnt_change h (fun s => negb (G c s)) SS v NS IVS) as Q2.
      specialize (Q2 ltac:(intros y DY; unfold h; destruct (Z.eqb_spec y v); congruence)). unfold h at 2 in Q2. rewrite Z.eqb_refl, NG in Q2. cbn [negb] in Q2. lia.
    + exists G'. split; auto. split; auto. intro u. rewrite A2. auto.
Qed.
