(* Strict convexity; polygons wrongly accepted. *)
From Coq Require Import ZArith List Lia Bool PeanoNat.
From Verif Require Import Base BaseLemmas GeoModel GeoSpec GeoProofs.
Import ListNotations.
Local Open Scope Z_scope.
Local Arguments Z.add : simpl never.
Local Arguments Z.mul : simpl never.

(* u, v, w in the half plane left of p, seen from o *)
Lemma orient_trans : forall o p u v w, 0 < orient o p u -> 0 < orient o p v -> 0 < orient o p w ->
  0 < orient o u v -> 0 < orient o v w -> 0 < orient o u w.
Proof.
  intros o p u v w A B C D E.
  assert (I : orient o p v * orient o u w = orient o p u * orient o v w + orient o p w * orient o u v)
    by (unfold orient; ring).
  apply Z.mul_pos_cancel_l with (n := orient o p v); [exact B|]. rewrite I.
  apply Z.add_pos_pos; apply Z.mul_pos_pos; assumption.
Qed.

Lemma orient_trans' : forall b a c o e, 0 < orient b o a -> 0 < orient b c a -> 0 < orient b e a ->
  0 < orient b o e -> 0 < orient b c o -> 0 < orient b c e.
Proof.
  intros b a c o e A B C D E.
  assert (I : orient b o a * orient b c e = orient b c a * orient b o e + orient b e a * orient b c o)
    by (unfold orient; ring).
  apply Z.mul_pos_cancel_l with (n := orient b o a); [exact A|]. rewrite I.
  apply Z.add_pos_pos; apply Z.mul_pos_pos; assumption.
Qed.

(* the angles seen from the first corner grow strictly *)
Lemma no_zero_angle : forall o p a u v d, 0 < orient o p u -> 0 < orient o p v -> 0 < orient o a u ->
  0 < orient a u v -> orient o u v = 0 -> 0 < orient u v d -> orient o v d < 0.
Proof.
  intros o p a u v d P P' A T Z0 T'.
  assert (E1 : orient o p u * orient o v d = orient o p v * orient o u d).
  { assert (I : orient o p u * orient o v d = orient o p v * orient o u d - orient o p d * orient o u v)
      by (unfold orient; ring). rewrite I, Z0. ring. }
  assert (E2 : orient o p u * orient o a v = orient o p v * orient o a u).
  { assert (I : orient o p u * orient o a v = orient o p v * orient o a u + orient o p a * orient o u v)
      by (unfold orient; ring). rewrite I, Z0. ring. }
  assert (L : orient o a v < orient o a u).
  { assert (I : orient a u v = orient o a u - orient o a v + orient o u v) by (unfold orient; ring). lia. }
  assert (L' : orient o u d < orient o v d).
  { assert (I : orient u v d = orient o v d - orient o u d + orient o u v) by (unfold orient; ring). lia. }
  generalize dependent (orient o p u). generalize dependent (orient o p v). generalize dependent (orient o a u).
  generalize dependent (orient o a v). generalize dependent (orient o u d). generalize dependent (orient o v d).
  clear. intros vd ud L av au A L' q Q p P E1 E2.
  assert (q < p) by nia. nia.
Qed.

Lemma strict_accepted : forall ps, inRange ps -> strictlyConvex ps ->
  isStrictlyConvex ps = Ok true /\
  forall j, (2 <= j < length ps)%nat -> 0 < orient (corner ps 0) (corner ps 1) (corner ps j).
Proof.
  intros ps R (L & S0). split.
  - destruct (isStrictlyConvex_ok ps R) as (b & E & H). rewrite E. f_equal. apply H. split; [exact L|].
    intros i I.
    assert (T : 0 < orient (corner ps i) (corner ps (i + 1)) (corner ps (i + 2))).
    { rewrite <- (corner_mod ps (i + 2)). apply S0; [exact I|apply Nat.mod_upper_bound; lia| |].
      - destruct (Nat.lt_ge_cases (i + 2) (length ps)); [rewrite Nat.mod_small by lia; lia|].
        rewrite <- (Nat.mod_unique (i + 2) (length ps) 1 (i + 2 - length ps)) by lia. lia.
      - destruct (Nat.lt_ge_cases (i + 2) (length ps)).
        + rewrite !Nat.mod_small by lia. lia.
        + rewrite <- (Nat.mod_unique (i + 2) (length ps) 1 (i + 2 - length ps)) by lia.
          destruct (Nat.lt_ge_cases (i + 1) (length ps)); [rewrite Nat.mod_small by lia; lia|].
          rewrite <- (Nat.mod_unique (i + 1) (length ps) 1 (i + 1 - length ps)) by lia. lia. }
    split; [|exact T]. split; [|split; [|lia]].
    + intros Q. rewrite Q in T. rewrite (proj1 (proj2 (orient_same _ _))) in T. lia.
    + rewrite orient_cycle. destruct (Nat.eq_dec i 0) as [->|I0].
      { rewrite (proj2 (proj2 (orient_same _ _))). lia. }
      destruct (Nat.eq_dec (i + 1) (length ps)) as [I1|I1].
      { rewrite I1. rewrite <- (corner_mod ps (length ps)), Nat.mod_same by lia.
        rewrite (proj1 (orient_same _ _)). lia. }
      apply Z.lt_le_incl, S0; [exact I|lia|lia|]. rewrite Nat.mod_small by lia. lia.
  - intros j J. apply (S0 0%nat j); [lia|lia|lia|]. rewrite Nat.mod_small by lia. lia.
Qed.

Lemma accepted_strict : forall ps, inRange ps -> isStrictlyConvex ps = Ok true ->
  (forall j, (2 <= j < length ps)%nat -> 0 < orient (corner ps 0) (corner ps 1) (corner ps j)) ->
  strictlyConvex ps.
Proof.
  intros ps R E Lf. destruct (isStrictlyConvex_ok ps R) as (b & Eb & Hb). rewrite E in Eb. injection Eb as <-.
  destruct (proj1 Hb eq_refl) as (L & G). clear Hb E. set (n := length ps) in *. set (f := corner ps) in *.
  assert (T : forall i, (i < n)%nat -> 0 < orient (f i) (f (i + 1)%nat) (f (i + 2)%nat)) by (intros i I; apply (G i I)).
  assert (F : forall i, (i < n)%nat -> 0 <= orient (f 0%nat) (f i) (f (i + 1)%nat)) by (intros i I; apply (G i I)).
  assert (Wr : f n = f 0%nat) by (unfold f; rewrite <- (corner_mod ps n); unfold n; rewrite Nat.mod_same by (fold n; lia); reflexivity).
  (* angles between neighbours *)
  assert (A : forall i, (1 <= i)%nat -> (i + 1 < n)%nat -> 0 < orient (f 0%nat) (f i) (f (i + 1)%nat)).
  { induction i as [|i IH]; intros I1 I2; [lia|]. destruct (Nat.eq_dec i 0) as [->|I0]; [apply Lf; lia|].
    specialize (IH ltac:(lia) ltac:(lia)). replace (S i) with (i + 1)%nat in * by lia.
    replace (i + 1 + 1)%nat with (i + 2)%nat in * by lia.
    assert (P := F (i + 1)%nat ltac:(lia)). replace (i + 1 + 1)%nat with (i + 2)%nat in P by lia.
    destruct (Z.eq_dec (orient (f 0%nat) (f (i + 1)%nat) (f (i + 2)%nat)) 0) as [Z0|Z0]; [|lia]. exfalso.
    assert (T1 := T i ltac:(lia)). assert (T2 := T (i + 1)%nat ltac:(lia)).
    replace (i + 1 + 1)%nat with (i + 2)%nat in T2 by lia. replace (i + 1 + 2)%nat with (i + 3)%nat in T2 by lia.
    destruct (Nat.eq_dec (i + 3) n) as [I3|I3].
    - rewrite I3, Wr in T2. rewrite <- orient_cycle in T2. lia.
    - assert (Q := no_zero_angle _ (f 1%nat) _ _ _ _ (Lf (i + 1)%nat ltac:(lia)) (Lf (i + 2)%nat ltac:(lia)) IH T1 Z0 T2).
      assert (P3 := F (i + 2)%nat ltac:(lia)). replace (i + 2 + 1)%nat with (i + 3)%nat in P3 by lia. lia. }
  (* angles in general *)
  assert (An : forall d i, (1 <= i)%nat -> (i + S d < n)%nat -> 0 < orient (f 0%nat) (f i) (f (i + S d)%nat)).
  { induction d as [|d IH]; intros i I1 I2; [apply A; lia|].
    destruct (Nat.eq_dec i 1) as [->|N1]; [apply Lf; lia|].
    replace (i + S (S d))%nat with (i + S d + 1)%nat in * by lia.
    apply (orient_trans _ (f 1%nat) _ (f (i + S d)%nat)); try (apply Lf; lia); [apply IH; lia|apply A; lia]. }
  assert (Ang : forall i j, (1 <= i)%nat -> (i < j)%nat -> (j < n)%nat -> 0 < orient (f 0%nat) (f i) (f j)).
  { intros i j I J N. replace j with (i + S (j - i - 1))%nat by lia. apply An; lia. }
  (* later corners *)
  assert (B : forall d i, (1 <= i)%nat -> (i + S (S d) < n)%nat -> 0 < orient (f i) (f (i + 1)%nat) (f (i + S (S d))%nat)).
  { induction d as [|d IH]; intros i I1 I2; [apply T; lia|].
    assert (Q := IH (i + 1)%nat ltac:(lia) ltac:(lia)).
    replace (i + 1 + 1)%nat with (i + 2)%nat in Q by lia.
    replace (i + 1 + S (S d))%nat with (i + S (S (S d)))%nat in Q by lia.
    rewrite orient_cycle. apply (orient_trans _ (f (i + 2)%nat) _ (f 0%nat)).
    - exact Q.
    - rewrite <- orient_cycle. apply Ang; lia.
    - rewrite <- orient_cycle. apply T. lia.
    - rewrite <- orient_cycle. apply Ang; lia.
    - rewrite orient_cycle. apply Ang; lia. }
  (* earlier corners *)
  assert (C : forall d j, (1 <= j)%nat -> (j + S d + 1 < n)%nat -> 0 < orient (f j) (f (j + S d)%nat) (f (j + S d + 1)%nat)).
  { induction d as [|d IH]; intros j J1 J2.
    - replace (j + 1 + 1)%nat with (j + 2)%nat by lia. apply T. lia.
    - assert (Q := IH j ltac:(lia) ltac:(lia)). replace (j + S d + 1)%nat with (j + S (S d))%nat in Q by lia.
      rewrite orient_cycle.
      apply (orient_trans' _ (f (j + S d)%nat) _ (f 0%nat)).
      + rewrite orient_cycle. apply Ang; lia.
      + assert (T1 := T (j + S d)%nat ltac:(lia)).
        replace (j + S d + 1)%nat with (j + S (S d))%nat in T1 by lia. replace (j + S d + 2)%nat with (j + S (S d) + 1)%nat in T1 by lia.
        rewrite <- orient_cycle. exact T1.
      + rewrite orient_cycle. exact Q.
      + rewrite orient_cycle. apply Ang; lia.
      + rewrite <- orient_cycle. apply Ang; lia. }
  split; [exact L|]. intros i j I J N1 N2. fold n in I, J, N2. fold f.
  destruct (Nat.eq_dec i 0) as [->|I0].
  { apply Lf. rewrite Nat.mod_small in N2 by lia. lia. }
  destruct (Nat.eq_dec (i + 1) n) as [I1|I1].
  { rewrite I1, Wr. rewrite orient_cycle. apply Ang; [|lia|lia].
    rewrite I1, Nat.mod_same in N2 by lia. lia. }
  rewrite Nat.mod_small in N2 by lia. destruct (Nat.eq_dec j 0) as [->|J0].
  { rewrite <- orient_cycle. apply Ang; lia. }
  destruct (Nat.lt_ge_cases j i) as [Lt|Ge].
  - rewrite <- orient_cycle. replace i with (j + S (i - j - 1))%nat by lia. apply C; lia.
  - replace j with (i + S (S (j - i - 2)))%nat by lia. apply B; lia.
Qed.

Lemma strict_iff : forall ps, inRange ps ->
  (strictlyConvex ps <-> isStrictlyConvex ps = Ok true /\
     forall j, (2 <= j < length ps)%nat -> 0 < orient (corner ps 0) (corner ps 1) (corner ps j)).
Proof.
  intros ps R. split; [apply strict_accepted; exact R|]. intros (A & B). apply accepted_strict; assumption.
Qed.

(* up to four corners the test is exact *)
Lemma convex_4 : forall ps, inRange ps -> (length ps <= 4)%nat -> (isConvex ps = Ok true <-> convex ps).
Proof.
  intros ps R L4. split; [|apply convex_accepted; exact R]. intros E.
  destruct (isConvex_ok ps R) as (b & Eb & Hb). rewrite E in Eb. injection Eb as <-.
  destruct (proj1 Hb eq_refl) as (L & G & i0 & I0 & A0). clear Hb E.
  assert (G' : forall i, good ps (i mod length ps)) by (intros i; apply G; apply Nat.mod_upper_bound; lia).
  assert (T : forall i, 0 <= orient (corner ps i) (corner ps (i + 1)) (corner ps (i + 2))).
  { intros i. destruct (G' i) as (_ & _ & Q). rewrite corner_mod, !corner_mod_add in Q. exact Q. }
  assert (Ad : forall i, corner ps (length ps + i) = corner ps i).
  { intros i. rewrite <- corner_mod_add, Nat.mod_same by lia. reflexivity. }
  split; [exact L|]. split; [|split].
  - intros i. destruct (G' i) as (Q & _). rewrite corner_mod, corner_mod_add in Q. exact Q.
  - intros i j.
    assert (D : exists d, (d < length ps)%nat /\ corner ps j = corner ps (i + d)).
    { exists ((j + (length ps - i mod length ps)) mod length ps)%nat.
      pose proof (Nat.mod_upper_bound i (length ps) ltac:(lia)).
      split; [apply Nat.mod_upper_bound; lia|].
      replace (i + (j + (length ps - i mod length ps)) mod length ps)%nat
        with ((j + (length ps - i mod length ps)) mod length ps + i)%nat by lia.
      rewrite corner_mod_add.
      replace (j + (length ps - i mod length ps) + i)%nat with (i + (j + (length ps - i mod length ps)))%nat by lia.
      rewrite <- corner_mod_add.
      replace (i mod length ps + (j + (length ps - i mod length ps)))%nat with (length ps + j)%nat by lia.
      symmetry. apply Ad. }
    destruct D as (d & Hd & ->).
    destruct d as [|[|[|[|d]]]]; [| | | |lia].
    + rewrite Nat.add_0_r. rewrite (proj2 (proj2 (orient_same _ _))). lia.
    + rewrite (proj1 (orient_same _ _)). lia.
    + apply T.
    + assert (L5 : length ps = 4%nat) by lia. assert (Q := T (i + 3)%nat).
      rewrite <- orient_cycle.
      replace (i + 3 + 1)%nat with (length ps + i)%nat in Q by lia. replace (i + 3 + 2)%nat with (length ps + (i + 1))%nat in Q by lia.
      rewrite !Ad in Q. exact Q.
  - exists i0, (i0 + 1)%nat, (i0 + 2)%nat. exact A0.
Qed.

(* ------------------------------------------------------------ wrongly accepted *)

(* back and forth along the lower side *)
Definition zigzag : list (Z * Z) := [(0, 0); (2, 0); (1, 0); (3, 0); (0, 3)].

Lemma range_dec : forall ps, forallb (fun p => (Z.abs (fst p) <? 2 ^ 30) && (Z.abs (snd p) <? 2 ^ 30)) ps = true -> inRange ps.
Proof.
  intros ps H. apply Forall_forall. intros p I. rewrite forallb_forall in H. specialize (H p I).
  apply andb_true_iff in H. rewrite !Z.ltb_lt in H. exact H.
Qed.

Lemma convex_wrong : exists ps, inRange ps /\ isConvex ps = Ok true /\ ~ convex ps.
Proof.
  exists zigzag. split; [apply range_dec; reflexivity|]. split; [reflexivity|].
  intros (_ & _ & O & _). specialize (O 1%nat 4%nat). vm_compute in O. apply O. reflexivity.
Qed.

(* once and a bit around the first corner *)
Definition spiral : list (Z * Z) := [(0, 0); (10, 0); (0, 9); (-8, 0); (0, -7); (5, 1)].

Lemma strict_wrong : exists ps, inRange ps /\ isStrictlyConvex ps = Ok true /\
  isConvex (rotate 1 ps) = Ok false /\
  exists i j, (i < length ps)%nat /\ (j < length ps)%nat /\
    properlyCross (corner ps i) (corner ps (i + 1)) (corner ps j) (corner ps (j + 1)).
Proof.
  exists spiral. split; [apply range_dec; reflexivity|]. split; [reflexivity|]. split; [reflexivity|].
  exists 0%nat, 4%nat. split; [cbn; lia|]. split; [cbn; lia|]. split; reflexivity.
Qed.

(* two triangles with a common corner *)
Lemma strict_repeats : exists ps, inRange ps /\ isStrictlyConvex ps = Ok true /\ ~ NoDup ps.
Proof.
  exists [(0, 0); (1, 0); (1, 1); (0, 0); (3, 1); (1, 3)].
  split; [apply range_dec; reflexivity|]. split; [reflexivity|].
  intros N. inversion_clear N as [|? ? H _]. apply H. cbn. auto 10.
Qed.
