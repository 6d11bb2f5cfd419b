(* Hypercubes, lattices and the Rado graph. *)
From Verif Require Import Base Tac RndModel RndLemmas GenModel GenSpec GenProofs GenProofs2 GenOpsModel GenProofs3 GenOpsProofs GenOpsProofs2 GenOpsProofs3.
From Verif Require Import GenMakeModel GenMakeSpec GenMakeProofs GenMakeProofs2.

Lemma lxor_cells : forall m a b c d, 0 <= m -> 0 <= a < 2 ^ m -> 0 <= b < 2 ^ m ->
  Z.lxor (c * 2 ^ m + a) (d * 2 ^ m + b) = Z.lxor c d * 2 ^ m + Z.lxor a b /\ 0 <= Z.lxor a b < 2 ^ m.
Proof.
  intros m a b c d M A B.
  assert (LX : 0 <= Z.lxor a b < 2 ^ m).
  { assert (N : 0 <= Z.lxor a b) by (apply Z.lxor_nonneg; lia). split; auto.
    destruct (Z.eq_dec (Z.lxor a b) 0) as [Q|Q]; [rewrite Q; lia|]. apply Z.log2_lt_pow2; [lia|].
    destruct (Z.eq_dec m 0) as [->|Z0]. { exfalso. apply Q. replace a with 0 by lia. replace b with 0 by lia. auto. }
    pose proof (Z.log2_lxor a b ltac:(lia) ltac:(lia)).
    assert (L : forall x, 0 <= x < 2 ^ m -> Z.log2 x < m).
    { intros x X. destruct (Z.eq_dec x 0) as [->|]; [cbn; lia|]. apply Z.log2_lt_pow2; lia. }
    pose proof (L a A). pose proof (L b B). lia. }
  split; auto.
  assert (BIT : forall x e i, 0 <= x < 2 ^ m -> 0 <= i -> Z.testbit (e * 2 ^ m + x) i = if i <? m then Z.testbit x i else Z.testbit e (i - m)).
  { intros x e i X I. destruct (i <? m) eqn:Q.
    - rewrite <- (Z.mod_pow2_bits_low _ m i) by lia. rewrite Z.add_comm, Z_mod_plus_full, Z.mod_small by lia. auto.
    - replace i with ((i - m) + m) at 1 by lia. rewrite <- Z.div_pow2_bits by lia. rewrite Z.div_add_l by lia. rewrite (Z.div_small x) by lia. f_equal. lia. }
  apply Z.bits_inj'. intros i I. rewrite Z.lxor_spec, !BIT by auto. destruct (i <? m); rewrite Z.lxor_spec; auto.
Qed.

Section Und.
  Variable E : Type.
  Variable dflt : E.
  Definition cubeMap (d : Z) (M : emap E) : Prop :=
    (forall u v, 0 <= u < 2 ^ d -> 0 <= v < 2 ^ d -> (isEdge M u v = true <-> exists k, 0 <= k < d /\ Z.lxor u v = 2 ^ k)) /\
    (forall u v x, M u v = Some x -> x = dflt).
  Lemma cubes_rep : forall h, exists g M, cubes dflt h = Ok g /\ represents false g 0 (2 ^ (Z.of_nat h + 1)) M /\ cubeMap (Z.of_nat h + 1) M.
  Proof.
    induction h as [|h (a & M & EA & RA & HM & HD)]; cbn [cubes].
    - destruct (clique_rep E false dflt 2) as (g & -> & R); [lia|]. exists g. eexists. split; [reflexivity|]. split; [exact R|]. split.
      + intros u v U V. rewrite isEdge_by. cbn in U, V. unfold inside. assert (A : u = 0 \/ u = 1) by lia. assert (B : v = 0 \/ v = 1) by lia.
        destruct A, B; subst u v; cbn; split; try discriminate; try (intros _; exists 0; split; [lia|reflexivity]); try reflexivity; intros (k & K & Q); exfalso; assert (k = 0) by lia; subst k; discriminate.
      + intros u v x Q. unfold edgesBy in Q. destruct (_ && _) in Q; congruence.
    - rewrite EA. cbn [bind]. destruct (clique_rep E false dflt 2) as (b & -> & RB); [lia|]. cbn [bind].
      set (m := Z.of_nat h + 1) in *. replace (Z.of_nat (S h) + 1) with (m + 1) by lia. assert (M0 : 0 <= m) by lia. clearbody m.
      destruct (cartesian_rep E dflt false a b _ _ _ _ _ _ RA RB) as (g & M' & -> & R & H). exists g, M'. split; auto.
      rewrite !Z.sub_0_r in R. split. { replace (2 ^ (m + 1)) with (2 ^ m * 2) by (rewrite Z.pow_add_r by lia; lia). exact R. }
      assert (PM : 0 < 2 ^ m) by (apply Z.pow_pos_nonneg; lia).
      assert (CELL : forall u, 0 <= u < 2 ^ (m + 1) -> exists e x, u = e * 2 ^ m + x /\ 0 <= x < 2 ^ m /\ 0 <= e < 2).
      { intros u U. rewrite Z.pow_add_r in U by lia. change (2 ^ 1) with 2 in U. exists (u / 2 ^ m), (u mod 2 ^ m). pose proof (Z.div_mod u (2 ^ m)). pose proof (Z.mod_pos_bound u (2 ^ m) PM).
        split; [lia|]. split; auto. split; [apply Z.div_pos; lia|]. apply Z.div_lt_upper_bound; lia. }
      split.
      + intros u v U V. destruct (CELL u U) as (c & x & -> & X & C). destruct (CELL v V) as (d & y & -> & Y & D).
        specialize (H x y c d X Y C D). rewrite !Z.sub_0_r in H. unfold isEdge at 1. rewrite H. rewrite isEdge_by.
        destruct (lxor_cells m x y c d M0 X Y) as (-> & LX). specialize (HM x y X Y).
        assert (CL : inside 0 2 c && inside 0 2 d && negb (c =? d) = negb (c =? d)) by (unfold inside; lia). rewrite CL.
        assert (Q2 : Z.lxor c d = if c =? d then 0 else 1). { assert (A : c = 0 \/ c = 1) by lia. assert (B : d = 0 \/ d = 1) by lia. destruct A, B; subst; auto. }
        rewrite Q2. split.
        * intro T. destruct (c =? d) eqn:CD; cbn [negb] in T.
          -- rewrite andb_false_r, andb_true_r in T. cbn [orb] in T. destruct (isEdge M x y); [|discriminate]. destruct (proj1 HM eq_refl) as (k & K & ->). exists k. split; [lia|]. lia.
          -- rewrite andb_true_r, andb_false_r, orb_false_r in T. destruct (x =? y) eqn:XY; [|discriminate]. assert (x = y) by lia. subst y. rewrite Z.lxor_nilpotent. exists m. split; [lia|]. lia.
        * intros (k & K & Q). destruct (Z.eq_dec k m) as [->|NE].
          -- destruct (c =? d) eqn:CD; [lia|]. assert (LZ : Z.lxor x y = 0) by lia. apply Z.lxor_eq in LZ. subst y. rewrite Z.eqb_refl. auto.
          -- assert (P2 : 2 ^ k < 2 ^ m) by (apply Z.pow_lt_mono_r; lia). destruct (c =? d) eqn:CD; [|lia].
             assert (IE : isEdge M x y = true). { apply HM. exists k. split; lia. } rewrite IE. cbn. rewrite andb_false_r. auto.
      + intros u v x Q. assert (IE : isEdge M' u v = true) by (apply isEdge_true; eauto). destruct (proj1 (proj2 (proj2 (proj2 (proj2 R)))) u v IE) as (U & V & _).
        replace (2 ^ m * 2) with (2 ^ (m + 1)) in * by (rewrite Z.pow_add_r by lia; lia).
        destruct (CELL u U) as (c & x' & -> & X & C). destruct (CELL v V) as (d & y & -> & Y & D).
        specialize (H x' y c d X Y C D). rewrite !Z.sub_0_r in H. rewrite H in Q. destruct (_ || _) in Q; congruence.
  Qed.
  Lemma hypercube_rep : forall d, 0 <= d -> exists g M, hypercube dflt d = Ok g /\ represents false g 0 (2 ^ d) M /\ cubeMap d M.
  Proof.
    intros d D. unfold hypercube. destruct (d <? 2) eqn:Q.
    - assert (K : d = 0 \/ d = 1) by lia. destruct K; subst d.
      + change (0 + 1) with 1. destruct (clique_rep E false dflt 1) as (g & -> & R); [lia|]. exists g. eexists. split; [reflexivity|]. split; [exact R|]. split.
        * intros u v U V. cbn in U, V. replace u with 0 by lia. replace v with 0 by lia. cbn. split; [discriminate|]. intros (k & K & _). lia.
        * intros u v x Z. unfold edgesBy in Z. destruct (_ && _) in Z; congruence.
      + exact (cubes_rep 0).
    - destruct (cubes_rep (Z.to_nat (d - 1))) as (g & M & EQ & R & C). replace (Z.of_nat (Z.to_nat (d - 1)) + 1) with d in * by lia. eauto.
  Qed.
End Und.

Lemma mapM_ok : forall A B (h : A -> outcome B) (k : A -> B) l, (forall x, In x l -> h x = Ok (k x)) -> mapM h l = Ok (map k l).
Proof.
  induction l as [|x l IH]; intro H; cbn [mapM map]; auto. rewrite (H x) by (left; auto). cbn [bind]. rewrite IH by (intros; apply H; right; auto). auto.
Qed.
(* the powers of two from 2^a on below n = 2^b *)
Lemma latticeLoop_ok : forall k fuel i a b, 0 <= a -> b - a <= Z.of_nat k -> b <= 62 -> (k <= fuel)%nat ->
  latticeLoop fuel (2 ^ b) i (2 ^ a) = Ok (map (fun c => (i, Z.lxor i (2 ^ c))) (filter (fun c => Z.lor i (2 ^ c) =? i) (zseq a (Z.to_nat (b - a))))).
Proof.
  induction k as [|k IH]; intros fuel i a b A K B F.
  - assert (L : 2 ^ b <= 2 ^ a) by (apply Z.pow_le_mono_r; lia). assert (Z0 : Z.to_nat (b - a) = O) by lia. rewrite Z0.
    destruct fuel; cbn [latticeLoop]; replace (2 ^ a <? 2 ^ b) with false by lia; auto.
  - destruct fuel as [|fuel]; [lia|]. cbn [latticeLoop]. destruct (Z_lt_dec a b) as [L|L].
    + assert (L2 : 2 ^ a < 2 ^ b) by (apply Z.pow_lt_mono_r; lia). replace (2 ^ a <? 2 ^ b) with true by lia.
      assert (P : 2 ^ a * 2 = 2 ^ (a + 1)) by (rewrite Z.pow_add_r by lia; lia). rewrite P.
      assert (P62 : 2 ^ (a + 1) <= 2 ^ 62) by (apply Z.pow_le_mono_r; lia). assert (P0 : 0 < 2 ^ (a + 1)) by (apply Z.pow_pos_nonneg; lia).
      unfold chk. replace (in_i64 (2 ^ (a + 1))) with true. 2: { change (2 ^ 62) with 4611686018427387904 in P62. unfold in_i64, I64_MIN, I64_MAX, two63. lia. }
      cbn [bind]. rewrite IH by lia. cbn [bind]. replace (Z.to_nat (b - a)) with (S (Z.to_nat (b - (a + 1)))) by lia. cbn [zseq filter].
      destruct (Z.lor i (2 ^ a) =? i); auto.
    + assert (L2 : 2 ^ b <= 2 ^ a) by (apply Z.pow_le_mono_r; lia). replace (2 ^ a <? 2 ^ b) with false by lia. assert (Z0 : Z.to_nat (b - a) = O) by lia. rewrite Z0. auto.
Qed.
Lemma lor_testbit : forall i c, 0 <= c -> (Z.lor i (2 ^ c) =? i) = Z.testbit i c.
Proof.
  intros i c C. destruct (Z.testbit i c) eqn:T.
  - apply Z.eqb_eq. apply Z.bits_inj'. intros j J. rewrite Z.lor_spec. destruct (Z.eq_dec j c) as [->|NE].
    + rewrite T. auto.
    + rewrite Z.pow2_bits_false by lia. apply orb_false_r.
  - apply Z.eqb_neq. intro Q. rewrite <- Q in T. rewrite Z.lor_spec, Z.pow2_bits_true in T by lia. rewrite orb_true_r in T. discriminate.
Qed.
(* clearing a bit *)
Lemma lxor_clear : forall i c, 0 <= c -> Z.testbit i c = true -> Z.lxor i (2 ^ c) = i - 2 ^ c.
Proof.
  intros i c C T. assert (S : i = Z.lxor (Z.lxor i (2 ^ c)) (2 ^ c)) by (rewrite Z.lxor_assoc, Z.lxor_nilpotent, Z.lxor_0_r; auto).
  assert (N : Z.land (Z.lxor i (2 ^ c)) (2 ^ c) = 0).
  { apply Z.bits_inj'. intros j J. rewrite Z.land_spec, Z.lxor_spec, Z.bits_0. destruct (Z.eq_dec j c) as [->|NE].
    - rewrite T, Z.pow2_bits_true by lia. auto.
    - rewrite (Z.pow2_bits_false c j) by lia. apply andb_false_r. }
  rewrite S at 2. rewrite <- (Z.add_nocarry_lxor _ _ N). lia.
Qed.
Lemma testbit_below : forall c i n, 0 <= i < 2 ^ n -> 0 <= c -> Z.testbit i c = true -> c < n /\ 2 ^ c <= i.
Proof.
  intros c i n I C T. assert (I0 : 0 < i) by (destruct (Z.eq_dec i 0) as [->|]; [rewrite Z.bits_0 in T; discriminate|lia]).
  assert (L : c <= Z.log2 i). { destruct (Z_le_dec c (Z.log2 i)); auto. rewrite Z.bits_above_log2 in T by lia. discriminate. }
  split.
  - destruct (Z_lt_dec c n); auto. exfalso. assert (n <= Z.log2 i) by lia.
    destruct (Z_lt_dec n 0); [rewrite Z.pow_neg_r in I by lia; lia|]. assert (2 ^ n <= 2 ^ Z.log2 i) by (apply Z.pow_le_mono_r; lia). pose proof (Z.log2_spec i I0). lia.
  - pose proof (Z.log2_spec i I0). assert (2 ^ c <= 2 ^ Z.log2 i) by (apply Z.pow_le_mono_r; lia). lia.
Qed.

(* the loops for j, a = 2^j *)
Lemma radoLoop_ok : forall k fuel i j, 0 <= j -> 0 <= i <= 2 ^ (j + Z.of_nat k) -> j + Z.of_nat k <= 30 -> (k <= fuel)%nat ->
  exists l, radoLoop fuel i j = Ok l /\ forall x y, In (x, y) l <-> x = i /\ j <= y /\ Z.testbit i y = true /\ 2 ^ y < i.
Proof.
  induction k as [|k IH]; intros fuel i j J I K F.
  - assert (Q : radoLoop fuel i j = Ok []).
    { destruct fuel; cbn [radoLoop]; unfold shl1; replace ((0 <=? j) && (j <? 31)) with true by lia; cbn [bind]; replace (j + Z.of_nat 0) with j in I by lia; replace (2 ^ j <? i) with false by lia; auto. }
    exists []. split; auto. intros x y. split; [intros []|]. intros (_ & A & _ & B). exfalso. replace (j + Z.of_nat 0) with j in I by lia.
    assert (2 ^ j <= 2 ^ y) by (apply Z.pow_le_mono_r; lia). lia.
  - destruct fuel as [|fuel]; [lia|]. cbn [radoLoop]. unfold shl1. replace ((0 <=? j) && (j <? 31)) with true by lia. cbn [bind]. destruct (2 ^ j <? i) eqn:L.
    + destruct (IH fuel i (j + 1)) as (l & -> & H); try lia. { replace (j + 1 + Z.of_nat k) with (j + Z.of_nat (S k)) by lia. auto. }
      cbn [bind]. rewrite lor_testbit by lia. eexists. split; [reflexivity|]. intros x y. destruct (Z.testbit i j) eqn:T.
      * cbn [In]. rewrite (H x y). split.
        -- intros [Q|(A & B & C & D)]; [inv Q; repeat split; auto; lia|]. repeat split; auto; lia.
        -- intros (A & B & C & D). destruct (Z.eq_dec y j) as [->|]; [left; subst; auto|right]. repeat split; auto; lia.
      * rewrite (H x y). split; intros (A & B & C & D); repeat split; auto; try lia. destruct (Z.eq_dec y j) as [->|]; [congruence|lia].
    + exists []. split; auto. intros x y. split; [intros []|]. intros (_ & A & _ & B). exfalso.
      assert (2 ^ j <= 2 ^ y) by (apply Z.pow_le_mono_r; lia). lia.
Qed.

Section Make.
  Variable E : Type.
  Variable dir : bool.
  Variable dflt : E.
  (* u covers v: v is u without one of its elements *)
  Lemma lattice_rep : forall level, 0 <= level < 31 -> exists g P, booleanLattice dflt dir level = Ok g /\ represents dir g 0 (2 ^ level) (edgesBy dflt (sym dir P)) /\
    forall u v, P u v = true <-> 0 <= u < 2 ^ level /\ exists c, 0 <= c /\ Z.testbit u c = true /\ v = u - 2 ^ c.
  Proof.
    intros b B. unfold booleanLattice, shl1. replace ((0 <=? b) && (b <? 31)) with true by lia. cbn [bind].
    assert (PB : 0 < 2 ^ b) by (apply Z.pow_pos_nonneg; lia).
    rewrite (mapM_ok _ _ _ (fun i => map (fun c => (i, Z.lxor i (2 ^ c))) (filter (fun c => Z.lor i (2 ^ c) =? i) (zseq 0 (Z.to_nat (b - 0)))))).
    2: { intros i _. change 1 with (2 ^ 0) at 1. apply (latticeLoop_ok 64); lia. }
    cbn [bind]. match goal with |- context[concat ?x] => set (l := concat x) end. assert (L : forall u v, In (u, v) l <-> 0 <= u < 2 ^ b /\ exists c, 0 <= c /\ Z.testbit u c = true /\ v = u - 2 ^ c).
    { intros u v. unfold l. rewrite <- flat_map_concat_map, in_flat_map. split.
      - intros (i & I & J). apply upto_in in I. apply in_map_iff in J as (c & Q & J). apply filter_In in J as (C & J). apply in_zseq in C. rewrite lor_testbit in J by lia.
        inv Q. split; auto. exists c. split; [lia|]. split; auto. apply lxor_clear; auto. lia.
      - intros (U & c & C & T & ->). exists u. rewrite upto_in. split; auto. apply in_map_iff. exists c. rewrite lxor_clear by auto. split; auto.
        apply filter_In. rewrite lor_testbit by auto. split; auto. apply in_zseq. destruct (testbit_below c u b); auto. lia. }
    clearbody l. cbn [bind].
    set (P := fun u v => existsb (fun p => (fst p =? u) && (snd p =? v)) l).
    assert (HP : forall u v, P u v = true <-> In (u, v) l).
    { intros u v. unfold P. rewrite existsb_exists. split; [intros ([x y] & I & Q)|intro I; exists (u, v)]; cbn [fst snd] in *; [replace u with x by lia; replace v with y by lia; auto|split; auto; lia]. }
    clearbody P. destruct (addPairs_rep E dir dflt 0 (2 ^ b) l (sym dir P)) as (g & Q & R); [lia| | |].
    - intros x y I. apply L in I as (X & c & C & T & ->). destruct (testbit_below c x b) as (A & A2); auto. assert (0 < 2 ^ c) by (apply Z.pow_pos_nonneg; lia). lia.
    - intros u v. unfold sym. rewrite orb_true_iff, andb_true_iff, !HP. split.
      + intros [I|(D & I)]; [exists u, v|exists v, u]; split; auto; unfold samePair; try (right; destruct dir; auto; discriminate); auto.
      + intros (x & y & I & [(-> & ->)|(D & -> & ->)]); auto. right. split; auto. rewrite D. auto.
    - destruct (newGraph 0 (2 ^ b)) as [r| | |]; cbn [bind] in *; try discriminate. exists g, P. split; auto. split; auto. intros. rewrite HP. apply L.
  Qed.
  Lemma rado_rep : forall n, 0 <= n <= 2 ^ 30 + 1 -> exists g P, rado dflt dir n = Ok g /\ represents dir g 0 n (edgesBy dflt (sym dir P)) /\
    forall u v, P u v = true <-> 0 <= u < n /\ 0 <= v /\ Z.testbit u v = true /\ 2 ^ v < u.
  Proof.
    intros n N. unfold rado.
    set (k := fun i => match radoLoop 64 i 0 with Ok l => l | _ => [] end).
    assert (K : forall i, 0 <= i < n -> radoLoop 64 i 0 = Ok (k i) /\ forall x y, In (x, y) (k i) <-> x = i /\ 0 <= y /\ Z.testbit i y = true /\ 2 ^ y < i).
    { intros i I. unfold k. destruct (radoLoop_ok 30 64 i 0) as (l & -> & H); auto; try lia. }
    rewrite (mapM_ok _ _ _ k). 2: { intros i I. apply upto_in in I. apply K. auto. }
    cbn [bind]. match goal with |- context[concat ?x] => set (l := concat x) end. assert (L : forall u v, In (u, v) l <-> 0 <= u < n /\ 0 <= v /\ Z.testbit u v = true /\ 2 ^ v < u).
    { intros u v. unfold l. rewrite <- flat_map_concat_map, in_flat_map. split.
      - intros (i & I & J). apply upto_in in I. apply K in J; auto. destruct J as (-> & J). auto.
      - intros (U & J). exists u. rewrite upto_in. split; auto. apply K; auto. }
    clearbody l. cbn [bind].
    set (P := fun u v => existsb (fun p => (fst p =? u) && (snd p =? v)) l).
    assert (HP : forall u v, P u v = true <-> In (u, v) l).
    { intros u v. unfold P. rewrite existsb_exists. split; [intros ([x y] & I & Q)|intro I; exists (u, v)]; cbn [fst snd] in *; [replace u with x by lia; replace v with y by lia; auto|split; auto; lia]. }
    clearbody P. destruct (addPairs_rep E dir dflt 0 n l (sym dir P)) as (g & Q & R); [lia| | |].
    - intros x y I. apply L in I as (X & Y & T & A). assert (y < 2 ^ y) by (apply Z.pow_gt_lin_r; lia). lia.
    - intros u v. unfold sym. rewrite orb_true_iff, andb_true_iff, !HP. split.
      + intros [I|(D & I)]; [exists u, v|exists v, u]; split; auto; unfold samePair; try (right; destruct dir; auto; discriminate); auto.
      + intros (x & y & I & [(-> & ->)|(D & -> & ->)]); auto. right. split; auto. rewrite D. auto.
    - destruct (newGraph 0 n) as [r| | |]; cbn [bind] in *; try discriminate. exists g, P. split; auto. split; auto. intros. rewrite HP. apply L.
  Qed.
End Make.
