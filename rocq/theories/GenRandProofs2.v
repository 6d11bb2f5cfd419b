(* randomGraph and randomBipartite decode distinct numbers bijectively. *)
From Verif Require Import Base BaseLemmas Tac RndModel RndLemmas RandSpec RandSeqModel SortLemmas DistinctProofs.
From Verif Require Import GenModel GenSpec GenProofs GenProofs2 GenOpsModel GenProofs3 GenOpsProofs GenOpsProofs2 GenOpsProofs3.
From Verif Require Import GenMakeModel GenMakeSpec GenMakeProofs GenMakeProofs2 GenMakeProofs3 GenRandSpec GenRandProofs.
From Coq Require Import QArith Sorted Permutation.
From Verif Require Import RandSeqModel.
Open Scope Z_scope.

Lemma NoDup_flat : forall A B (f : A -> list B) l, NoDup l -> (forall x, In x l -> NoDup (f x)) ->
  (forall x y z, In x l -> In y l -> In z (f x) -> In z (f y) -> x = y) -> NoDup (flat_map f l).
Proof.
  induction l as [|x l IH]; intros N D S; cbn [flat_map]; [constructor|]. inv N.
  assert (NI : NoDup (flat_map f l)). { apply IH; auto. - intros; apply D; right; auto. - intros a b z IA IB. apply S; right; auto. }
  assert (DX : NoDup (f x)) by (apply D; left; auto).
  assert (DJ : forall z, In z (f x) -> ~ In z (flat_map f l)).
  { intros z Z1 Z2. apply in_flat_map in Z2 as (y & Y & Z2). apply H1. rewrite (S x y z); auto; [left; auto|right; auto]. }
  revert NI DX DJ. generalize (flat_map f l) as t. generalize (f x) as h. clear. induction h as [|a h IH]; intros t NT NH DJ; cbn [app]; auto.
  inv NH. constructor.
  - rewrite in_app_iff. intros [I|I]; auto. apply (DJ a); auto. left. auto.
  - apply IH; auto. intros z I. apply DJ. right. auto.
Qed.
Lemma NoDup_map_inj : forall A B (f : A -> B) l, NoDup l -> (forall x y, In x l -> In y l -> f x = f y -> x = y) -> NoDup (map f l).
Proof.
  induction l as [|x l IH]; intros N H; cbn [map]; constructor; inv N.
  - intro I. apply in_map_iff in I as (y & Q & I). apply H2. rewrite (H x y); auto; [left; auto|right; auto].
  - apply IH; auto. intros a b IA IB. apply H; right; auto.
Qed.
Lemma NoDup_filter : forall A (p : A -> bool) l, NoDup l -> NoDup (filter p l).
Proof. induction l as [|x l IH]; intro N; cbn [filter]; auto. inv N. destruct (p x); auto. constructor; auto. intro I. apply filter_In in I as (I & _). auto. Qed.

Lemma allPairs_in : forall dir n u v, In (u, v) (allPairs dir n) <-> 0 <= u < n /\ 0 <= v < n /\ (if dir then u <> v else u < v).
Proof.
  intros dir n u v. unfold allPairs. rewrite in_flat_map. split.
  - intros (x & X & I). apply in_zseq in X. apply in_map_iff in I as (y & Q & I). inv Q. apply filter_In in I as (I & C). apply in_zseq in I. destruct dir; lia.
  - intros (U & V & C). exists u. rewrite in_zseq. split; [lia|]. apply in_map_iff. exists v. split; auto. apply filter_In. rewrite in_zseq. split; [lia|]. destruct dir; lia.
Qed.
Lemma allPairs_NoDup : forall dir n, NoDup (allPairs dir n).
Proof.
  intros. unfold allPairs. apply NoDup_flat; [apply zseq_NoDup| |].
  - intros x _. apply NoDup_map_inj; [apply NoDup_filter, zseq_NoDup|]. congruence.
  - intros x y z _ _ I J. apply in_map_iff in I as (a & <- & _). apply in_map_iff in J as (b & Q & _). congruence.
Qed.
Lemma allPairs_same : forall dir n u v x y, In (u, v) (allPairs dir n) -> In (x, y) (allPairs dir n) -> samePair dir u v x y -> (u, v) = (x, y).
Proof.
  intros dir n u v x y I J S. apply allPairs_in in I as (_ & _ & I). apply allPairs_in in J as (_ & _ & J). destruct S as [(-> & ->)|(D & -> & ->)]; auto. rewrite D in *. lia.
Qed.

Lemma cdiv_pos : forall a b, 0 <= a -> is_i64 a -> 0 < b -> cdiv a b = Ok (a / b).
Proof.
  intros a b A I B. unfold cdiv. replace (b =? 0) with false by lia. rewrite Z.quot_div_nonneg by lia. unfold chk.
  assert (0 <= a / b <= a). { split; [apply Z.div_pos; lia|]. apply Z.div_le_upper_bound; nia. } replace (in_i64 (a / b)) with true; auto. mach. unfold in_i64, I64_MIN, I64_MAX, two63 in *. lia.
Qed.
Lemma crem_pos : forall a b, 0 <= a -> 0 < b -> crem a b = Ok (a mod b).
Proof. intros a b A B. unfold crem. replace (b =? 0) with false by lia. replace ((a =? I64_MIN) && (b =? -1)) with false by lia. rewrite Z.rem_mod_nonneg by lia. auto. Qed.

(* two programs that agree on the drawn numbers *)
Lemma drawn_ext : forall A (K : list Z -> rnd A) (G : list Z -> outcome A) m lim, is_i64 lim -> 0 <= m <= lim ->
  (forall l, Forall (fun x => 0 <= x < lim) l -> K l = lift (G l)) ->
  (forall R, always (let? c := distinct m 0 lim in lift (G c)) R -> always (let? c := distinct m 0 lim in K c) R) /\
  (forall ev, Pr (let? c := distinct m 0 lim in K c) ev == Pr (let? c := distinct m 0 lim in lift (G c)) ev)%Q.
Proof.
  intros A K G m lim I M H.
  assert (AL : always (distinct m 0 lim) (returns (fun l => Forall (fun x => 0 <= x < lim) l))).
  { eapply returns_mono; [|apply distinct_always; auto; mach; lia]. cbn. tauto. }
  split.
  - intros R AR. revert AL AR. generalize (distinct m 0 lim) as t. induction t as [[l| | |]|lo hi k IH]; intros AL AR; cbn [always returns RndModel.rbind] in *; try contradiction; auto.
    rewrite H; auto.
  - intro ev. unfold Pr. rewrite !expect_bind. apply expect_ext_always. eapply always_mono; [|exact AL].
    intros [l| | |] X; cbn [returns] in X; try contradiction. rewrite H by auto. reflexivity.
Qed.

Definition graphCode (dir : bool) (n x : Z) : Z * Z :=
  if dir then (if x / n =? x mod n then n - 1 else x / n, x mod n)
  else if x mod n <=? x / n then (n - 2 - x / n, n - 1 - x mod n) else (x / n, x mod n).
Definition graphLim (dir : bool) (n : Z) : Z := if dir then n * (n - 1) else n * (n - 1) / 2.
Lemma graphLim2 : forall n, 2 * (n * (n - 1) / 2) = n * (n - 1).
Proof.
  intro n. assert (E : (n * (n - 1)) mod 2 = 0). { destruct (Zeven_odd_dec n) as [Q|Q]; [apply Zeven_ex in Q|apply Zodd_ex in Q]; destruct Q as (k & ->); [replace (2 * k * (2 * k - 1)) with ((k * (2 * k - 1)) * 2) by lia|replace ((2 * k + 1) * (2 * k + 1 - 1)) with (((2 * k + 1) * k) * 2) by lia]; apply Z.mod_mul; lia. }
  pose proof (Z.div_mod (n * (n - 1)) 2). lia.
Qed.
Lemma graphCode_div : forall dir n x, 0 < n -> 0 <= x < graphLim dir n -> 0 <= x mod n < n /\ x = n * (x / n) + x mod n /\ 0 <= x / n /\ (if dir then x / n < n - 1 else 2 * (x / n) <= n - 2).
Proof.
  intros dir n x N X. pose proof (Z.mod_pos_bound x n N). pose proof (Z.div_mod x n ltac:(lia)). pose proof (Z.div_pos x n ltac:(lia) N). repeat split; try lia.
  unfold graphLim in X. pose proof (graphLim2 n). destruct dir; nia.
Qed.
Lemma graphCode_bij : forall dir n, 0 <= n -> Permutation (map (graphCode dir n) (zseq 0 (Z.to_nat (graphLim dir n)))) (allPairs dir n).
Proof.
  intros dir n N. assert (NP : forall x, 0 <= x < graphLim dir n -> 0 < n).
  { intros x X. destruct (Z.eq_dec n 0) as [->|]; [|lia]. exfalso. unfold graphLim in X. destruct dir; cbn in X; lia. }
  pose proof (graphLim2 n) as L2.
  apply NoDup_Permutation; [|apply allPairs_NoDup|].
  - apply NoDup_map_inj; [apply zseq_NoDup|]. intros x y I J. apply in_zseq in I. apply in_zseq in J.
    assert (X : 0 <= x < graphLim dir n) by lia. assert (Y : 0 <= y < graphLim dir n) by lia. pose proof (NP x X) as N0.
    pose proof (graphCode_div dir n x N0 X) as (A1 & A2 & A3 & A4). pose proof (graphCode_div dir n y N0 Y) as (B1 & B2 & B3 & B4).
    unfold graphCode. generalize dependent (x / n). generalize dependent (x mod n). generalize dependent (y / n). generalize dependent (y mod n). intros b B1 a B2 B3 B4 d A1 c A2 A3 A4.
    unfold graphLim in *. destruct dir.
    + intro Q. injection Q as Q1 Q2. assert (c = a); [|nia]. destruct (c =? d) eqn:?, (a =? b) eqn:?; lia.
    + destruct (d <=? c) eqn:?, (b <=? a) eqn:?; intro Q; injection Q as Q1 Q2; nia.
  - intros [u v]. rewrite allPairs_in, in_map_iff. split.
    + intros (x & Q & I). apply in_zseq in I. assert (X : 0 <= x < graphLim dir n) by lia. pose proof (NP x X) as N0.
      pose proof (graphCode_div dir n x N0 X) as (A1 & A2 & A3 & A4). unfold graphCode in Q. destruct dir.
      * injection Q as Q1 Q2. subst v. destruct (x / n =? x mod n) eqn:?; lia.
      * destruct (x mod n <=? x / n) eqn:?; injection Q as Q1 Q2; lia.
    + intros (U & V & C). assert (N0 : 0 < n) by lia.
      assert (DM : forall q r, 0 <= r < n -> (n * q + r) / n = q /\ (n * q + r) mod n = r).
      { intros q r R. split; [symmetry; eapply Z.div_unique; eauto; lia|symmetry; eapply Z.mod_unique; eauto; lia]. }
      unfold graphCode, graphLim in *. destruct dir.
      * destruct (Z.eq_dec u (n - 1)) as [->|NE].
        -- exists (n * v + v). destruct (DM v v V) as (-> & ->). rewrite Z.eqb_refl. split; auto. apply in_zseq. nia.
        -- exists (n * u + v). destruct (DM u v V) as (-> & ->). replace (u =? v) with false by lia. split; auto. apply in_zseq. nia.
      * destruct (Z_lt_dec (n * u + v) (n * (n - 1) / 2)) as [L|L].
        -- exists (n * u + v). destruct (DM u v V) as (-> & ->). replace (v <=? u) with false by lia. split; auto. apply in_zseq. nia.
        -- exists (n * (n - 2 - u) + (n - 1 - v)). destruct (DM (n - 2 - u) (n - 1 - v)) as (-> & ->); [lia|]. replace (n - 1 - v <=? n - 2 - u) with true by lia.
           split; [f_equal; lia|]. apply in_zseq. nia.
Qed.


(* the common shape of the two generators *)
Definition drawPairs {E} (dflt : E) (dir : bool) (n lim m : Z) (f : Z -> outcome (Z * Z)) : rnd (graph E) :=
  let? res := lift (newGraph 0 n) in
  let? codes := distinct m 0 lim in
  let? pairs := lift (mapM f codes) in
  lift (addPairs dflt dir res pairs).
Lemma drawPairs_throws : forall E (dflt : E) dir n lim m f, 0 <= n -> 0 <= lim -> is_i64 lim -> is_i64 m -> m < 0 \/ lim < m -> drawPairs dflt dir n lim m f = RRet Throw.
Proof.
  intros E dflt dir n lim m f N L IL IM M. unfold drawPairs. destruct (newGraph_rep E dir 0 n N) as (g0 & -> & _). cbn [lift RndModel.rbind].
  rewrite distinct_throws; auto; mach; lia.
Qed.
Section Draw.
  Variable E : Type.
  Variable dir : bool.
  Variable dflt : E.
  Variables (n lim m : Z) (pairs : list (Z * Z)) (code : Z -> Z * Z) (f : Z -> outcome (Z * Z)).
  Hypothesis N : 0 <= n.
  Hypothesis I64 : is_i64 lim.
  Hypothesis PR : forall u v, In (u, v) pairs -> 0 <= u < n /\ 0 <= v < n /\ u <> v.
  Hypothesis PD : forall u v x y, In (u, v) pairs -> In (x, y) pairs -> samePair dir u v x y -> (u, v) = (x, y).
  Hypothesis ND : NoDup pairs.
  Hypothesis CB : Permutation (map code (zseq 0 (Z.to_nat lim))) pairs.
  Hypothesis FC : forall x, 0 <= x < lim -> f x = Ok (code x).
  Lemma drawPairs_mapM : forall l, Forall (fun x => 0 <= x < lim) l -> mapM f l = Ok (map code l).
  Proof. induction 1 as [|x l X F IH]; cbn [mapM map]; auto. rewrite FC, IH by auto. auto. Qed.
  Lemma drawPairs_ext : 0 <= m <= lim ->
    (forall R, always (let? c := distinct m 0 lim in lift (makeGraph E dir dflt n code c)) R -> always (drawPairs dflt dir n lim m f) R) /\
    (forall ev, Pr (drawPairs dflt dir n lim m f) ev == Pr (let? c := distinct m 0 lim in lift (makeGraph E dir dflt n code c)) ev)%Q.
  Proof.
    intro M. unfold drawPairs, makeGraph. destruct (newGraph_rep E dir 0 n N) as (g0 & -> & _). cbn [lift RndModel.rbind bind].
    apply drawn_ext; auto. intros l F. rewrite drawPairs_mapM by auto. reflexivity.
  Qed.
  Lemma drawPairs_always : 0 <= m <= lim -> always (drawPairs dflt dir n lim m f) (returns (fun g =>
    exists P, represents dir g 0 n (edgesBy dflt P) /\ edgeCount g = m /\
      (forall u v, P u v = true -> exists x y, In (x, y) pairs /\ samePair dir x y u v))).
  Proof. intro M. apply (proj1 (drawPairs_ext M)). eapply makeGraph_always; eauto. Qed.
  Lemma drawPairs_uniform : forall P, countPairs P pairs = m -> 0 <= m <= lim ->
    (Pr (drawPairs dflt dir n lim m f) (graphIs pairs P) ==
     inject_Z (zfact (Z.to_nat m)) * inject_Z (zfact (Z.to_nat (lim - m))) / inject_Z (zfact (Z.to_nat lim)))%Q.
  Proof. intros P C M. rewrite (proj2 (drawPairs_ext M)). apply makeGraph_uniform; auto. Qed.
End Draw.

Section RandomGraph.
  Variable E : Type.
  Variable dir : bool.
  Variable dflt : E.
  Variables n m : Z.
  Hypothesis N : 0 <= n.
  Hypothesis I64 : is_i64 (n * (n - 1)).
  Lemma graphLim_pos : 0 <= graphLim dir n <= I64_MAX.
  Proof. unfold graphLim. pose proof (graphLim2 n). unfold is_i64, I64_MIN, I64_MAX, two63 in *. destruct dir; nia. Qed.
  Lemma graphLim_i64 : is_i64 (graphLim dir n).
  Proof. pose proof graphLim_pos. unfold is_i64, I64_MIN, I64_MAX, two63 in *. lia. Qed.
  Lemma randomGraph_draw : randomGraph dflt dir n m = drawPairs dflt dir n (graphLim dir n) m (graphEdge dir n).
  Proof.
    unfold randomGraph, drawPairs. destruct (newGraph_rep E dir 0 n N) as (g0 & -> & _). rewrite chk_Ok by auto. cbn [lift RndModel.rbind].
    replace (if dir then n * (n - 1) else Z.quot (n * (n - 1)) 2) with (graphLim dir n); auto.
    unfold graphLim. destruct dir; auto. rewrite Z.quot_div_nonneg; auto; nia.
  Qed.
  Lemma graphEdge_code : forall x, 0 <= x < graphLim dir n -> graphEdge dir n x = Ok (graphCode dir n x).
  Proof.
    intros x X. pose proof graphLim_pos. assert (0 < n). { destruct (Z.eq_dec n 0) as [->|]; [|lia]. unfold graphLim in X. destruct dir; cbn in X; lia. }
    unfold graphEdge. rewrite cdiv_pos, crem_pos; try lia; [|mach; lia]. cbn [bind]. unfold graphCode. destruct dir; auto.
  Qed.
  Lemma allPairs_range : forall u v, In (u, v) (allPairs dir n) -> 0 <= u < n /\ 0 <= v < n /\ u <> v.
  Proof. intros u v I. apply allPairs_in in I. destruct dir; lia. Qed.
  Lemma randomGraph_always : 0 <= m <= graphLim dir n -> always (randomGraph dflt dir n m) (returns (fun g =>
    exists P, represents dir g 0 n (edgesBy dflt P) /\ edgeCount g = m)).
  Proof.
    intro M. rewrite randomGraph_draw. eapply returns_mono; [|apply (drawPairs_always E dir dflt n (graphLim dir n) m (allPairs dir n) (graphCode dir n))]; auto.
    - cbn. intros g (P & R & C & _). eauto.
    - apply graphLim_i64.
    - apply allPairs_range.
    - apply allPairs_same.
    - apply allPairs_NoDup.
    - apply graphCode_bij; auto.
    - apply graphEdge_code.
  Qed.
  Lemma randomGraph_uniform : forall P, countPairs P (allPairs dir n) = m -> 0 <= m <= graphLim dir n ->
    (Pr (randomGraph dflt dir n m) (graphIs (allPairs dir n) P) ==
     inject_Z (zfact (Z.to_nat m)) * inject_Z (zfact (Z.to_nat (graphLim dir n - m))) / inject_Z (zfact (Z.to_nat (graphLim dir n))))%Q.
  Proof.
    intros P C M. rewrite randomGraph_draw. apply (drawPairs_uniform E dir dflt n (graphLim dir n) m (allPairs dir n) (graphCode dir n)); auto.
    - apply graphLim_i64.
    - apply allPairs_range.
    - apply allPairs_same.
    - apply allPairs_NoDup.
    - apply graphCode_bij; auto.
    - apply graphEdge_code.
  Qed.
  Lemma randomGraph_throws : is_i64 m -> m < 0 \/ graphLim dir n < m -> randomGraph dflt dir n m = RRet Throw.
  Proof. intros IM M. rewrite randomGraph_draw. apply drawPairs_throws; auto; [apply graphLim_pos|apply graphLim_i64]. Qed.
  (* the bound is the number of pairs *)
  Lemma allPairs_len : alen (allPairs dir n) = graphLim dir n.
  Proof.
    pose proof (graphCode_bij dir n N) as B. apply Permutation_length in B. rewrite map_length, zseq_length in B. pose proof graphLim_pos. unfold alen. lia.
  Qed.
End RandomGraph.

Definition crossCode (dir : bool) (n m x : Z) : Z * Z :=
  if dir && (n * m <=? x) then (x / n + n - m, x mod n) else (x mod n, x / n + n).
Definition crossLim (dir : bool) (n m : Z) : Z := if dir then n * m * 2 else n * m.
Lemma crossPairs_in : forall dir n m u v, 0 <= n -> 0 <= m -> (In (u, v) (crossPairs dir n m) <->
  (0 <= u < n /\ n <= v < n + m) \/ (dir = true /\ 0 <= v < n /\ n <= u < n + m)).
Proof.
  intros dir n m u v N M. unfold crossPairs. rewrite filter_In, allPairs_in. cbn [fst snd].
  rewrite negb_true_iff, eqb_false_iff. destruct (u <? n) eqn:?, (v <? n) eqn:?, dir; intuition (try congruence; try lia).
Qed.
Lemma crossPairs_NoDup : forall dir n m, NoDup (crossPairs dir n m).
Proof. intros. apply NoDup_filter, allPairs_NoDup. Qed.
Lemma crossPairs_same : forall dir n m u v x y, In (u, v) (crossPairs dir n m) -> In (x, y) (crossPairs dir n m) -> samePair dir u v x y -> (u, v) = (x, y).
Proof. unfold crossPairs. intros dir n m u v x y I J. apply filter_In in I as (I & _). apply filter_In in J as (J & _). eapply allPairs_same; eauto. Qed.
Lemma crossPairs_range : forall dir n m u v, In (u, v) (crossPairs dir n m) -> 0 <= u < n + m /\ 0 <= v < n + m /\ u <> v.
Proof. unfold crossPairs. intros dir n m u v I. apply filter_In in I as (I & _). eapply allPairs_range; eauto. Qed.
Lemma crossCode_bij : forall dir n m, 0 <= n -> 0 <= m -> Permutation (map (crossCode dir n m) (zseq 0 (Z.to_nat (crossLim dir n m)))) (crossPairs dir n m).
Proof.
  intros dir n m N M.
  assert (NP : forall x, 0 <= x < crossLim dir n m -> 0 < n). { intros x X. destruct (Z.eq_dec n 0) as [->|]; [|lia]. unfold crossLim in X. destruct dir; cbn in X; lia. }
  assert (DV : forall x, 0 <= x < crossLim dir n m -> 0 <= x mod n < n /\ x = n * (x / n) + x mod n /\ 0 <= x / n).
  { intros x X. pose proof (NP x X). pose proof (Z.mod_pos_bound x n). pose proof (Z.div_mod x n). pose proof (Z.div_pos x n). repeat split; lia. }
  apply NoDup_Permutation; [|apply crossPairs_NoDup|].
  - apply NoDup_map_inj; [apply zseq_NoDup|]. intros x y I J. apply in_zseq in I. apply in_zseq in J.
    assert (X : 0 <= x < crossLim dir n m) by lia. assert (Y : 0 <= y < crossLim dir n m) by lia.
    destruct (DV x X) as (A1 & A2 & A3). destruct (DV y Y) as (B1 & B2 & B3). pose proof (NP x X) as N0. clear NP DV I J. unfold crossCode, crossLim in *.
    generalize dependent (x / n). generalize dependent (x mod n). generalize dependent (y / n). generalize dependent (y mod n). intros b B1 a B2 B3 d A1 c A2 A3.
    destruct (dir && (n * m <=? x)) eqn:U, (dir && (n * m <=? y)) eqn:V; intro Q; injection Q as Q1 Q2; destruct dir; cbn [andb] in *; nia.
  - intros [u v]. rewrite crossPairs_in, in_map_iff by auto. split.
    + intros (x & Q & I). apply in_zseq in I. assert (X : 0 <= x < crossLim dir n m) by lia. destruct (DV x X) as (A1 & A2 & A3). pose proof (NP x X) as N0. clear NP DV I. unfold crossCode, crossLim in *. revert Q.
      generalize dependent (x / n). generalize dependent (x mod n). intros d A1 c A2 A3.
      destruct (dir && (n * m <=? x)) eqn:U; intro Q; injection Q as Q1 Q2.
      * apply andb_true_iff in U as (-> & U). right. split; [auto|]. split; [lia|]. nia.
      * left. split; [lia|]. destruct dir; cbn [andb] in U; nia.
    + assert (DM : forall q r, 0 <= r < n -> (n * q + r) / n = q /\ (n * q + r) mod n = r).
      { intros q r R. split; [symmetry; eapply Z.div_unique; eauto; lia|symmetry; eapply Z.mod_unique; eauto; lia]. }
      unfold crossCode, crossLim. intros [(U & V)|(-> & V & U)].
      * exists (n * (v - n) + u). destruct (DM (v - n) u U) as (-> & ->). replace (n * m <=? n * (v - n) + u) with false by nia. rewrite andb_false_r.
        split; [f_equal; lia|]. apply in_zseq. destruct dir; nia.
      * exists (n * (u - n + m) + v). destruct (DM (u - n + m) v V) as (-> & ->). replace (n * m <=? n * (u - n + m) + v) with true by nia. cbn [andb].
        split; [f_equal; lia|]. apply in_zseq. nia.
Qed.

Section RandomBipartite.
  Variable E : Type.
  Variable dir : bool.
  Variable dflt : E.
  Variables n m k : Z.
  Hypothesis N : 0 <= n.
  Hypothesis M : 0 <= m.
  Hypothesis I64 : is_i64 (n * m * 2).
  Hypothesis I64' : is_i64 (n + m).
  Lemma crossLim_pos : 0 <= crossLim dir n m <= I64_MAX.
  Proof. unfold crossLim. unfold is_i64, I64_MIN, I64_MAX, two63 in *. destruct dir; nia. Qed.
  Lemma crossLim_i64 : is_i64 (crossLim dir n m).
  Proof. pose proof crossLim_pos. unfold is_i64, I64_MIN, I64_MAX, two63 in *. lia. Qed.
  Lemma cross_i64 : is_i64 (n * m).
  Proof. unfold is_i64, I64_MIN, I64_MAX, two63 in *. nia. Qed.
  Lemma randomBipartite_draw : randomBipartite dflt dir n m k = drawPairs dflt dir (n + m) (crossLim dir n m) k (bipartiteEdge dir n m).
  Proof.
    unfold randomBipartite, drawPairs. destruct (newGraph_rep E dir 0 (n + m)) as (g0 & -> & _); [lia|]. rewrite chk_Ok by apply cross_i64. cbn [lift RndModel.rbind].
    unfold crossLim. destruct dir; [rewrite chk_Ok by auto|]; cbn [RndModel.rbind]; reflexivity.
  Qed.
  Lemma bipartiteEdge_code : forall x, 0 <= x < crossLim dir n m -> bipartiteEdge dir n m x = Ok (crossCode dir n m x).
  Proof.
    intros x X. pose proof crossLim_pos. assert (0 < n). { destruct (Z.eq_dec n 0) as [->|]; [|lia]. unfold crossLim in X. destruct dir; cbn in X; lia. }
    unfold bipartiteEdge. rewrite cdiv_pos, crem_pos; try lia; [|mach; lia]. cbn [bind]. unfold crossCode.
    pose proof (Z.mod_pos_bound x n). pose proof (Z.div_mod x n). pose proof (Z.div_pos x n).
    assert (BD : x / n < if dir then 2 * m else m). { unfold crossLim in X. apply Z.div_lt_upper_bound; [lia|]. destruct dir; nia. }
    assert (L : is_i64 (x / n + n)). { destruct (Z.eq_dec m 0) as [->|]; [destruct dir; lia|]. clear H1. unfold is_i64, I64_MIN, I64_MAX, two63, crossLim in *. destruct dir; nia. }
    rewrite chk_Ok by auto. cbn [bind]. destruct dir; auto. rewrite chk_Ok by apply cross_i64. cbn [bind andb]. destruct (n * m <=? x); auto.
    rewrite chk_Ok; auto. unfold is_i64, I64_MIN, I64_MAX, two63 in *. lia.
  Qed.
  Lemma randomBipartite_always : 0 <= k <= crossLim dir n m -> always (randomBipartite dflt dir n m k) (returns (fun g =>
    exists P, represents dir g 0 (n + m) (edgesBy dflt P) /\ edgeCount g = k /\ forall u v, P u v = true -> (u < n /\ n <= v) \/ (v < n /\ n <= u))).
  Proof.
    intro K. rewrite randomBipartite_draw. eapply returns_mono; [|apply (drawPairs_always E dir dflt (n + m) (crossLim dir n m) k (crossPairs dir n m) (crossCode dir n m))]; auto; try lia.
    - cbn. intros g (P & R & C & H). exists P. split; [auto|]. split; [auto|]. intros u v Q. destruct (H u v Q) as (x & y & I & S). apply crossPairs_in in I; auto.
      unfold samePair in S. lia.
    - apply crossLim_i64.
    - apply crossPairs_range.
    - apply crossPairs_same.
    - apply crossPairs_NoDup.
    - apply crossCode_bij; auto.
    - apply bipartiteEdge_code.
  Qed.
  Lemma randomBipartite_uniform : forall P, countPairs P (crossPairs dir n m) = k -> 0 <= k <= crossLim dir n m ->
    (Pr (randomBipartite dflt dir n m k) (graphIs (crossPairs dir n m) P) ==
     inject_Z (zfact (Z.to_nat k)) * inject_Z (zfact (Z.to_nat (crossLim dir n m - k))) / inject_Z (zfact (Z.to_nat (crossLim dir n m))))%Q.
  Proof.
    intros P C K. rewrite randomBipartite_draw. apply (drawPairs_uniform E dir dflt (n + m) (crossLim dir n m) k (crossPairs dir n m) (crossCode dir n m)); auto; try lia.
    - apply crossLim_i64.
    - apply crossPairs_range.
    - apply crossPairs_same.
    - apply crossPairs_NoDup.
    - apply crossCode_bij; auto.
    - apply bipartiteEdge_code.
  Qed.
  Lemma randomBipartite_throws : is_i64 k -> k < 0 \/ crossLim dir n m < k -> randomBipartite dflt dir n m k = RRet Throw.
  Proof. intros IM K. rewrite randomBipartite_draw. apply drawPairs_throws; auto; [lia|apply crossLim_pos|apply crossLim_i64]. Qed.
  Lemma crossPairs_len : alen (crossPairs dir n m) = crossLim dir n m.
  Proof.
    pose proof (crossCode_bij dir n m N M) as B. apply Permutation_length in B. rewrite map_length, zseq_length in B. pose proof crossLim_pos. unfold alen. lia.
  Qed.
End RandomBipartite.
