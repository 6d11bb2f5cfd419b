(* pruefer and randomTree as graphs. *)
From Verif Require Import Base BaseLemmas Tac RndModel RndLemmas GenModel GenSpec GenProofs GenProofs2 GenProofs3 GenOpsProofs.
From Verif Require Import GraphSpec GenMakeModel GenMakeSpec GenMakeProofs GenMakeProofs2 GenRandSpec GenRandProofs GenRandProofs2 GenTreeSpec GenTreeProofs GenTreeProofs2.
From Coq Require Import QArith Permutation Sorted.
Open Scope Z_scope.

Definition joinedb (F : list (Z * Z)) (u v : Z) : bool := existsb (fun e => samePairb false (fst e) (snd e) u v) F.
Lemma joinedb_iff : forall F u v, joinedb F u v = true <-> joined F u v.
Proof.
  intros. unfold joinedb, joined. rewrite existsb_exists. unfold samePairb. cbn [negb andb]. split.
  - intros ([x y] & I & Q). cbn [fst snd] in Q. assert ((x = u /\ y = v) \/ (x = v /\ y = u)) by lia. destruct H as [(-> & ->)|(-> & ->)]; auto.
  - intros [I|I]; [exists (u, v)|exists (v, u)]; split; auto; cbn [fst snd]; lia.
Qed.
Lemma pruefer_rep : forall E (dflt : E) code n, n = alen code + 2 -> (forall x, In x code -> 0 <= x < n) ->
  exists g F, pruefer dflt code = Ok g /\ pf (zseq 0 (Z.to_nat n)) code F /\ represents false g 0 n (edgesBy dflt (joinedb F)).
Proof.
  intros E dflt code n QN R. assert (N : 2 <= n) by (unfold alen in QN; lia). destruct (counts_init n code) as (count & CQ & CC); auto; [lia|].
  destruct (prueferLoop_pf n code (zseq 0 (Z.to_nat n)) count (-1) (-1)) as (F & LQ & HF); auto.
  - apply zseq_NoDup.
  - rewrite zseq_length. unfold alen in QN. lia.
  - intros x I. apply in_zseq. apply R in I. lia.
  - split; [lia|]. split; [intros v I; apply in_zseq in I; lia|]. split; [intros v I; apply in_zseq; lia|]. split; [|lia]. intros v I L. apply in_zseq in I. lia.
  - destruct (addPairs_rep E false dflt 0 n F (joinedb F)) as (g & GQ & GR); [lia| | |].
    + intros x y I. destruct (pf_in _ _ _ HF x y (or_introl I)) as (A & B & C). apply in_zseq in A. apply in_zseq in B. lia.
    + intros u v. rewrite joinedb_iff. unfold joined, samePair. split.
      * intros [I|I]; [exists u, v|exists v, u]; auto.
      * intros (x & y & I & [(-> & ->)|(_ & -> & ->)]); auto.
    + exists g, F. split; auto. unfold pruefer. rewrite <- QN. rewrite CQ. destruct (newGraph 0 n) as [g0| | |]; cbn [bind] in *; try discriminate. rewrite LQ. cbn [bind]. auto.
Qed.

(* ---- reading the graph ---- *)
Lemma conn_mono : forall E E' u v, (forall a b, joined E a b -> joined E' a b) -> conn E u v -> conn E' u v.
Proof.
  intros E E' u v I. induction 1; [apply conn_refl| |apply conn_sym; auto|eapply conn_trans; eauto].
  destruct (I a b (or_introl H)) as [J|J]; [|apply conn_sym]; apply conn_edge; auto.
Qed.
Lemma pairsOf_in : forall n P u v, In (u, v) (pairsOf n P) <-> 0 <= u < v /\ v < n /\ P u v = true.
Proof. intros. unfold pairsOf. rewrite filter_In, allPairs_in. cbn [fst snd]. intuition lia. Qed.
Lemma pairsOf_NoDup : forall n P, NoDup (pairsOf n P).
Proof. intros. apply NoDup_filter, allPairs_NoDup. Qed.
Lemma pairsOf_joined : forall n F u v, (forall u v, joined F u v -> 0 <= u < n /\ 0 <= v < n /\ u <> v) -> (joined (pairsOf n (joinedb F)) u v <-> joined F u v).
Proof.
  intros n F u v R. unfold joined at 1. rewrite !pairsOf_in, !joinedb_iff. split.
  - intros [(_ & _ & J)|(_ & _ & J)]; auto. apply joined_sym. auto.
  - intro J. destruct (R u v J) as (A & B & C). destruct (Z_lt_dec u v); [left|right]; (split; [lia|split; [lia|]]); auto. apply joined_sym. auto.
Qed.
Definition ord (e : Z * Z) : Z * Z := (Z.min (fst e) (snd e), Z.max (fst e) (snd e)).
Lemma ord_nodup : forall F, ForallOrdPairs (fun e f => ~ sameEdge e f) F -> NoDup (map ord F).
Proof.
  induction 1 as [|e F A H IH]; cbn [map]; constructor; auto. intro I. apply in_map_iff in I as (f & Q & I). rewrite Forall_forall in A. apply (A f I).
  destruct e as [a b], f as [c d]. unfold ord in Q. cbn [fst snd] in Q. injection Q as Q1 Q2. unfold sameEdge. cbn [fst snd].
  assert ((a = c /\ b = d) \/ (a = d /\ b = c)) as [(-> & ->)|(-> & ->)] by lia; auto.
Qed.
Lemma pairsOf_len : forall n F, (forall u v, joined F u v -> 0 <= u < n /\ 0 <= v < n /\ u <> v) -> ForallOrdPairs (fun e f => ~ sameEdge e f) F ->
  length (pairsOf n (joinedb F)) = length F.
Proof.
  intros n F R S. rewrite <- (map_length ord F). apply Permutation_length. apply NoDup_Permutation; [apply pairsOf_NoDup|apply ord_nodup; auto|].
  intros [u v]. rewrite pairsOf_in, joinedb_iff, in_map_iff. split.
  - intros (A & B & [I|I]); [exists (u, v)|exists (v, u)]; (split; auto); unfold ord; cbn [fst snd]; f_equal; lia.
  - intros ([x y] & Q & I). unfold ord in Q. cbn [fst snd] in Q. injection Q as Q1 Q2. destruct (R x y (or_introl I)) as (A & B & C).
    split; [lia|]. split; [lia|]. assert ((u = x /\ v = y) \/ (u = y /\ v = x)) as [(-> & ->)|(-> & ->)] by lia; [left|right]; auto.
Qed.
Lemma pf_range : forall n code F, pf (zseq 0 (Z.to_nat n)) code F -> forall u v, joined F u v -> 0 <= u < n /\ 0 <= v < n /\ u <> v.
Proof. intros n code F H u v J. apply (pf_in _ _ _ H) in J as (A & B & C). apply in_zseq in A. apply in_zseq in B. lia. Qed.
Lemma pf_tree : forall n code F, pf (zseq 0 (Z.to_nat n)) code F -> isTree n (joinedb F).
Proof.
  intros n code F H. pose proof (pf_range _ _ _ H) as R. split.
  - intros x y X Y. unfold node in *. apply (conn_mono F); [intros a b J; apply pairsOf_joined; auto|]. eapply pf_conn; eauto; apply in_zseq; lia.
  - unfold alen. rewrite pairsOf_len; auto; [|eapply pf_simple; eauto]. apply pf_len in H. rewrite zseq_length in H. lia.
Qed.

(* the number of edges of a graph *)
Lemma rep_count : forall E (g : graph E) n M, represents false g 0 n M -> edgeCount g = alen (pairsOf n (isEdge M)).
Proof.
  intros E g n M R. pose proof R as R0. apply rep_edges in R as (FO & R1 & R2). replace (edgeCount g) with (alen (map (fun p => ord (fst p)) (getEdges g))) by (unfold edgeCount, getEdges, alen; rewrite !map_length; auto).
  unfold alen. f_equal. apply Permutation_length. apply NoDup_Permutation; [|apply pairsOf_NoDup|].
  - replace (map (fun p => ord (fst p)) (getEdges g)) with (map ord (map fst (getEdges g))) by (rewrite map_map; auto). apply ord_nodup. apply FOP_map.
    revert FO. generalize (getEdges g) as l. induction 1 as [|p l A H IH]; constructor; auto. eapply Forall_impl; [|exact A]. intros [[a b] c] D Q. apply D. destruct p as [[x y] z]. unfold samePair. cbn [fst snd] in *.
    destruct Q as [Q|Q]; injection Q as -> ->; auto.
  - intros [u v]. rewrite pairsOf_in, in_map_iff. split.
    + intros ([[x y] d] & Q & I). unfold ord in Q. cbn [fst snd] in Q. injection Q as Q1 Q2. destruct (R1 x y d I) as (MX & A & B & C). split; [lia|]. split; [lia|].
      unfold isEdge. assert (M u v = Some d); [|rewrite H; auto]. apply R2. exists x, y. split; auto. unfold samePair. assert ((x = u /\ y = v) \/ (x = v /\ y = u)) as [(-> & ->)|(-> & ->)] by lia; auto.
    + intros (A & B & C). unfold isEdge in C. destruct (M u v) as [d|] eqn:Q; [|discriminate]. apply R2 in Q as (x & y & I & S). exists (x, y, d). split; auto. unfold ord. cbn [fst snd]. unfold samePair in S. f_equal; lia.
Qed.
(* and the degrees *)
Lemma rep_degree : forall E (g : graph E) dflt n F v, represents false g 0 n (edgesBy dflt (joinedb F)) -> (forall u v, joined F u v -> u <> v) ->
  ForallOrdPairs (fun e f => ~ sameEdge e f) F -> 0 <= v < n -> degree g v = Ok (deg v F).
Proof.
  intros E g dflt n F v R NL S V. destruct (rep_observe E false g _ _ _ [CDegree v] R) as (g' & l & X & A). { constructor; auto. }
  cbn [grun gstep] in X. destruct (degree g v) as [d| | |]; try discriminate. cbn [bind] in X. inv X. inv A. f_equal.
  match goal with H : neighbourList _ _ _ |- _ => destruct H as (SS & NB) end. match goal with H : ganswers _ _ _ _ |- _ => clear H end.
  assert (NDF : NoDup (map fst n0)).
  { clear - SS. induction n0 as [|[a b] n0 IH]; cbn [map fst] in *; constructor.
    - inv SS. rewrite Forall_forall in H2. intro I. apply in_map_iff in I as ([c d] & Q & I). cbn [fst] in Q. subst c. specialize (H2 (Z.lxor v a)). assert (Z.lxor v a < Z.lxor v a); [|lia]. apply H2. apply in_map_iff. exists (a, d). auto.
    - inv SS. auto. }
  unfold deg, alen. f_equal. rewrite <- (map_length fst n0). rewrite <- (map_length (fun e => if fst e =? v then snd e else fst e) (filter (incident v) F)).
  apply Permutation_length. apply NoDup_Permutation; auto.
  - revert S NL. clear. induction F as [|[x y] F IH]; intros S NL; cbn [filter map]; [constructor|]. inv S. assert (IHF : NoDup (map (fun e => if fst e =? v then snd e else fst e) (filter (incident v) F))). { apply IH; auto. intros a b J. apply NL. apply joined_cons. auto. }
    assert (XY : x <> y) by (apply NL; apply joined_cons; auto).
    destruct (incident v (x, y)) eqn:C; auto. cbn [map fst snd]. constructor; auto. intro I. apply in_map_iff in I as ([a b] & Q & I). apply filter_In in I as (I & C'). rewrite Forall_forall in H1. apply (H1 _ I).
    unfold incident, sameEdge in *. cbn [fst snd] in *. assert (a <> b) by (apply NL; apply joined_cons; right; right; left; auto).
    assert ((x = a /\ y = b) \/ (x = b /\ y = a)) as [(-> & ->)|(-> & ->)]; auto. destruct (a =? v) eqn:?, (x =? v) eqn:?; lia.
  - intro a. rewrite !in_map_iff. split.
    + intros ([c d] & <- & I). apply NB in I. cbn [fst]. unfold edgesBy in I. destruct (joinedb F v c) eqn:J; [|discriminate]. apply joinedb_iff in J. pose proof (NL _ _ J). destruct J as [J|J].
      * exists (v, c). cbn [fst snd]. rewrite Z.eqb_refl. split; auto. apply filter_In. split; auto. unfold incident. cbn [fst snd]. lia.
      * exists (c, v). cbn [fst snd]. replace (c =? v) with false by lia. split; auto. apply filter_In. split; auto. unfold incident. cbn [fst snd]. lia.
    + intros ([x y] & Q & I). apply filter_In in I as (I & C). unfold incident in C. cbn [fst snd] in *. exists (a, dflt). split; auto. apply NB. unfold edgesBy. replace (joinedb F v a) with true; auto. symmetry. apply joinedb_iff.
      destruct (x =? v) eqn:XV. * apply Z.eqb_eq in XV. subst. left; auto. * assert (y = v) by lia. subst. right; auto.
Qed.

(* ---- one code, one tree ---- *)
Lemma pf_det : forall V code E1, pf V code E1 -> forall E2, pf V code E2 -> forall u v, joined E1 u v <-> joined E2 u v.
Proof.
  induction 1 as [V x y N L X Y NE|V x y code E N X Y NY MN H IH]; intros E2 H2 u v.
  - inv H2. rewrite !joined_cons. assert (T : forall v, In v V -> v = x \/ v = y).
    { intros z I. destruct (Z.eq_dec z x); auto. destruct (Z.eq_dec z y); auto. exfalso.
      assert (NN : NoDup [z; x; y]). { repeat constructor; cbn; intuition congruence. }
      apply (NoDup_incl_length (l' := V)) in NN; [cbn in NN; lia|]. intros q [<-|[<-|[<-|[]]]]; auto. }
    destruct (T x0), (T y0); auto; subst; try tauto; intuition congruence.
  - inv H2. assert (y0 = y). { assert (y <= y0) by auto. assert (y0 <= y) by auto. lia. } subst y0. rewrite !joined_cons. rewrite (IH E0) by auto. tauto.
Qed.

Lemma graphIs_iff : forall E (g : graph E) n M P, represents false g 0 n M ->
  (graphIs (allPairs false n) P (Ok g) = true <-> forall u v, 0 <= u < v -> v < n -> isEdge M u v = P u v).
Proof.
  intros E g n M P R. unfold graphIs. rewrite forallb_forall. split.
  - intros H u v A B. specialize (H (u, v)). cbn [fst snd] in H. rewrite (has_rep E false g M 0 n u v) in H by (auto; lia). apply eqb_prop. apply H. apply allPairs_in. lia.
  - intros H [u v] I. apply allPairs_in in I. cbn [fst snd]. rewrite (has_rep E false g M 0 n u v) by (auto; lia). rewrite H by lia. apply eqb_reflx.
Qed.
(* the code of a tree *)
Lemma isTree_on : forall n P, 0 <= n -> isTree n P -> treeOn (zseq 0 (Z.to_nat n)) (pairsOf n P).
Proof.
  intros n P N (C & L). split; [apply zseq_NoDup|]. split; [apply pairsOf_NoDup|]. split; [|split].
  - intros u v I. apply pairsOf_in in I. rewrite !in_zseq. lia.
  - intros u v U V. apply in_zseq in U. apply in_zseq in V. apply C; unfold node; lia.
  - rewrite zseq_length. unfold alen in L. lia.
Qed.
Lemma tree_pf : forall n P, 2 <= n -> isTree n P -> exists c F, pf (zseq 0 (Z.to_nat n)) c F /\ length c = Z.to_nat (n - 2) /\ forall u v, joined (pairsOf n P) u v <-> joined F u v.
Proof.
  intros n P N T. apply tree_code; [rewrite zseq_length; lia|]. apply isTree_on; auto. lia.
Qed.
Lemma pruefer_is : forall E (dflt : E) n P c F code, n = alen code + 2 -> (forall x, In x code -> 0 <= x < n) -> pf (zseq 0 (Z.to_nat n)) c F ->
  (forall u v, joined (pairsOf n P) u v <-> joined F u v) -> (graphIs (allPairs false n) P (pruefer dflt code) = true <-> code = c).
Proof.
  intros E dflt n P c F code QN R H J. destruct (pruefer_rep E dflt code n QN R) as (g & F' & -> & H' & GR). rewrite (graphIs_iff E g n _ P GR).
  assert (IE : forall u v, isEdge (edgesBy dflt (joinedb F')) u v = joinedb F' u v). { intros. unfold isEdge, edgesBy. destruct (joinedb F' u v); auto. }
  split.
  - intro A. eapply pf_inj; [exact H'|exact H|tauto|]. intros u v. rewrite <- J. rewrite <- (pairsOf_joined n F') by (eapply pf_range; eauto).
    unfold joined. rewrite !pairsOf_in. assert (forall a b, 0 <= a < b -> b < n -> (joinedb F' a b = true <-> P a b = true)). { intros a b X Y. rewrite <- A by auto. rewrite IE. tauto. }
    assert (forall a b, 0 <= a < b /\ b < n /\ joinedb F' a b = true <-> 0 <= a < b /\ b < n /\ P a b = true). { intros a b. specialize (H0 a b). tauto. } rewrite !H1. tauto.
  - intros ->. intros u v U V. rewrite IE. pose proof (pf_det _ _ _ H' F H u v) as D. rewrite <- joinedb_iff, <- J in D. unfold joined in D. rewrite !pairsOf_in in D.
    destruct (joinedb F' u v), (P u v); auto.
    + destruct (proj1 D eq_refl) as [(_ & _ & X)|X]; [discriminate|lia].
    + apply (proj2 D). auto.
Qed.

(* ---- random codes ---- *)
Lemma inject_pow : forall n k, 0 < n -> (inject_Z n * inject_Z (n ^ Z.of_nat k) == inject_Z (n ^ Z.of_nat (S k)))%Q.
Proof. intros n k N. rewrite <- inject_Z_mult. rewrite Nat2Z.inj_succ, Z.pow_succ_r by lia. reflexivity. Qed.
Lemma codes_point : forall k n c (F : outcome (list Z) -> Q) w, 0 < n -> length c = k -> Forall (fun x => 0 <= x < n) c ->
  (F (Ok c) == w)%Q -> (forall l, length l = k -> Forall (fun x => 0 <= x < n) l -> l <> c -> (F (Ok l) == 0)%Q) ->
  (expect (codes k n) F == w / inject_Z (n ^ Z.of_nat k))%Q.
Proof.
  induction k as [|k IH]; intros n c F w N L R FC FO.
  - destruct c; [|discriminate]. cbn [codes ret expect]. rewrite FC. cbn. field.
  - destruct c as [|a c]; [discriminate|]. inversion R as [|? ? RA RC]; subst. cbn [codes]. rewrite expect_bind, expect_rint by auto.
    rewrite (qsum_single _ _ _ a (w / inject_Z (n ^ Z.of_nat k))).
    + rewrite Z.sub_0_r, <- inject_pow by auto. field. split; apply inject_Z_nonzero; [|lia]. pose proof (Z.pow_pos_nonneg n (Z.of_nat k)). lia.
    + apply zseq_NoDup.
    + apply in_zseq. lia.
    + rewrite expect_bind. apply (IH n c); auto. intros l LL RL NE. cbn [ret expect]. apply FO; cbn [length]; auto. congruence.
    + intros x X XA. rewrite expect_bind. apply in_zseq in X.
      transitivity (0 / inject_Z (n ^ Z.of_nat k))%Q; [|field; apply inject_Z_nonzero; pose proof (Z.pow_pos_nonneg n (Z.of_nat k)); lia].
      apply (IH n c); auto; [cbn [ret expect]; apply FO; cbn [length]; auto; try congruence; constructor; auto; lia|].
      intros l LL RL NE. cbn [ret expect]. apply FO; cbn [length]; auto; [constructor; auto; lia|congruence].
Qed.
Lemma codes_always : forall k n, 0 < n -> always (codes k n) (returns (fun l => length l = k /\ Forall (fun x => 0 <= x < n) l)).
Proof.
  induction k as [|k IH]; intros n N; cbn [codes]; [apply returns_ret; auto|]. eapply returns_bind; [apply returns_rint; auto|]. intros x X.
  eapply returns_bind; [apply IH; auto|]. intros l (L & R). apply returns_ret. cbn [length]. auto.
Qed.

Lemma randomTree_always : forall E (dflt : E) n, 1 <= n -> always (randomTree dflt n) (returns (fun g =>
  exists P, represents false g 0 n (edgesBy dflt P) /\ isTree n P /\ edgeCount g = n - 1)).
Proof.
  intros E dflt n N. assert (CNT : forall g P, represents false g 0 n (edgesBy dflt P) -> isTree n P -> edgeCount g = n - 1).
  { intros g P R (_ & L). rewrite (rep_count E g n _ R), <- L. unfold pairsOf. f_equal. apply filter_ext. intros [u v]. unfold isEdge, edgesBy. cbn [fst snd]. destruct (P u v); auto. }
  unfold randomTree. destruct (n <=? 2) eqn:Q.
  - destruct (clique_rep E false dflt n) as (g & -> & R); [lia|]. cbn [lift always returns].
    match type of R with represents _ _ _ _ (edgesBy _ ?p) => exists p end.
    assert (T : isTree n (fun u v => inside 0 n u && inside 0 n v && negb (u =? v))).
    { assert (n = 1 \/ n = 2) as [-> | ->] by lia; (split; [|reflexivity]); intros x y X Y; unfold node in *.
      - replace x with y by lia. apply conn_refl.
      - assert (K : conn (pairsOf 2 (fun u v => inside 0 2 u && inside 0 2 v && negb (u =? v))) 0 1) by (apply conn_edge; left; auto).
        assert ((x = 0 \/ x = 1) /\ (y = 0 \/ y = 1)) as ([-> | ->] & [-> | ->]) by lia; try apply conn_refl; auto. apply conn_sym. auto. }
    split; auto. split; auto. eapply CNT; eauto.
  - eapply returns_bind; [apply codes_always; lia|]. intros l (L & R). rewrite Forall_forall in R. destruct (pruefer_rep E dflt l n) as (g & F & -> & HF & GR); auto; [unfold alen; lia|].
    cbn [lift always returns]. exists (joinedb F). split; auto. pose proof (pf_tree _ _ _ HF) as T. split; auto. eapply CNT; eauto.
Qed.
Lemma randomTree_uniform : forall E (dflt : E) n P, 2 <= n -> isTree n P ->
  (Pr (randomTree dflt n) (graphIs (allPairs false n) P) == 1 / inject_Z (n ^ (n - 2)))%Q.
Proof.
  intros E dflt n P N T. unfold Pr, randomTree. destruct (n <=? 2) eqn:Q.
  - assert (n = 2) by lia. subst n. destruct (clique_rep E false dflt 2) as (g & -> & R); [lia|]. cbn [lift expect].
    assert (G : graphIs (allPairs false 2) P (Ok g) = true); [|rewrite G; reflexivity].
    apply (graphIs_iff E g 2 _ P R). intros u v U V. assert (u = 0 /\ v = 1) as (-> & ->) by lia. destruct T as (_ & L). destruct (P 0 1) eqn:PQ; auto. exfalso. unfold pairsOf in L. change (allPairs false 2) with [(0, 1)] in L. cbn [filter fst snd] in L. rewrite PQ in L. unfold alen in L. cbn in L. lia.
  - destruct (tree_pf n P N T) as (c & F & HF & LC & J). assert (RC : Forall (fun x => 0 <= x < n) c). { apply Forall_forall. intros x I. apply (pf_incl _ _ _ HF) in I. apply in_zseq in I. lia. }
    rewrite expect_bind. replace (n - 2) with (Z.of_nat (Z.to_nat (n - 2))) at 2 by lia. rewrite (codes_point (Z.to_nat (n - 2)) n c _ 1); auto; [reflexivity|lia| |].
    + cbn [lift expect]. assert (G : graphIs (allPairs false n) P (pruefer dflt c) = true); [|rewrite G; reflexivity]. eapply pruefer_is; eauto; [unfold alen; lia|]. rewrite Forall_forall in RC. auto.
    + intros l L R NE. cbn [lift expect]. destruct (graphIs (allPairs false n) P (pruefer dflt l)) eqn:G; [|reflexivity]. exfalso. apply NE. rewrite Forall_forall in R. eapply pruefer_is; [| |exact HF|exact J|exact G]; auto. unfold alen. lia.
Qed.

(* ---- the statements about pruefer ---- *)
Lemma pruefer_tree : forall E (dflt : E) code, (forall x, In x code -> 0 <= x < alen code + 2) ->
  exists g P, pruefer dflt code = Ok g /\ represents false g 0 (alen code + 2) (edgesBy dflt P) /\ isTree (alen code + 2) P /\
    (forall v, 0 <= v < alen code + 2 -> degree g v = Ok (1 + occurrences v code)).
Proof.
  intros E dflt code R. destruct (pruefer_rep E dflt code _ eq_refl R) as (g & F & Q & HF & GR). exists g, (joinedb F). split; auto. split; auto. split; [eapply pf_tree; eauto|].
  intros v V. rewrite (rep_degree E g dflt (alen code + 2) F v GR); auto.
  - rewrite (pf_deg _ _ _ HF) by (apply in_zseq; lia). auto.
  - intros a b J. apply (pf_range _ _ _ HF) in J. tauto.
  - eapply pf_simple; eauto.
Qed.
Lemma pruefer_code : forall E (dflt : E) code, (forall x, In x code -> 0 <= x < alen code + 2) ->
  exists g F, pruefer dflt code = Ok g /\ prueferCode (zseq 0 (length code + 2)) F code /\ forall u v, 0 <= u < alen code + 2 -> 0 <= v < alen code + 2 -> (hasEdge g u v = Ok true <-> joined F u v).
Proof.
  intros E dflt code R. destruct (pruefer_rep E dflt code _ eq_refl R) as (g & F & Q & HF & GR). exists g, F. split; auto. split.
  - replace (length code + 2)%nat with (Z.to_nat (alen code + 2)) by (unfold alen; lia). apply pf_spec. auto.
  - intros u v U V. rewrite (has_rep E false g _ 0 (alen code + 2) u v GR) by auto. rewrite <- joinedb_iff. unfold isEdge, edgesBy. destruct (joinedb F u v); split; congruence.
Qed.
Lemma pruefer_bijective : forall E (dflt : E) n P, 2 <= n -> isTree n P ->
  exists c, alen c = n - 2 /\ (forall x, In x c -> 0 <= x < n) /\
    forall code, alen code = n - 2 -> (forall x, In x code -> 0 <= x < n) -> (graphIs (allPairs false n) P (pruefer dflt code) = true <-> code = c).
Proof.
  intros E dflt n P N T. destruct (tree_pf n P N T) as (c & F & HF & LC & J). exists c. split; [unfold alen; lia|]. split; [intros x I; apply (pf_incl _ _ _ HF) in I; apply in_zseq in I; lia|].
  intros code L R. eapply pruefer_is; eauto. lia.
Qed.
