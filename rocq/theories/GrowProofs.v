(* The law of randomGrowingGraph. *)
From Coq Require Import Permutation.
From Verif Require Import Base Tac RndModel RndLemmas RandSpec FloatModel FloatSpec FloatProofs RandIntModel RandIntProofs RandSeqModel SortLemmas ShuffleProofs DistinctProofs UniformProofs RealModel RealSpec RealProofs RealProofs2 RealProofs3 RealProofs4 RealProofs5.
From Verif Require Import GenModel GenSpec GenProofs GenProofs2 GenOpsModel GenProofs3 GenOpsProofs GenOpsProofs2 GenMakeModel GenMakeSpec GenMakeProofs GenRandSpec GenRandProofs GenRandProofs2 GrowSpec.
From Verif Require Import FloatSpec FloatProofs RealSpec RealModel RealProofs RealProofs2 RealProofs3 RealProofs4 RealProofs5 RealProofs7.
From Coq Require Import QArith Qpower Qfield Lqa Lia ZArith SpecFloat.
Open Scope Z_scope.

Lemma drawDegree_range : forall fuel p i, 0 <= i < 2 ^ 63 - 1 -> number p -> (0 <= val p <= 1)%Q -> always (drawDegree fuel p i) (orFuel (fun d => 0 <= d <= i)).
Proof.
  intros fuel p i I0 NP P. unfold drawDegree.
  destruct (ofZ_val (i + 1) ltac:(lia)) as (NI & VI). assert (Z0 : number rzero) by (split; reflexivity).
  assert (PI1 : (val rzero < val (ofZ (i + 1)))%Q) by (rewrite VI; change (val rzero) with (inject_Z 0); rewrite <- Zlt_Qlt; lia).
  eapply orFuel_bind; [apply realIn_range; auto|]. intros r (NR & R1 & R2). cbv beta. rewrite VI in R2. change (val rzero) with 0%Q in R1.
  destruct (rmul_shrinks p r NP NR R1 P) as ((VM & FM) & M1 & M2). destruct (truncZ_floor _ FM M1) as (z & TZ & Z1 & Z2 & _).
  assert (ZB : z < i + 1) by (rewrite Zlt_Qlt; lra). unfold castI. rewrite TZ. replace ((- 2 ^ 63 <=? z) && (z <? 2 ^ 63)) with true by lia. cbn. lia.
Qed.

Lemma forallb_ext_in : forall A (f g : A -> bool) l, (forall x, In x l -> f x = g x) -> forallb f l = forallb g l.
Proof. induction l as [|a l IH]; intro H; cbn; auto. rewrite H by (left; auto). rewrite IH; auto. intros. apply H. right. auto. Qed.

Section Grow.
  Variable E : Type.
  Variable dflt : E.
  Definition joinWith (i : Z) (l : list Z) (R : Z -> Z -> bool) (u v : Z) : bool :=
    R u v || ((u =? i) && existsb (Z.eqb v) l) || ((v =? i) && existsb (Z.eqb u) l).
  Lemma addPairs_join : forall g n R i l, represents false g 0 n (edgesBy dflt R) -> 0 <= i < n -> Forall (fun j => 0 <= j < i) l ->
    exists g', addPairs dflt false g (map (fun j => (i, j)) l) = Ok g' /\ represents false g' 0 n (edgesBy dflt (joinWith i l R)).
  Proof.
    intros g n R i l G I0 F. rewrite Forall_forall in F. set (l' := map (fun p => (fst p, snd p, dflt)) (map (fun j => (i, j)) l)).
    assert (IN : forall x y d, In (x, y, d) l' <-> x = i /\ In y l /\ d = dflt).
    { intros x y d. unfold l'. rewrite map_map, in_map_iff. cbn [fst snd]. split; [intros (j & Q & J); inv Q; auto|intros (-> & J & ->); eauto]. }
    destruct (addEdges_rep E false l' g _ 0 n G) as (g' & Q & R').
    - rewrite Forall_forall. intros [[x y] d] I. apply IN in I as (-> & I & _). specialize (F _ I). cbn [fst snd]. lia.
    - exists g'. split; [exact Q|]. eapply rep_ext; [exact R'|]. intros u v.
      destruct (existsb (fun e => samePairb false (fst (fst e)) (snd (fst e)) u v) l') eqn:X.
      + apply existsb_exists in X as ([[x y] d] & I & S). cbn [fst snd] in S. apply GenProofs.samePairb_iff in S.
        destruct (putAll_some E false l' (edgesBy dflt R) u v) as (a & b & c & I' & J' & ->); [eauto|]. apply IN in I' as (-> & IB & ->).
        unfold edgesBy. replace (joinWith i l R u v) with true; auto. symmetry. unfold joinWith. rewrite !orb_true_iff, !andb_true_iff, !existsb_exists.
        destruct J' as [(<- & <-)|(_ & <- & <-)].
        * left. right. split; [lia|]. exists b. split; auto. lia.
        * right. split; [lia|]. exists b. split; auto. lia.
      + assert (NO : forall x y d, In (x, y, d) l' -> ~ samePair false x y u v).
        { intros x y d I S. enough (existsb (fun e => samePairb false (fst (fst e)) (snd (fst e)) u v) l' = true) by congruence. apply existsb_exists. exists (x, y, d). split; auto. apply GenProofs.samePairb_iff. auto. }
        rewrite putAll_none by auto. unfold edgesBy. replace (joinWith i l R u v) with (R u v); auto. unfold joinWith.
        replace ((u =? i) && existsb (Z.eqb v) l) with false; [replace ((v =? i) && existsb (Z.eqb u) l) with false; [destruct (R u v); auto|]|]; symmetry; apply not_true_iff_false; rewrite andb_true_iff, existsb_exists; intros (A & y & IY & B).
        * apply (NO i y dflt); [apply IN; auto|]. right. split; auto. lia.
        * apply (NO i y dflt); [apply IN; auto|]. left. lia.
  Qed.
  Definition agree (R P : Z -> Z -> bool) (i : Z) : bool := forallb (fun q => Bool.eqb (R (fst q) (snd q)) (P (fst q) (snd q))) (allPairs false i).
  Lemma agree_iff : forall R P i, agree R P i = true <-> (forall u v, 0 <= u < v -> v < i -> R u v = P u v).
  Proof.
    intros R P i. unfold agree. rewrite forallb_forall. split.
    - intros H u v U V. specialize (H (u, v)). apply eqb_prop. apply H. apply allPairs_in. lia.
    - intros H [u v] I. apply allPairs_in in I. cbn [fst snd]. rewrite H by lia. apply eqb_reflx.
  Qed.
  Definition earlier (P : Z -> Z -> bool) (i : Z) : list Z := filter (fun j => P j i) (zseq 0 (Z.to_nat i)).
  Lemma earlier_in : forall P i j, In j (earlier P i) <-> 0 <= j < i /\ P j i = true.
  Proof. intros. unfold earlier. rewrite filter_In, in_zseq. intuition lia. Qed.
  Lemma agree_join : forall R P i l, 0 <= i -> (forall u v, R u v = true -> u < i /\ v < i) -> Forall (fun j => 0 <= j < i) l -> NoDup l ->
    agree (joinWith i l R) P (i + 1) = agree R P i && sortsTo (sort (earlier P i)) (Ok l).
  Proof.
    intros R P i l I0 B F ND. rewrite Forall_forall in F. apply eq_true_iff_eq. rewrite andb_true_iff, !agree_iff. unfold sortsTo.
    assert (S : (if list_eq_dec Z.eq_dec (sort l) (sort (earlier P i)) then true else false) = true <-> (forall j, In j l <-> In j (earlier P i))).
    { destruct (list_eq_dec Z.eq_dec (sort l) (sort (earlier P i))) as [S|S].
      - apply sort_eq_iff in S. split; auto. intros _ j. split; apply Permutation_in; auto. symmetry. auto.
      - split; [discriminate|]. intro H. destruct S. apply sort_eq_iff. apply NoDup_Permutation; auto. apply NoDup_filter, zseq_NoDup. }
    rewrite S. clear S.
    assert (J1 : forall u v, 0 <= u < v -> v < i -> joinWith i l R u v = R u v).
    { intros u v U V. unfold joinWith. replace (u =? i) with false by lia. replace (v =? i) with false by lia. cbn [andb]. rewrite !orb_false_r. auto. }
    assert (J2 : forall u, 0 <= u < i -> joinWith i l R u i = existsb (Z.eqb u) l).
    { intros u U. unfold joinWith. replace (u =? i) with false by lia. rewrite Z.eqb_refl. cbn [andb]. rewrite orb_false_r.
      destruct (R u i) eqn:RU; auto. apply B in RU. lia. }
    split.
    - intro H. split.
      + intros u v U V. rewrite <- H by lia. symmetry. auto.
      + intro j. rewrite earlier_in. split.
        * intro I. pose proof (F _ I) as FJ. split; auto. rewrite <- H by lia. rewrite J2 by lia. apply existsb_exists. exists j. split; auto. lia.
        * intros (JJ & PJ). rewrite <- H in PJ by lia. rewrite J2 in PJ by lia. apply existsb_exists in PJ as (x & IX & X). replace j with x by lia. auto.
    - intros (H1 & H2) u v U V. destruct (Z.eq_dec v i) as [->|NV].
      + rewrite J2 by lia. apply eq_true_iff_eq. rewrite existsb_exists. split.
        * intros (x & IX & X). replace x with u in IX by lia. apply H2 in IX. apply earlier_in in IX as (_ & IX). auto.
        * intro PU. exists u. split; [|lia]. apply H2. apply earlier_in. split; auto.
      + rewrite J1 by lia. apply H1; lia.
  Qed.
  Lemma joinWith_below : forall R i l, (forall u v, R u v = true -> u < i /\ v < i) -> Forall (fun j => 0 <= j < i) l -> forall u v, joinWith i l R u v = true -> u < i + 1 /\ v < i + 1.
  Proof.
    intros R i l B F u v. rewrite Forall_forall in F. unfold joinWith. rewrite !orb_true_iff, !andb_true_iff, !existsb_exists. intros [[H|(H & x & I & X)]|(H & x & I & X)]; [apply B in H|apply F in I|apply F in I]; lia.
  Qed.

  Definition growFactor (fuel : nat) (p : real) (P : Z -> Z -> bool) (i : Z) : Q :=
    (Pr (drawDegree fuel p i) (resultIs Z.eq_dec (backDegree P i)) *
     (inject_Z (zfact (Z.to_nat (backDegree P i))) * inject_Z (zfact (Z.to_nat (i - backDegree P i))) / inject_Z (zfact (Z.to_nat i))))%Q.
  Lemma growLoop_law : forall fuel n p P, n <= 2 ^ 63 - 1 -> number p -> (0 <= val p <= 1)%Q -> forall k i g R, 0 <= i -> i + Z.of_nat k = n ->
    represents false g 0 n (edgesBy dflt R) -> (forall u v, R u v = true -> u < i /\ v < i) ->
    (Pr (growLoop E dflt fuel k i p g) (graphIs (allPairs false n) P) == if agree R P i then prodFrom (growFactor fuel p P) i k else 0)%Q.
  Proof.
    intros fuel n p P N NP VP. induction k as [|k IH]; intros i g R I0 KN G B; cbn [growLoop prodFrom].
    - unfold Pr, ret. cbn [expect graphIs]. replace i with n in * by lia.
      replace (forallb _ (allPairs false n)) with (agree R P n); [reflexivity|]. unfold agree. apply forallb_ext_in. intros [u v] I. apply allPairs_in in I. cbn [fst snd].
      rewrite (has_rep E false g _ 0 n u v G) by lia. f_equal. unfold isEdge, edgesBy. destruct (R u v); auto.
    - set (t := earlier P i). set (c := (inject_Z (zfact (Z.to_nat (backDegree P i))) * inject_Z (zfact (Z.to_nat (i - backDegree P i))) / inject_Z (zfact (Z.to_nat i)))%Q).
      set (rest := prodFrom (growFactor fuel p P) (i + 1) k).
      transitivity (expect (drawDegree fuel p i) (fun o => if resultIs Z.eq_dec (backDegree P i) o then (if agree R P i then c * rest else 0) else 0))%Q.
      + unfold drawDegree. unfold Pr. rewrite !expect_bind.
        assert (RG := drawDegree_range fuel p i ltac:(lia) NP VP). unfold drawDegree in RG.
        assert (K : forall d, 0 <= d <= i -> (expect (let? neighbours := distinct d 0 i in let? res := lift (addPairs dflt false g (map (fun j => (i, j)) neighbours)) in growLoop E dflt fuel k (i + 1) p res)
             (fun o => if graphIs (allPairs false n) P o then 1 else 0) == if resultIs Z.eq_dec (backDegree P i) (Ok d) then (if agree R P i then c * rest else 0) else 0)%Q).
        { intros d D. rewrite expect_bind.
          transitivity (expect (distinct d 0 i) (fun o => (if agree R P i then rest else 0) * (if sortsTo (sort t) o then 1 else 0)))%Q.
          - apply expect_ext_always. eapply always_mono; [|apply (distinct_always d 0 i); mach; lia]. intros [l| | |]; cbn [returns]; try contradiction. intros (LL & ND & FL).
            destruct (addPairs_join g n R i l G ltac:(lia) FL) as (g' & -> & G'). cbn [lift RndModel.rbind].
            change (Pr (growLoop E dflt fuel k (i + 1) p g') (graphIs (allPairs false n) P) == (if agree R P i then rest else 0) * (if sortsTo (sort t) (Ok l) then 1 else 0))%Q.
            rewrite (IH (i + 1) g' _ ltac:(lia) ltac:(lia) G'); [|apply joinWith_below; auto]. rewrite agree_join by auto. fold rest t. destruct (agree R P i), (sortsTo (sort t) (Ok l)); cbn [andb]; ring.
          - rewrite expect_scale. cbn [resultIs]. change (expect (distinct d 0 i) (fun o => if sortsTo (sort t) o then 1 else 0))%Q with (Pr (distinct d 0 i) (sortsTo (sort t))).
            assert (NT : NoDup t) by (apply NoDup_filter, zseq_NoDup). assert (FT : Forall (fun x => 0 <= x < i) t) by (apply Forall_forall; intros x X; apply earlier_in in X; tauto).
            assert (LT : Z.of_nat (length t) = backDegree P i) by reflexivity.
            destruct (Z.eq_dec d (backDegree P i)) as [->|NE].
            + rewrite (distinct_uniform_set (backDegree P i) 0 i) by (auto; mach; lia). rewrite !Z.sub_0_r. fold c. destruct (agree R P i); ring.
            + assert (Z0 : (Pr (distinct d 0 i) (sortsTo (sort t)) == 0)%Q); [|rewrite Z0; ring]. unfold Pr. rewrite <- (expect_zero _ (distinct d 0 i)). apply expect_ext_always.
              eapply always_mono; [|apply (distinct_always d 0 i); mach; lia]. intros [l| | |]; cbn [returns]; try contradiction. intros (LL & _). unfold sortsTo.
              destruct (list_eq_dec Z.eq_dec (sort l) (sort t)) as [S|]; [|reflexivity]. apply sort_eq_iff in S. apply Permutation_length in S. lia. }
        apply expect_ext_always. apply always_bind_inv in RG. eapply always_mono; [|exact RG]. intros [r| | |]; cbn beta iota; auto; try (intros _; cbn [graphIs resultIs]; reflexivity).
        cbn [expect]. destruct (castI (rmul p r)) as [d| | |]; cbn [lift RndModel.rbind expect orFuel always]; try contradiction.
        * intro D. apply K. exact D.
        * intros _. cbn [graphIs resultIs]. reflexivity.
      + unfold growFactor at 1. fold c. unfold Pr.
        transitivity (expect (drawDegree fuel p i) (fun o => (if agree R P i then c * rest else 0) * (if resultIs Z.eq_dec (backDegree P i) o then 1 else 0)))%Q.
        * apply expect_ext. intro o. destruct (resultIs Z.eq_dec (backDegree P i) o); ring.
        * rewrite expect_scale. destruct (agree R P i); ring.
  Qed.
  Lemma randomGrowingGraph_law : forall fuel n p P, 0 <= n <= 2 ^ 63 - 1 -> number p -> (0 <= val p <= 1)%Q ->
    (Pr (randomGrowingGraph E dflt fuel n p) (graphIs (allPairs false n) P) == prodFrom (growFactor fuel p P) 0 (Z.to_nat n))%Q.
  Proof.
    intros fuel n p P N (VP & FP) V. unfold randomGrowingGraph.
    assert (C1 : SFleb rzero p = true) by (apply rle; auto; [reflexivity|apply V]). assert (C2 : SFleb p rone = true) by (apply rle; auto; [reflexivity|rewrite val_one; apply V]).
    rewrite C1, C2. cbn [andb judgeAssert lift RndModel.rbind]. destruct (newGraph_rep E false 0 n ltac:(lia)) as (g & -> & R). cbn [lift RndModel.rbind].
    rewrite (growLoop_law fuel n p P ltac:(lia) (conj VP FP) V (Z.to_nat n) 0 g (fun _ _ => false)); auto; try lia; match goal with |- (_ == _)%Q => reflexivity | |- _ => intros; discriminate end.
  Qed.
End Grow.
Lemma prodFrom_ext : forall f g k i, (forall j, i <= j < i + Z.of_nat k -> (f j == g j)%Q) -> (prodFrom f i k == prodFrom g i k)%Q.
Proof. induction k as [|k IH]; intros i H; cbn [prodFrom]; [reflexivity|]. rewrite (H i) by lia. rewrite (IH (i + 1)); [reflexivity|]. intros. apply H. lia. Qed.
Lemma randomGrowingGraph_same : forall E (dflt : E) fuel n p P Q, 0 <= n <= 2 ^ 63 - 1 -> number p -> (0 <= val p <= 1)%Q ->
  (forall i, 0 <= i < n -> backDegree P i = backDegree Q i) ->
  (Pr (randomGrowingGraph E dflt fuel n p) (graphIs (allPairs false n) P) == Pr (randomGrowingGraph E dflt fuel n p) (graphIs (allPairs false n) Q))%Q.
Proof.
  intros E dflt fuel n p P Q N NP V H. rewrite !randomGrowingGraph_law by auto. apply prodFrom_ext. intros j J. unfold growFactor. rewrite H by lia. reflexivity.
Qed.
