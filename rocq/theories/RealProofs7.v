(* randomGraph(n, p), randomGrowingGraph. *)
From Verif Require Import Tac RndModel RndLemmas FloatModel FloatSpec FloatProofs RandIntModel RandIntProofs RandSeqModel DistinctProofs RealModel RealSpec RealProofs RealProofs2 RealProofs3 RealProofs4 RealProofs5.
From Verif Require Import GenModel GenSpec GenProofs GenProofs2 GenOpsModel GenProofs3 GenOpsProofs GenMakeModel GenMakeSpec GenMakeProofs GenRandSpec GenRandProofs2.
From Verif Require Import FloatSpec FloatProofs RealSpec RealModel RealProofs RealProofs2 RealProofs3 RealProofs4 RealProofs5.
From Coq Require Import QArith Qpower Qfield Lqa Lia ZArith SpecFloat.
Open Scope Z_scope.

Section Graphs.
  Variable sqrt log log1p lgamma : real -> real.
  Variable lgammaZ : Z -> real.
  Variable unspecified : real -> Z.
  Variable E : Type.
  Variable dflt : E.

  Lemma randomGraphP_range : forall dir fuel fuel' n p, (fuel' <= 15)%nat -> 0 <= n -> is_i64 (n * (n - 1)) -> number p -> (0 <= val p <= 1)%Q ->
    SFleb rzero (log1p (ropp (lesser p))) = true \/ stepsFit log (log1p (ropp (lesser p))) (n * (n - 1) / 2) ->
    always (randomGraphP sqrt log log1p lgamma lgammaZ unspecified E dflt dir fuel fuel' n p)
      (orFuel (fun g => exists P, represents dir g 0 n (edgesBy dflt P) /\ 0 <= edgeCount g <= n * (n - 1) / 2)).
  Proof.
    intros dir fuel fuel' n p F N I NP P H. unfold randomGraphP. rewrite chk_Ok by auto. cbn [lift rbind]. assert (N2 : 0 <= n * (n - 1)) by nia.
    rewrite Z.quot_div_nonneg by lia. assert (H2 : 0 <= n * (n - 1) / 2 < 2 ^ 63 - 1) by (set (k := n * (n - 1)) in *; mach; lia).
    eapply orFuel_bind; [apply binomial_range; auto|]. intros m M. cbv beta in M.
    eapply always_mono; [|apply (randomGraph_always E dir dflt n m); auto].
    - intros [g| | |]; cbn [returns orFuel]; auto. intros (Q & R & C). exists Q. rewrite C. auto.
    - unfold graphLim. destruct dir; [|lia]. set (k := n * (n - 1)) in *. lia.
  Qed.
  Lemma randomGraphP_one : forall dir fuel fuel' n, 0 <= n -> is_i64 (n * (n - 1)) -> SFleb rzero (log1p (S754_zero true)) = true ->
    always (randomGraphP sqrt log log1p lgamma lgammaZ unspecified E dflt dir fuel fuel' n rone)
      (returns (fun g => exists P, represents dir g 0 n (edgesBy dflt P) /\ edgeCount g = n * (n - 1) / 2)).
  Proof.
    intros dir fuel fuel' n N I L. unfold randomGraphP. rewrite chk_Ok by auto. cbn [lift rbind]. assert (N2 : 0 <= n * (n - 1)) by nia.
    rewrite Z.quot_div_nonneg by lia. assert (H2 : 0 <= n * (n - 1) / 2 < 2 ^ 63 - 1) by (set (k := n * (n - 1)) in *; mach; lia).
    rewrite binomial_one by (auto; lia). cbn [ret rbind]. apply randomGraph_always; auto. unfold graphLim. destruct dir; [|lia]. set (k := n * (n - 1)) in *. lia.
  Qed.

  Lemma randomGraphP_throws : forall dir fuel fuel' n p, 0 <= n -> is_i64 (n * (n - 1)) -> realOk p -> isfinite p = false \/ (val p < 0)%Q \/ (1 < val p)%Q ->
    randomGraphP sqrt log log1p lgamma lgammaZ unspecified E dflt dir fuel fuel' n p = RRet Throw.
  Proof.
    intros dir fuel fuel' n p N I VP H. unfold randomGraphP. rewrite chk_Ok by auto. cbn [lift rbind]. rewrite binomial_throws; auto.
  Qed.
  Lemma putAll_dflt : forall l (M : emap E), (forall u v d, M u v = Some d -> d = dflt) -> Forall (fun p => snd p = dflt) l ->
    forall u v d, putAll E false M l u v = Some d -> d = dflt.
  Proof.
    induction l as [|[[x y] c] l IH]; intros M HM F u v d; cbn [putAll]; [apply HM|]. inv F. cbn [snd] in *. apply IH; auto.
    intros u' v' d'. unfold put. match goal with |- context [if ?c then _ else _] => destruct c end; [intro K; inv K; auto|apply HM].
  Qed.
  Lemma addPairs_more : forall g n P l, represents false g 0 n (edgesBy dflt P) -> (forall x y, In (x, y) l -> 0 <= x < n /\ 0 <= y < n /\ x <> y) ->
    exists g' P', addPairs dflt false g l = Ok g' /\ represents false g' 0 n (edgesBy dflt P').
  Proof.
    intros g n P l R F. destruct (addEdges_rep E false (map (fun p => (fst p, snd p, dflt)) l) g _ 0 n R) as (g' & Q & R').
    - rewrite Forall_map, Forall_forall. intros [x y] I. cbn [fst snd]. auto.
    - exists g', (fun u v => isEdge (putAll E false (edgesBy dflt P) (map (fun p => (fst p, snd p, dflt)) l)) u v). split; [exact Q|].
      eapply rep_ext; [exact R'|]. intros u v. unfold edgesBy at 2, isEdge. destruct (putAll _ _ _ _ u v) as [d|] eqn:K; auto. f_equal.
      eapply putAll_dflt; [| |exact K].
      + intros u' v' d'. unfold edgesBy. destruct (P u' v'); [|discriminate]. intro K'. inv K'. auto.
      + rewrite Forall_map, Forall_forall. auto.
  Qed.

  Lemma growLoop_range : forall fuel n p, n <= 2 ^ 63 - 1 -> number p -> (0 <= val p <= 1)%Q -> forall k i g P, 0 <= i -> i + Z.of_nat k = n -> represents false g 0 n (edgesBy dflt P) ->
    always (growLoop E dflt fuel k i p g) (orFuel (fun g => exists P, represents false g 0 n (edgesBy dflt P))).
  Proof.
    intros fuel n p N NP P. induction k as [|k IH]; intros i g Q I0 KN R; cbn [growLoop]; [cbn; eauto|].
    destruct (ofZ_val (i + 1) ltac:(lia)) as (NI & VI). assert (Z0 : number rzero) by (split; reflexivity).
    assert (PI1 : (val rzero < val (ofZ (i + 1)))%Q) by (rewrite VI; change (val rzero) with (inject_Z 0); rewrite <- Zlt_Qlt; lia).
    eapply orFuel_bind; [apply realIn_range; auto|]. intros r (NR & R1 & R2). cbv beta. rewrite VI in R2. change (val rzero) with 0%Q in R1.
    destruct (rmul_shrinks p r NP NR R1 P) as ((VM & FM) & M1 & M2). destruct (truncZ_floor _ FM M1) as (z & TZ & Z1 & Z2 & _).
    assert (ZB : z < i + 1) by (rewrite Zlt_Qlt; lra). unfold castI. rewrite TZ. replace ((- 2 ^ 63 <=? z) && (z <? 2 ^ 63)) with true by lia. cbn [lift rbind].
    eapply (orFuel_bind _ _ _ _ (fun l => Forall (fun x => 0 <= x < i) l)).
    - eapply always_mono; [|apply (distinct_always z 0 i); mach; lia]. intros [l| | |]; cbn; auto. tauto.
    - intros l FL. cbv beta in FL. destruct (addPairs_more g n Q (map (fun j => (i, j)) l) R) as (g' & Q' & -> & R').
      + intros x y I. apply in_map_iff in I as (j & K & I). inv K. rewrite Forall_forall in FL. specialize (FL _ I). lia.
      + cbn [lift rbind]. eapply IH; eauto; lia.
  Qed.
  Lemma randomGrowingGraph_range : forall fuel n p, 0 <= n <= 2 ^ 63 - 1 -> number p -> (0 <= val p <= 1)%Q ->
    always (randomGrowingGraph E dflt fuel n p) (orFuel (fun g => exists P, represents false g 0 n (edgesBy dflt P))).
  Proof.
    intros fuel n p N (VP & FP) P. unfold randomGrowingGraph.
    assert (C1 : SFleb rzero p = true) by (apply rle; auto; [reflexivity|apply P]). assert (C2 : SFleb p rone = true) by (apply rle; auto; [reflexivity|rewrite val_one; apply P]).
    rewrite C1, C2. cbn [andb judgeAssert lift rbind]. destruct (newGraph_rep E false 0 n ltac:(lia)) as (g & -> & R). cbn [lift rbind].
    apply growLoop_range with (P := fun _ _ => false); auto; try lia. split; auto.
  Qed.
  Lemma randomGrowingGraph_throws : forall fuel n p, realOk p -> n < 0 \/ isfinite p = false \/ (val p < 0)%Q \/ (1 < val p)%Q -> randomGrowingGraph E dflt fuel n p = RRet Throw.
  Proof.
    intros fuel n p VP H. unfold randomGrowingGraph. destruct (SFleb rzero p && SFleb p rone) eqn:C; [|reflexivity]. cbn [judgeAssert lift rbind].
    apply andb_true_iff in C as (C1 & C2). destruct (isfinite p) eqn:F.
    - apply rle in C1; auto; [|reflexivity]. apply rle in C2; auto; [|reflexivity]. rewrite val_one in C2. change (val rzero) with 0%Q in C1.
      destruct H as [H|[H|[H|H]]]; [|discriminate|lra|lra]. rewrite newGraph_throws by lia. reflexivity.
    - destruct p as [s|[]| |]; discriminate.
  Qed.
End Graphs.
