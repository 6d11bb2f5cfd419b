(* Random graphs with a given number of edges. *)
From Verif Require Import Base Tac RndModel RndLemmas RandSpec RandSeqModel SortLemmas DistinctProofs.
From Verif Require Import GenModel GenSpec GenProofs GenProofs2 GenOpsModel GenProofs3 GenOpsProofs GenOpsProofs2 GenOpsProofs3.
From Verif Require Import GenMakeModel GenMakeSpec GenMakeProofs GenMakeProofs2 GenMakeProofs3 GenRandSpec.
From Coq Require Import QArith Sorted Permutation.
From Verif Require Import RandSeqModel.
Open Scope Z_scope.

Lemma has_rep : forall E dir (g : graph E) M lo hi u v, represents dir g lo hi M -> lo <= u < hi -> lo <= v < hi -> hasEdge g u v = Ok (isEdge M u v).
Proof.
  intros E dir g M lo hi u v R U V. destruct (rep_observe E dir g _ _ _ [CHas u v] R) as (g' & l & X & A). { constructor; auto. cbn. auto. }
  cbn [grun gstep] in X. destruct (hasEdge g u v) as [b| | |]; try discriminate. cbn [bind] in X. inv X. inv A. auto.
Qed.

(* programs that draw distinct numbers and then go on without further draws *)
Lemma codes_uniform : forall A (G : list Z -> outcome A) (ev : outcome A -> bool) count upper T,
  is_i64 upper -> 0 <= count <= upper -> StronglySorted Z.lt T -> Z.of_nat (length T) = count -> Forall (fun x => 0 <= x < upper) T ->
  ev Throw = false -> ev UB = false -> ev Fuel = false ->
  (forall l, Z.of_nat (length l) = count -> NoDup l -> Forall (fun x => 0 <= x < upper) l -> (ev (G l) = true <-> (forall x, In x l <-> In x T))) ->
  (Pr (let? c := distinct count 0 upper in lift (G c)) ev ==
   inject_Z (zfact (Z.to_nat count)) * inject_Z (zfact (Z.to_nat (upper - count))) / inject_Z (zfact (Z.to_nat upper)))%Q.
Proof.
  intros A G ev count upper T U C TS TL TR E1 E2 E3 H.
  assert (I0 : is_i64 0) by (mach; lia).
  pose proof (increasing_uniform count 0 upper I0 U ltac:(lia) ltac:(lia) T TL TS TR) as Q. rewrite Z.sub_0_r in Q. rewrite <- Q.
  unfold increasing, Pr. rewrite expect_ret_bind, expect_bind. apply expect_ext_always.
  eapply always_mono; [|apply (distinct_always count 0 upper I0 U); lia].
  intros [l| | |] R; cbn [returns] in R; try contradiction. destruct R as (L & N & F). unfold lift. cbn [expect].
  assert (EQ : ev (G l) = resultIs (list_eq_dec Z.eq_dec) T (Ok (sort l))).
  { unfold resultIs. destruct (lt_sorted T TS) as (TL2 & TN). specialize (H l L N F). destruct (list_eq_dec Z.eq_dec (sort l) T) as [D|D].
    - apply H. intro x. rewrite <- D. split; intro I; [eapply Permutation_in; [apply sort_perm|exact I]|eapply Permutation_in; [apply Permutation_sym, sort_perm|exact I]].
    - destruct (ev (G l)) eqn:EV; auto. exfalso. apply D. destruct H as (H & _). specialize (H eq_refl).
      rewrite <- (sort_id T TL2). apply sort_eq_iff. apply NoDup_Permutation; auto. }
  rewrite EQ. reflexivity.
Qed.

Lemma perm_filter : forall A (p : A -> bool) l l', Permutation l l' -> Permutation (filter p l) (filter p l').
Proof.
  induction 1 as [|x l l' H IH|x y l|l l' l'' H1 IH1 H2 IH2]; cbn [filter].
  - constructor.
  - destruct (p x); auto.
  - destruct (p x), (p y); auto. constructor.
  - eapply perm_trans; eauto.
Qed.

Section Pairs.
  Variable E : Type.
  Variable dir : bool.
  Variable dflt : E.
  Variables (n lim : Z) (pairs : list (Z * Z)) (code : Z -> Z * Z).
  Hypothesis N : 0 <= n.
  Hypothesis PR : forall u v, In (u, v) pairs -> 0 <= u < n /\ 0 <= v < n /\ u <> v.
  Hypothesis PD : forall u v x y, In (u, v) pairs -> In (x, y) pairs -> samePair dir u v x y -> (u, v) = (x, y).
  Hypothesis ND : NoDup pairs.
  (* the codes are a bijection onto the pairs *)
  Hypothesis CB : Permutation (map code (zseq 0 (Z.to_nat lim))) pairs.

  Definition makeGraph (l : list Z) : outcome (graph E) :=
    let! res := newGraph 0 n in addPairs dflt dir res (map code l).
  Lemma code_in : forall x, 0 <= x < lim -> In (code x) pairs.
  Proof. intros x X. eapply Permutation_in; [exact CB|]. apply in_map. apply in_zseq. lia. Qed.
  Lemma code_inj : forall x y, 0 <= x < lim -> 0 <= y < lim -> code x = code y -> x = y.
  Proof.
    intros x y X Y Q. assert (NM : NoDup (map code (zseq 0 (Z.to_nat lim)))) by (eapply Permutation_NoDup; [apply Permutation_sym; exact CB|exact ND]).
    assert (NI : forall l, NoDup (map code l) -> In x l -> In y l -> x = y).
    { induction l as [|z l IH]; intros NN I J; [destruct I|]. cbn [map] in NN. inv NN. destruct I as [I|I], J as [J|J]; subst; auto.
      - exfalso. apply H1. rewrite Q. apply in_map. auto.
      - exfalso. apply H1. rewrite <- Q. apply in_map. auto. }
    apply (NI _ NM); apply in_zseq; lia.
  Qed.
  Definition codeMap (l : list Z) (u v : Z) : bool := existsb (fun x => samePairb dir (fst (code x)) (snd (code x)) u v) l.
  Lemma samePairb_iff : forall u v x y, samePairb dir u v x y = true <-> samePair dir u v x y.
  Proof. intros. unfold samePairb, samePair. destruct dir; cbn [negb andb orb]; [rewrite orb_false_r|rewrite orb_true_iff]; rewrite ?andb_true_iff, ?Z.eqb_eq; intuition congruence. Qed.
  Lemma codeMap_iff : forall l u v, codeMap l u v = true <-> exists x, In x l /\ samePair dir (fst (code x)) (snd (code x)) u v.
  Proof. intros. unfold codeMap. rewrite existsb_exists. split; intros (x & I & J); exists x; split; auto; apply samePairb_iff; auto. Qed.
  Lemma makeGraph_rep : forall l, Forall (fun x => 0 <= x < lim) l -> exists g, makeGraph l = Ok g /\ represents dir g 0 n (edgesBy dflt (codeMap l)).
  Proof.
    intros l F. rewrite Forall_forall in F. unfold makeGraph. apply addPairs_rep; auto.
    - intros x y I. apply in_map_iff in I as (c & Q & I). apply PR. rewrite <- Q. apply code_in. auto.
    - intros u v. rewrite codeMap_iff. split.
      + intros (c & I & J). exists (fst (code c)), (snd (code c)). split; auto. apply in_map_iff. exists c. split; auto. destruct (code c); auto.
      + intros (x & y & I & J). apply in_map_iff in I as (c & Q & I). exists c. rewrite Q. auto.
  Qed.
  (* a pair of the list is joined iff its code was drawn *)
  Lemma codeMap_code : forall l x, Forall (fun x => 0 <= x < lim) l -> 0 <= x < lim -> (codeMap l (fst (code x)) (snd (code x)) = true <-> In x l).
  Proof.
    intros l x F X. rewrite Forall_forall in F. rewrite codeMap_iff. split.
    - intros (y & I & J). pose proof (code_in x X) as IX. pose proof (code_in y (F y I)) as IY. destruct (code x) as [a b] eqn:QX. destruct (code y) as [c d] eqn:QY.
      cbn [fst snd] in J. rewrite (code_inj x y); auto. rewrite QX, QY. symmetry. apply PD; auto.
    - intro I. exists x. split; auto. left. auto.
  Qed.
  Lemma makeGraph_count : forall l, Forall (fun x => 0 <= x < lim) l -> NoDup l -> exists g, makeGraph l = Ok g /\ edgeCount g = alen l.
  Proof.
    intros l F NL. destruct (makeGraph_rep l F) as (g & Q & R). exists g. split; auto. rewrite Forall_forall in F.
    apply rep_edges in R as (FO & R1 & R2). replace (edgeCount g) with (alen (getEdges g)) by (unfold edgeCount, getEdges, alen; rewrite map_length; auto).
    unfold alen. f_equal.
    (* every edge listed has exactly one code and every code exactly one edge *)
    assert (DS : forall x y d, In (x, y, d) (getEdges g) -> exists c, In c l /\ samePair dir (fst (code c)) (snd (code c)) x y).
    { intros x y d I. apply R1 in I as (I & _). unfold edgesBy in I. destruct (codeMap l x y) eqn:CM; [|discriminate]. apply codeMap_iff. auto. }
    assert (DC : forall c, In c l -> exists x y, In (x, y, dflt) (getEdges g) /\ samePair dir x y (fst (code c)) (snd (code c))).
    { intros c I. apply R2. unfold edgesBy. replace (codeMap l _ _) with true; auto. symmetry. apply codeMap_iff. exists c. split; auto. left. auto. }
    set (h := fun p : Z * Z * E => match find (fun c => samePairb dir (fst (code c)) (snd (code c)) (fst (fst p)) (snd (fst p))) l with Some c => c | None => -1 end).
    assert (HH : forall p, In p (getEdges g) -> In (h p) l /\ samePair dir (fst (code (h p))) (snd (code (h p))) (fst (fst p)) (snd (fst p))).
    { intros [[x y] d] I. unfold h. cbn [fst snd]. destruct (find _ l) as [c|] eqn:FD.
      - apply find_some in FD as (I' & S'). apply samePairb_iff in S'. auto.
      - exfalso. destruct (DS x y d I) as (c & IC & SC). apply (find_none _ _ FD) in IC. apply samePairb_iff in SC. cbn beta in IC. congruence. }
    assert (P : Permutation (map h (getEdges g)) l).
    { apply NoDup_Permutation; auto.
      - (* distinct edges have distinct codes *)
        assert (GEN : forall es, (forall p, In p es -> In p (getEdges g)) -> ForallOrdPairs (diffPairs E dir) es -> NoDup (map h es)).
        { induction es as [|p es IH]; intros SUB FE; cbn [map]; constructor; inv FE.
          - intro I. apply in_map_iff in I as (q & Q1 & I). rewrite Forall_forall in H1. apply (H1 q I).
            destruct (HH p) as (_ & S1); [apply SUB; left; auto|]. destruct (HH q) as (_ & S2); [apply SUB; right; auto|]. rewrite Q1 in S2. sp.
          - apply IH; auto. intros; apply SUB; right; auto. }
        apply GEN; auto.
      - intro c. split.
        + intro I. apply in_map_iff in I as (p & <- & I). apply HH. auto.
        + intro I. destruct (DC c I) as (x & y & IE & S1). apply in_map_iff. exists (x, y, dflt). split; auto. destruct (HH (x, y, dflt) IE) as (IH & S2). cbn [fst snd] in S2.
          apply code_inj; auto. pose proof (code_in _ (F _ IH)) as A. pose proof (code_in _ (F _ I)) as B.
          destruct (code (h (x, y, dflt))) as [a b]. destruct (code c) as [a' b']. cbn [fst snd] in *. apply PD; auto. sp. }
    apply Permutation_length in P. rewrite map_length in P. auto.
  Qed.

  Variable m : Z.
  Hypothesis I64 : is_i64 lim.
  Lemma makeGraph_always : 0 <= m <= lim -> always (let? c := distinct m 0 lim in lift (makeGraph c)) (returns (fun g =>
    exists P, represents dir g 0 n (edgesBy dflt P) /\ edgeCount g = m /\
      (forall u v, P u v = true -> exists x y, In (x, y) pairs /\ samePair dir x y u v))).
  Proof.
    intro M. apply (returns_bind _ _ _ _ (fun l => Z.of_nat (length l) = m /\ NoDup l /\ Forall (fun x => 0 <= x < lim) l)).
    - apply distinct_always; auto; mach; lia.
    - intros l (L & NL & F). destruct (makeGraph_rep l F) as (g & Q & R). destruct (makeGraph_count l F NL) as (g' & Q' & C). rewrite Q in *. inv Q'.
      cbn [lift always returns]. exists (codeMap l). split; auto. split; [exact C|]. intros u v CM. apply codeMap_iff in CM as (c & I & S). exists (fst (code c)), (snd (code c)). split; auto.
      rewrite Forall_forall in F. pose proof (code_in c (F c I)). destruct (code c). auto.
  Qed.
  Lemma makeGraph_uniform : forall P, countPairs P pairs = m -> 0 <= m <= lim ->
    (Pr (let? c := distinct m 0 lim in lift (makeGraph c)) (graphIs pairs P) ==
     inject_Z (zfact (Z.to_nat m)) * inject_Z (zfact (Z.to_nat (lim - m))) / inject_Z (zfact (Z.to_nat lim)))%Q.
  Proof.
    intros P CP M. apply (codes_uniform _ makeGraph (graphIs pairs P) m lim (filter (fun x => P (fst (code x)) (snd (code x))) (zseq 0 (Z.to_nat lim)))); auto.
    - clear. assert (H : forall k lo (p : Z -> bool), StronglySorted Z.lt (filter p (zseq lo k))).
      { induction k as [|k IH]; intros lo p; cbn [zseq filter]; [constructor|]. destruct (p lo); auto. constructor; auto. apply Forall_forall. intros x I. apply filter_In in I as (I & _). apply in_zseq in I. lia. }
      apply H.
    - rewrite <- CP. unfold countPairs, alen. f_equal.
      assert (PF : Permutation (filter (fun p => P (fst p) (snd p)) (map code (zseq 0 (Z.to_nat lim)))) (filter (fun p => P (fst p) (snd p)) pairs)).
      { apply perm_filter. exact CB. }
      apply Permutation_length in PF. rewrite <- PF. generalize (zseq 0 (Z.to_nat lim)) as l. induction l as [|x l IH]; cbn [filter map]; auto. destruct (P _ _); cbn [length]; auto.
    - apply Forall_forall. intros x I. apply filter_In in I as (I & _). apply in_zseq in I. lia.
    - intros l L NL F. destruct (makeGraph_rep l F) as (g & -> & R). unfold graphIs. rewrite forallb_forall.
      assert (STEP : forall x, 0 <= x < lim -> (match hasEdge g (fst (code x)) (snd (code x)) with Ok b => Bool.eqb b (P (fst (code x)) (snd (code x))) | _ => false end = true <-> (In x l <-> P (fst (code x)) (snd (code x)) = true))).
      { intros x X. pose proof (code_in x X) as IX. destruct (code x) as [a b] eqn:QX. apply PR in IX as (A & B & _). cbn [fst snd]. rewrite (has_rep _ _ _ _ _ _ _ _ R A B), isEdge_by.
        pose proof (codeMap_code l x F X) as CC. rewrite QX in CC. cbn [fst snd] in CC. rewrite <- CC. rewrite eqb_true_iff. destruct (codeMap l a b), (P a b); intuition congruence. }
      split.
      + intros H x. rewrite filter_In, in_zseq. split.
        * intro I. rewrite Forall_forall in F. pose proof (F x I) as X. split; [lia|]. apply STEP; auto. apply H. apply code_in. auto.
        * intros (X & PX). assert (X' : 0 <= x < lim) by lia. apply STEP in PX; auto. apply H. apply code_in. auto.
      + intros H [u v] I. cbn [fst snd]. assert (exists x, 0 <= x < lim /\ code x = (u, v)) as (x & X & Q).
        { eapply Permutation_in in I; [|apply Permutation_sym; exact CB]. apply in_map_iff in I as (x & Q & I). apply in_zseq in I. exists x. split; auto. lia. }
        specialize (STEP x X). rewrite Q in STEP. cbn [fst snd] in STEP. apply STEP. rewrite H, filter_In, in_zseq, Q. cbn [fst snd]. intuition lia.
  Qed.
End Pairs.
