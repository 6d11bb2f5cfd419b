(* The graph operations map represented graphs to represented graphs. *)
From Verif Require Import Base Tac RndModel RndLemmas GenModel GenSpec GenProofs GenProofs2 GenOpsModel GenProofs3.
From Coq Require Import Sorted.

Lemma zseq_FOP : forall n lo, ForallOrdPairs Z.lt (zseq lo n).
Proof. induction n as [|n IH]; intro lo; cbn [zseq]; constructor; auto. apply Forall_forall. intros y I. apply in_zseq in I. lia. Qed.
Lemma option_eq : forall A (x y : option A), (forall d, x = Some d <-> y = Some d) -> x = y.
Proof.
  intros A [x|] y H; [symmetry; apply H; auto|]. destruct y as [y|]; auto. apply H. auto.
Qed.
Lemma isEdge_true : forall E (M : emap E) u v, isEdge M u v = true <-> exists d, M u v = Some d.
Proof. intros. unfold isEdge. destruct (M u v) as [d|]; split; eauto; [discriminate|]. intros (d & Q). discriminate. Qed.
Lemma isEdge_false : forall E (M : emap E) u v, isEdge M u v = false <-> M u v = None.
Proof. intros. unfold isEdge. destruct (M u v) as [d|]; split; auto; discriminate. Qed.
Lemma flip_if : forall A (x y : A) (b : bool), (if b then x else y) = x \/ (if b then x else y) = y.
Proof. destruct b; auto. Qed.

Ltac sp := unfold samePair in *; cbn [fst snd] in *; intuition (try congruence; try lia).

Section Ops.
  Variable E : Type.
  Variable dir : bool.
  Implicit Types (es : list (edge E)) (e f : edge E) (s : list nat) (g : graph E) (M : emap E).
  Notation pairOf := (pairOf E).
  Notation edgeOf := (edgeOf E).
  Notation diffPairs := (diffPairs E dir).

  Definition pairIn (lo hi : Z) (p : Z * Z * E) : Prop := lo <= fst (fst p) < hi /\ lo <= snd (fst p) < hi /\ fst (fst p) <> snd (fst p).
  (* the pairs list M *)
  Definition lists M (l : list (Z * Z * E)) : Prop :=
    forall u v d, M u v = Some d <-> exists x y, In (x, y, d) l /\ samePair dir x y u v.

  Lemma build_pairs : forall a es m M lo hi, Forall (fun s => s = []) a -> m = lo -> lo + alen a = hi ->
    Forall (pairIn lo hi) (map pairOf es) -> ForallOrdPairs diffPairs (map pairOf es) -> lists M (map pairOf es) ->
    exists a', buildAdj dir (mkGraph a es m) = Ok (mkGraph a' es m) /\ represents dir (mkGraph a' es m) lo hi M.
  Proof.
    intros a es m M lo hi C ML H F P L. apply build_ok; auto.
    - rewrite Forall_map in F. eapply Forall_impl; [|exact F]. intros e (A & B & D). unfold GenProofs.okEdge, inRange. subst m. rewrite H. auto.
    - rewrite FOP_map in P. exact P.
    - intros u v d. rewrite (L u v d). split.
      + intros (x & y & I & J). apply in_map_iff in I as (e & Q & I). inv Q. exists e. auto.
      + intros (e & I & J & <-). exists (efrom e), (eto e). split; auto. apply in_map_iff. exists e. auto.
  Qed.
  Lemma clear_empty : forall (a : list (list nat)), Forall (fun s => s = []) (map (fun _ => @nil nat) a).
  Proof. intro a. apply Forall_forall. intros s I. apply in_map_iff in I as (x & <- & _). auto. Qed.
  Lemma clear_len : forall (a : list (list nat)), alen (map (fun _ => @nil nat) a) = alen a.
  Proof. intro a. unfold alen. rewrite map_length. auto. Qed.
  Lemma rep_len : forall g M lo hi, represents dir g lo hi M -> minId g = lo /\ lo + alen (adj g) = hi /\ lo <= hi /\ nodeCount g = hi - lo.
  Proof. intros g M lo hi (A & B & _). unfold nodeCount. unfold alen in *. split; auto. split; auto. lia. Qed.
  Lemma rep_pairIn : forall g M lo hi, represents dir g lo hi M -> Forall (pairIn lo hi) (getEdges g).
  Proof.
    intros g M lo hi R. apply rep_edges in R as (_ & R & _). apply Forall_forall. intros [[u v] d] I. destruct (R u v d I) as (_ & X). exact X.
  Qed.

  (* copying the graph rebuilds the sets *)
  Lemma copy_rep : forall g M lo hi, represents dir g lo hi M -> exists g', copy dir g = Ok g' /\ represents dir g' lo hi M /\ getEdges g' = getEdges g.
  Proof.
    intros g M lo hi R. destruct (rep_len _ _ _ _ R) as (ML & NC & _). pose proof (rep_pairIn _ _ _ _ R) as PI. apply rep_edges in R as (P & _ & L).
    unfold copy, clearAdj. destruct (build_pairs (map (fun _ => []) (adj g)) (edges g) (minId g) M lo hi) as (a' & -> & R'); auto.
    - apply clear_empty.
    - rewrite clear_len. auto.
    - eexists. split; [reflexivity|]. split; auto.
  Qed.

  (* 203-216 *)
  Lemma setMinId_rep : forall g M lo hi n, represents dir g lo hi M ->
    exists g', setMinId dir g n = Ok g' /\ represents dir g' n (n + (hi - lo)) (fun u v => M (u - n + lo) (v - n + lo)).
  Proof.
    intros g M lo hi n R. destruct (rep_len _ _ _ _ R) as (ML & NC & _). pose proof (rep_pairIn _ _ _ _ R) as PI. apply rep_edges in R as (P & _ & L).
    unfold setMinId, mapEdges, clearAdj. cbn [adj edges minId].
    assert (MP : map pairOf (map (shiftEdge (minId g) n) (edges g)) = map (fun p => (fst (fst p) - lo + n, snd (fst p) - lo + n, snd p)) (getEdges g)).
    { unfold getEdges. rewrite !map_map. apply map_ext. intro e. unfold shiftEdge, GenProofs3.pairOf. rewrite efrom_mk, ML. reflexivity. }
    destruct (build_pairs (map (fun _ => []) (adj g)) (map (shiftEdge (minId g) n) (edges g)) n (fun u v => M (u - n + lo) (v - n + lo)) n (n + (hi - lo))) as (a' & -> & R'); auto.
    - apply clear_empty.
    - rewrite clear_len. lia.
    - rewrite MP, Forall_map. eapply Forall_impl; [|exact PI]. unfold pairIn. intros p. cbn [fst snd]. lia.
    - rewrite MP, FOP_map. eapply FOP_ext; [|exact P]. intros p q _ _. unfold GenProofs3.diffPairs. cbn [fst snd]. intros H1 H2. apply H1.
      sp.
    - rewrite MP. intros u v d. rewrite (L (u - n + lo) (v - n + lo) d). split.
      + intros (x & y & I & J). exists (x - lo + n), (y - lo + n). split; [apply in_map_iff; exists (x, y, d); auto|]. sp.
      + intros (x & y & I & J). apply in_map_iff in I as ([[a b] c] & Q & I). cbn [fst snd] in Q. inv Q. exists a, b. split; auto. sp.
    - eexists. split; [reflexivity|auto].
  Qed.
  Lemma normalize_rep : forall g M lo hi, represents dir g lo hi M ->
    exists g', normalize dir g = Ok g' /\ represents dir g' 0 (hi - lo) (fun u v => M (u + lo) (v + lo)).
  Proof.
    intros g M lo hi R. destruct (setMinId_rep g M lo hi 0 R) as (g' & Q & R'). exists g'. split; auto.
    eapply rep_ext; [exact R'|]. intros u v. cbn beta. rewrite !Z.sub_0_r. auto.
  Qed.

  (* 226-237, right when nodes start at 0 *)
  Lemma range_rep : forall g M hi from to, represents dir g 0 hi M -> from <= to ->
    exists g', range dir g from to = Ok g' /\
      represents dir g' from to (fun u v => if (from <=? u) && (u <? to) && (from <=? v) && (v <? to) then M u v else None).
  Proof.
    intros g M hi from to R H. destruct (rep_len _ _ _ _ R) as (ML & NC & HH & NC2). pose proof R as R0. apply rep_edges in R as (P & RE & L).
    unfold range. replace (from <=? to) with true by lia. cbn [judgeAssert bind].
    destruct (new_rep E dir from to H) as (g0 & -> & R1). cbn [bind]. rewrite ML, NC2.
    set (fl := filter _ _).
    assert (IF : forall u v d, In (u, v, d) fl <-> In (u, v, d) (getEdges g) /\ from <= u < to /\ from <= v < to).
    { intros u v d. unfold fl. rewrite filter_In. split.
      - intros [I X]. split; auto. lia.
      - intros (I & X & Y). split; auto. destruct (RE u v d I) as (_ & A & B & _). lia. }
    destruct (addEdges_rep E dir fl g0 (fun _ _ => None) from to R1) as (g' & Q & R').
    - apply Forall_forall. intros [[u v] d] I. apply IF in I as (I & X & Y). cbn [fst snd]. split; auto. split; auto. apply RE in I. tauto.
    - exists g'. split; [exact Q|]. eapply rep_ext; [exact R'|]. intros u v.
      assert (PF : ForallOrdPairs diffPairs fl) by (apply FOP_filter; auto).
      destruct ((from <=? u) && (u <? to) && (from <=? v) && (v <? to)) eqn:B.
      + destruct (M u v) as [d|] eqn:Q1.
        * apply L in Q1 as (x & y & I & J). eapply putAll_distinct; eauto. apply IF. split; auto. unfold samePair in J. lia.
        * rewrite putAll_none; auto. intros x y d I J. apply IF in I as (I & _). assert (M u v = Some d) by (apply L; eauto). congruence.
      + rewrite putAll_none; auto. intros x y d I J. apply IF in I as (I & X & Y). unfold samePair in J. lia.
  Qed.
  Lemma range_throws : forall g from to, to < from -> range dir g from to = Throw.
  Proof. intros. unfold range. replace (from <=? to) with false by lia. reflexivity. Qed.

  (* new nodes on both sides *)
  Lemma extend_rep : forall g M lo hi a b, represents dir g lo hi M ->
    represents dir (mkGraph (repeat [] a ++ adj g ++ repeat [] b) (edges g) (lo - Z.of_nat a)) (lo - Z.of_nat a) (hi + Z.of_nat b) M.
  Proof.
    intros g M lo hi a b R. pose proof R as (ML & NC & SY & EL & RG & AD). split; [reflexivity|]. split.
    { cbn [adj]. unfold alen in *. rewrite !app_length, !repeat_length. lia. }
    split; [auto|]. split; [exact EL|]. split.
    { intros u v I. apply RG in I. lia. }
    intros u U. cbn [adj edges]. replace (u - (lo - Z.of_nat a)) with (u - lo + Z.of_nat a) by lia. unfold aget. replace (u - lo + Z.of_nat a <? 0) with false by lia.
    assert (NOE : ~ lo <= u < hi -> forall i, ~ exists e, nth_error (edges g) i = Some e /\ (Z.lxor (ekey e) (eto e) = u \/ (dir = false /\ eto e = u))).
    { intros O i (e & N & X). apply nth_error_In in N. destruct EL as (E1 & _). 
      assert (M (Z.lxor (ekey e) (eto e)) (eto e) = Some (edat e)) by (apply E1; apply in_map_iff; exists e; auto).
      destruct (RG (Z.lxor (ekey e) (eto e)) (eto e)) as (A & B & _); [unfold isEdge; rewrite H; auto|]. destruct X as [X|[_ X]]; rewrite X in *; lia. }
    destruct (Z_lt_dec u lo) as [C1|C1]; [|destruct (Z_lt_dec u hi) as [C2|C2]].
    - exists []. rewrite nth_error_app1 by (rewrite repeat_length; lia). split.
      + rewrite nth_error_repeat by lia. auto.
      + split; [constructor|]. intro i. split; [intros []|]. intro X. exfalso. eapply NOE; [|exact X]. lia.
    - destruct (AD u) as (s & G & SO & I); [lia|]. exists s. split; [|auto]. rewrite nth_error_app2 by (rewrite repeat_length; lia). rewrite repeat_length.
      unfold aget in G. replace (u - lo <? 0) with false in G by lia. unfold alen in NC.
      replace (Z.to_nat (u - lo + Z.of_nat a) - a)%nat with (Z.to_nat (u - lo)) by lia. rewrite nth_error_app1 by lia. exact G.
    - exists []. unfold alen in NC. rewrite nth_error_app2 by (rewrite repeat_length; lia). rewrite nth_error_app2 by (rewrite repeat_length; lia). split.
      + rewrite repeat_length, nth_error_repeat by lia. auto.
      + split; [constructor|]. intro i. split; [intros []|]. intro X. exfalso. eapply NOE; [|exact X]. lia.
  Qed.

  (* 361-375 *)
  Lemma putAll_rep : forall g M lo hi o O lo' hi', represents dir o lo' hi' O -> represents dir g lo hi M -> lo <= lo' -> hi' <= hi ->
    exists g', addEdges dir g (getEdges o) = Ok g' /\ represents dir g' lo hi (fun u v => match O u v with Some d => Some d | None => M u v end).
  Proof.
    intros g M lo hi o O lo' hi' RO R H1 H2. pose proof (rep_pairIn _ _ _ _ RO) as PI. pose proof RO as RO'. apply rep_edges in RO as (P & RE & L).
    destruct (addEdges_rep E dir (getEdges o) g M lo hi R) as (g' & Q & R').
    - eapply Forall_impl; [|exact PI]. unfold pairIn. intros p. cbv beta. lia.
    - exists g'. split; auto. eapply rep_ext; [exact R'|]. intros u v. cbv beta. destruct (O u v) as [d|] eqn:Q1.
      + apply L in Q1 as (x & y & I & J). eapply putAll_distinct; eauto.
      + apply putAll_none. intros x y d I J. assert (O u v = Some d) by (apply L; eauto). congruence.
  Qed.
  Lemma combine_rep : forall g M lo hi o O lo' hi', represents dir g lo hi M -> represents dir o lo' hi' O ->
    exists g', combine dir g o = Ok g' /\
      represents dir g' (Z.min lo lo') (Z.max hi hi') (fun u v => match O u v with Some d => Some d | None => M u v end).
  Proof.
    intros g M lo hi o O lo' hi' R RO. destruct (rep_len _ _ _ _ R) as (ML & NC & H & _). destruct (rep_len _ _ _ _ RO) as (ML' & NC' & H' & N').
    unfold combine. cbn [adj edges minId]. rewrite ML, ML'.
    set (a := Z.to_nat (lo - lo')). set (b := Z.to_nat _).
    assert (BV : b = Z.to_nat (Z.max hi hi' - hi)).
    { unfold b, nodeCount. cbn [adj]. unfold alen in *. rewrite app_length, repeat_length. lia. }
    pose proof (extend_rep g M lo hi a b R) as RX. replace (lo - Z.of_nat a) with (Z.min lo lo') in RX by lia. replace (hi + Z.of_nat b) with (Z.max hi hi') in RX by lia.
    rewrite <- app_assoc. eapply putAll_rep; eauto; lia.
  Qed.
  (* 377-387 *)
  Lemma append_rep : forall g M lo hi o O lo' hi', represents dir g lo hi M -> represents dir o lo' hi' O ->
    exists g', append dir g o = Ok g' /\
      represents dir g' lo (hi + (hi' - lo')) (fun u v => match O (u - hi + lo') (v - hi + lo') with Some d => Some d | None => M u v end).
  Proof.
    intros g M lo hi o O lo' hi' R RO. destruct (rep_len _ _ _ _ R) as (ML & NC & H & N). destruct (rep_len _ _ _ _ RO) as (ML' & NC' & H' & N').
    unfold append. cbn [adj edges minId]. rewrite ML, ML', N.
    pose proof (extend_rep g M lo hi 0 (length (adj o)) R) as RX. cbn [repeat app] in RX. change (Z.of_nat 0) with 0 in RX. rewrite Z.sub_0_r in RX.
    fold (alen (adj o)) in RX. replace (hi + alen (adj o)) with (hi + (hi' - lo')) in RX by lia.
    pose proof (rep_pairIn _ _ _ _ RO) as PI. apply rep_edges in RO as (P & RE & L).
    set (h := fun e : Z * Z * E => let '(u, v, d) := e in (u + (hi - lo + lo - lo'), v + (hi - lo + lo - lo'), d)).
    destruct (addEdges_rep E dir (map h (getEdges o)) _ M _ _ RX) as (g' & Q & R').
    - rewrite Forall_map. eapply Forall_impl; [|exact PI]. intros [[u v] d]. unfold pairIn, h. cbn [fst snd]. lia.
    - exists g'. split; [exact Q|]. eapply rep_ext; [exact R'|]. intros u v. cbv beta.
      assert (PF : ForallOrdPairs diffPairs (map h (getEdges o))).
      { rewrite FOP_map. eapply FOP_ext; [|exact P]. intros [[a b] c] [[a' b'] c'] _ _. unfold GenProofs3.diffPairs, h. sp. }
      destruct (O (u - hi + lo') (v - hi + lo')) as [d|] eqn:Q1.
      + apply L in Q1 as (x & y & I & J). eapply putAll_distinct with (x := x + (hi - lo + lo - lo')) (y := y + (hi - lo + lo - lo')); eauto.
        * apply in_map_iff. exists (x, y, d). auto.
        * sp.
      + apply putAll_none. intros x y d I J. apply in_map_iff in I as ([[a b] c] & QH & I). unfold h in QH. injection QH as QX QY QD. subst c.
        assert (O (u - hi + lo') (v - hi + lo') = Some d); [|congruence]. apply L. exists a, b. split; auto. sp.
  Qed.

  (* 481-497 *)
  Variable dflt : E.
  Lemma hasNot_ok : forall g M lo hi l, represents dir g lo hi M -> Forall (fun p => lo <= fst p < hi /\ lo <= snd p < hi) l ->
    hasNot dflt g l = Ok (map (fun p => (fst p, snd p, dflt)) (filter (fun p => negb (isEdge M (fst p) (snd p))) l)).
  Proof.
    intros g M lo hi l R F. apply rep_elim in R as (W & R & ML & NC). induction F as [|[u v] l (U & V) F IH]; cbn [hasNot filter map]; [reflexivity|]. cbn [fst snd] in *.
    rewrite (wf_hasEdge E dir g M u v W R) by (unfold inRange, nodeCount in *; lia). cbn [bind]. rewrite IH. cbn [bind].
    destruct (isEdge M u v); cbn [negb]; auto.
  Qed.
  Lemma complementPairs_in : forall m n u v, In (u, v) (complementPairs dir m n) <->
    m <= u < m + Z.of_nat n /\ m <= v < m + Z.of_nat n /\ (v < u \/ (dir = true /\ u < v)).
  Proof.
    intros m n u v. unfold complementPairs. rewrite in_flat_map. split.
    - intros (i & I & H). apply in_flat_map in H as (j & J & H). apply in_zseq in I. apply in_zseq in J. destruct H as [H|H]; [inv H; lia|].
      destruct dir; [|destruct H]. destruct H as [H|[]]. inv H. split; [lia|]. split; [lia|]. right. split; auto. lia.
    - intros (U & V & [H|[D H]]).
      + exists (u - m). split; [apply in_zseq; lia|]. apply in_flat_map. exists (v - m). split; [apply in_zseq; lia|]. left. f_equal; lia.
      + exists (v - m). split; [apply in_zseq; lia|]. apply in_flat_map. exists (u - m). split; [apply in_zseq; lia|]. right. rewrite D. left. f_equal; lia.
  Qed.
  Lemma complementPairs_FOP : forall m n, ForallOrdPairs (fun p q => ~ samePair dir (fst p) (snd p) (fst q) (snd q)) (complementPairs dir m n).
  Proof.
    intros m n. unfold complementPairs. apply FOP_flat_map.
    - apply Forall_forall. intros i I. apply in_zseq in I. apply FOP_flat_map.
      + apply Forall_forall. intros j J. apply in_zseq in J. destruct dir eqn:DD; repeat constructor. sp.
      + eapply FOP_ext; [|apply zseq_FOP]. intros j j' J J' L p q P Q. apply in_zseq in J, J'. destruct dir eqn:DD; cbn [In] in P, Q; unfold samePair;
          destruct P as [<-|P], Q as [<-|Q]; try (destruct P as [<-|[]]); try (destruct Q as [<-|[]]); sp.
    - eapply FOP_ext; [|apply zseq_FOP]. intros i i' I I' L p q P Q. apply in_flat_map in P as (j & J & P). apply in_flat_map in Q as (j' & J' & Q).
      apply in_zseq in I, I', J, J'. destruct dir eqn:DD; cbn [In] in P, Q; unfold samePair;
          destruct P as [<-|P], Q as [<-|Q]; try (destruct P as [<-|[]]); try (destruct Q as [<-|[]]); sp.
  Qed.
  Lemma complement_rep : forall g M lo hi, represents dir g lo hi M ->
    exists g', complement dflt dir g = Ok g' /\
      represents dir g' lo hi (fun u v => if (lo <=? u) && (u <? hi) && (lo <=? v) && (v <? hi) && negb (u =? v) && negb (isEdge M u v) then Some dflt else None).
  Proof.
    intros g M lo hi R. destruct (rep_len _ _ _ _ R) as (ML & NC & H & N). unfold complement. rewrite ML, N. replace (lo + (hi - lo)) with hi by lia. unfold alen in NC.
    rewrite (hasNot_ok g M lo hi _ R).
    2: { apply Forall_forall. intros [u v] I. apply complementPairs_in in I. cbn [fst snd]. lia. }
    cbn [bind]. set (l := map _ _).
    assert (IL : forall u v d, In (u, v, d) l <-> d = dflt /\ lo <= u < hi /\ lo <= v < hi /\ (v < u \/ (dir = true /\ u < v)) /\ isEdge M u v = false).
    { intros u v d. unfold l. rewrite in_map_iff. split.
      - intros ([a b] & Q & I). cbn [fst snd] in Q. inv Q. apply filter_In in I as [I X]. cbn [fst snd] in X. apply complementPairs_in in I. apply negb_true_iff in X. intuition lia.
      - intros (-> & U & V & X & Y). exists (u, v). split; auto. apply filter_In. split; [apply complementPairs_in; intuition lia|]. cbn [fst snd]. rewrite Y. auto. }
    destruct (emplace_build E dir lo hi l (fun u v => if (lo <=? u) && (u <? hi) && (lo <=? v) && (v <? hi) && negb (u =? v) && negb (isEdge M u v) then Some dflt else None)) as (a' & Q & R').
    - auto.
    - apply Forall_forall. intros [[u v] d] I. apply IL in I. cbn [fst snd]. lia.
    - unfold l. rewrite FOP_map. eapply FOP_ext; [|apply FOP_filter; apply complementPairs_FOP]. intros p q _ _. auto.
    - intros u v d. split.
      + intro Q. destruct ((lo <=? u) && (u <? hi) && (lo <=? v) && (v <? hi) && negb (u =? v) && negb (isEdge M u v)) eqn:B; [|discriminate]. inv Q.
        rewrite !andb_true_iff in B. destruct B as (((((B1 & B2) & B3) & B4) & B5) & B6). apply negb_true_iff in B6.
        destruct (Z_lt_dec v u) as [C|C]; [|destruct (bool_dec dir true) as [D|D]].
        * exists u, v. split; [apply IL; repeat split; auto; lia|left; auto].
        * exists u, v. split; [apply IL; repeat split; auto; try lia|left; auto]. right. split; auto. lia.
        * assert (DF : dir = false) by (destruct dir; auto; congruence). exists v, u. split; [|right; auto]. apply IL. repeat split; auto; try lia.
          unfold isEdge in *. rewrite (rep_sym _ _ _ _ _ _ R DF). auto.
      + intros (x & y & I & J). apply IL in I as (-> & X & Y & Z0 & B). assert (BB : isEdge M u v = false).
        { destruct J as [[<- <-]|(DF & <- & <-)]; auto. unfold isEdge in *. rewrite (rep_sym _ _ _ _ _ _ R DF). auto. }
        rewrite BB. cbn [negb]. rewrite andb_true_r. unfold samePair in J.
        replace ((lo <=? u) && (u <? hi) && (lo <=? v) && (v <? hi) && negb (u =? v)) with true by lia. auto.
    - exists (mkGraph a' (map edgeOf l) lo). split; [|exact R']. exact Q.
  Qed.
End Ops.
