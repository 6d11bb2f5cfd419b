(* Reversing, orienting, relabelling, choosing edges, products and line graphs. *)
From Verif Require Import Base Tac SeqModel SeqProofs RndModel RandSeqModel RandSpec RndLemmas ShuffleProofs DistinctProofs GenModel GenSpec GenProofs GenProofs2 GenOpsModel GenProofs3 GenOpsProofs.
From Coq Require Import Sorted Permutation.

Lemma FOP_perm : forall A (R : A -> A -> Prop) l l', (forall x y, R x y -> R y x) -> Permutation l l' -> ForallOrdPairs R l -> ForallOrdPairs R l'.
Proof.
  intros A R l l' SY P. induction P as [|x l l' P IH|x y l|l1 l2 l3 P1 IH1 P2 IH2]; intro H; auto.
  - inv H. constructor; auto. eapply Permutation_Forall; eauto.
  - inv H. inv H2. inv H3. constructor; [constructor; auto|]. constructor; auto.
Qed.
Lemma FOP_Forall2 : forall A B (R : A -> A -> Prop) (Q : B -> B -> Prop) (S : A -> B -> Prop) l l',
  (forall x y x' y', In x l -> In y l -> R x y -> S x x' -> S y y' -> Q x' y') -> Forall2 S l l' -> ForallOrdPairs R l -> ForallOrdPairs Q l'.
Proof.
  intros A B R Q S l l' H F. induction F as [|x x' l l' XX F IH]; intro P; [constructor|]. inv P. constructor.
  - apply Forall_forall. intros y' I. assert (EX : exists y, In y l /\ S y y').
    { clear - F I. induction F as [|a b l l' AB F IH]; [destruct I|]. destruct I as [<-|I]; [exists a; split; auto; left; auto|].
      destruct IH as (y & J & K); auto. exists y. split; auto. right. auto. }
    destruct EX as (y & J & K). rewrite Forall_forall in H2. eapply H; eauto; [left; auto|right; auto].
  - apply IH; auto. intros a b a' b' I J. apply H; right; auto.
Qed.
Lemma Forall2_In_r : forall A B (S : A -> B -> Prop) l l' y, Forall2 S l l' -> In y l' -> exists x, In x l /\ S x y.
Proof.
  intros A B S l l' y F I. induction F as [|a b l l' AB F IH]; [destruct I|]. destruct I as [<-|I]; [exists a; split; auto; left; auto|].
  destruct IH as (x & J & K); auto. exists x. split; auto. right. auto.
Qed.
Lemma Forall2_In_l : forall A B (S : A -> B -> Prop) l l' x, Forall2 S l l' -> In x l -> exists y, In y l' /\ S x y.
Proof.
  intros A B S l l' x F I. induction F as [|a b l l' AB F IH]; [destruct I|]. destruct I as [<-|I]; [exists b; split; auto; left; auto|].
  destruct IH as (y & J & K); auto. exists y. split; auto. right. auto.
Qed.

Section Ops.
  Variable E : Type.
  Variable dir : bool.
  Implicit Types (es : list (edge E)) (e f : edge E) (s : list nat) (g : graph E) (M : emap E).
  Notation pairOf := (pairOf E).
  Notation edgeOf := (edgeOf E).
  Notation diffPairs := (diffPairs E dir).
  Notation pairIn := (pairIn E).
  Notation lists := (lists E dir).

  (* the map of an edge list *)
  Definition mapOf (l : list (Z * Z * E)) : emap E := putAll E dir (fun _ _ => None) l.
  Lemma mapOf_lists : forall l, ForallOrdPairs diffPairs l -> lists (mapOf l) l.
  Proof.
    intros l P u v d. unfold mapOf. split.
    - intro Q. destruct (existsb (fun p => samePairb dir (fst (fst p)) (snd (fst p)) u v) l) eqn:X.
      + apply existsb_exists in X as ([[a b] c] & I & J). apply samePairb_iff in J. cbn [fst snd] in J. exists a, b. split; auto.
        rewrite (putAll_distinct E dir l _ a b c u v) in Q by auto. inv Q. auto.
      + rewrite putAll_none in Q; [discriminate|]. intros a b c I J. assert (existsb (fun p => samePairb dir (fst (fst p)) (snd (fst p)) u v) l = true); [|congruence].
        apply existsb_exists. exists (a, b, c). split; auto. apply samePairb_iff. auto.
    - intros (x & y & I & J). eapply putAll_distinct; eauto.
  Qed.
  Lemma lists_fun : forall M M' l, lists M l -> lists M' l -> forall u v, M u v = M' u v.
  Proof. intros M M' l H H' u v. apply option_eq. intro d. rewrite (H u v d), (H' u v d). tauto. Qed.

  (* ---- reverse ---- *)
  Lemma efrom_flip : forall e, efrom (flipEdge e) = eto e.
  Proof. intro e. unfold flipEdge, efrom. cbn [ekey eto]. rewrite <- Z.lxor_assoc, Z.lxor_nilpotent. apply Z.lxor_0_l. Qed.
  Lemma eto_flip : forall e, eto (flipEdge e) = efrom e.
  Proof. auto. Qed.

  (* ---- relabelling: es1 permutes the edges of g, es' has the ends of es1 renamed by pi ---- *)
  Lemma relabel_rep : forall g M lo hi (pi : Z -> Z) es1 es', represents dir g lo hi M ->
    (forall u, lo <= u < hi -> lo <= pi u < hi) -> (forall u v, lo <= u < hi -> lo <= v < hi -> pi u = pi v -> u = v) ->
    Permutation (edges g) es1 ->
    Forall2 (fun e e' => samePair dir (pi (efrom e)) (pi (eto e)) (efrom e') (eto e') /\ edat e' = edat e) es1 es' ->
    exists a' M', buildAdj dir (mkGraph (adj (clearAdj g)) es' (minId g)) = Ok (mkGraph a' es' lo) /\ represents dir (mkGraph a' es' lo) lo hi M' /\
      (forall u v, lo <= u < hi -> lo <= v < hi -> M' (pi u) (pi v) = M u v).
  Proof.
    intros g M lo hi pi es1 es' R PI INJ PM F. destruct (rep_len _ _ _ _ _ _ R) as (ML & NC & H & N). pose proof (rep_edges _ _ _ _ _ _ R) as (P & RE & L).
    assert (RE1 : forall e, In e es1 -> M (efrom e) (eto e) = Some (edat e) /\ lo <= efrom e < hi /\ lo <= eto e < hi /\ efrom e <> eto e).
    { intros e I. apply RE. apply in_map_iff. exists e. split; auto. eapply Permutation_in; [apply Permutation_sym; exact PM|auto]. }
    assert (FP : ForallOrdPairs diffPairs (map pairOf es')).
    { rewrite FOP_map. eapply FOP_Forall2 with (R := fun e f => diffPairs (pairOf e) (pairOf f)); [|exact F|].
      - intros x y x' y' I J D (S1 & _) (S2 & _) SP. apply D. unfold GenProofs3.pairOf in *. cbn [fst snd] in *.
        destruct (RE1 x I) as (_ & X1 & X2 & _). destruct (RE1 y J) as (_ & Y1 & Y2 & _).
        assert (SP' : samePair dir (pi (efrom x)) (pi (eto x)) (pi (efrom y)) (pi (eto y))).
        { eapply samePair_trans; [exact S1|]. eapply samePair_trans; [exact SP|]. apply samePair_sym. auto. }
        destruct SP' as [[A B]|(D0 & A & B)]; [left|right]; auto.
      - eapply FOP_perm; [|exact PM|].
        + intros x y D SP. apply D. apply samePair_sym. auto.
        + unfold getEdges in P. rewrite FOP_map in P. exact P. }
    destruct (build_pairs E dir (adj (clearAdj g)) es' (minId g) (mapOf (map pairOf es')) lo hi) as (a' & Q & R').
    - apply clear_empty.
    - auto.
    - cbn [clearAdj adj]. rewrite clear_len. auto.
    - rewrite Forall_map. apply Forall_forall. intros e' I. destruct (Forall2_In_r _ _ _ _ _ _ F I) as (e & J & SP & _). destruct (RE1 e J) as (_ & A & B & C).
      assert (PN : pi (efrom e) <> pi (eto e)) by (intro X; apply C; apply INJ; auto). pose proof (PI _ A). pose proof (PI _ B).
      unfold GenOpsProofs.pairIn, GenProofs3.pairOf. sp.
    - auto.
    - apply mapOf_lists. auto.
    - exists a', (mapOf (map pairOf es')). rewrite ML in *. split; [exact Q|]. split; [exact R'|]. intros u v U V. apply option_eq. intro d.
      rewrite (mapOf_lists _ FP (pi u) (pi v) d), (L u v d). split.
      + intros (x & y & I & J). apply in_map_iff in I as (e' & Q' & I). inv Q'. destruct (Forall2_In_r _ _ _ _ _ _ F I) as (e & K & SP & DD).
        destruct (RE1 e K) as (ME & A & B & C). exists (efrom e), (eto e). split.
        * rewrite DD. apply in_map_iff. exists e. split; auto. eapply Permutation_in; [apply Permutation_sym; exact PM|auto].
        * assert (SP' : samePair dir (pi (efrom e)) (pi (eto e)) (pi u) (pi v)) by (eapply samePair_trans; eauto).
          destruct SP' as [[A' B']|(D0 & A' & B')]; [left|right]; auto.
      + intros (x & y & I & J). apply in_map_iff in I as (e & Q' & I). inv Q'. assert (I1 : In e es1) by (eapply Permutation_in; eauto).
        destruct (Forall2_In_l _ _ _ _ _ _ F I1) as (e' & K & SP & DD). exists (efrom e'), (eto e'). split.
        * rewrite <- DD. apply in_map_iff. exists e'. auto.
        * eapply samePair_trans; [apply samePair_sym; exact SP|]. destruct J as [[<- <-]|(D0 & <- & <-)]; [left|right]; auto.
  Qed.
  Lemma flipAll_ok : forall (h : edge E -> outcome (edge E)) (S : edge E -> edge E -> Prop) l,
    (forall e b, In e l -> (dir = true -> b = false) -> exists e', h (if b : bool then flipEdge e else e) = Ok e' /\ S e e') ->
    always (flipAll dir h l) (returns (fun l' => Forall2 S l l')).
  Proof.
    intros h S l. induction l as [|e l IH]; intro H; cbn [flipAll]; [apply returns_ret; constructor|].
    eapply returns_bind with (R := fun b => dir = true -> b = false).
    { destruct dir; [apply returns_ret; auto|]. unfold rbit. eapply returns_bind; [apply returns_rint; lia|]. intros x X. apply returns_ret. discriminate. }
    intros b B. destruct (H e b (or_introl eq_refl) B) as (e' & Q & SS). rewrite Q. cbn [lift rbind].
    eapply returns_bind; [apply IH; intros e0 b0 I; apply H; right; auto|]. intros r F. apply returns_ret. constructor; auto.
  Qed.
  Lemma permutateEdges_rep : forall g M lo hi, represents dir g lo hi M ->
    always (permutateEdges dir g) (returns (fun g' => represents dir g' lo hi M)).
  Proof.
    intros g M lo hi R. unfold permutateEdges. eapply returns_bind; [apply shuffle_always|]. intros es1 PM. cbv beta in PM.
    eapply returns_bind; [apply (flipAll_ok _ (fun e e' => samePair dir (efrom e) (eto e) (efrom e') (eto e') /\ edat e' = edat e))|].
    { intros e b I B. eexists. split; [reflexivity|]. destruct b; [|split; auto; apply samePair_refl]. rewrite efrom_flip, eto_flip. split; auto. right. split; auto.
      destruct dir; [discriminate (B eq_refl)|auto]. }
    intros es' F. destruct (relabel_rep g M lo hi (fun u => u) es1 es' R) as (a' & M' & Q & R' & X); auto. cbv beta in X. rewrite Q. cbn [lift always returns].
    eapply rep_ext; [exact R'|]. intros u v.
    destruct ((lo <=? u) && (u <? hi) && (lo <=? v) && (v <? hi)) eqn:B; [apply X; lia|].
    assert (M' u v = None). { destruct (M' u v) as [d|] eqn:Q1; auto. eapply rep_range in Q1; [|exact R']. lia. }
    assert (M u v = None). { destruct (M u v) as [d|] eqn:Q1; auto. eapply rep_range in Q1; [|exact R]. lia. }
    congruence.
  Qed.
  (* the permutation pi given by an array *)
  Lemma perm_array : forall perm lo n, Permutation (zseq lo n) perm ->
    (forall u, lo <= u < lo + Z.of_nat n -> aget perm (u - lo) = Ok (getz perm (u - lo)) /\ lo <= getz perm (u - lo) < lo + Z.of_nat n) /\
    (forall u v, lo <= u < lo + Z.of_nat n -> lo <= v < lo + Z.of_nat n -> getz perm (u - lo) = getz perm (v - lo) -> u = v).
  Proof.
    intros perm lo n P. pose proof (Permutation_length P) as LN. rewrite zseq_length in LN. split.
    - intros u U. unfold aget, getz. replace (u - lo <? 0) with false by lia. rewrite (nth_error_nth' perm 0) by lia. split; auto.
      apply in_zseq. eapply Permutation_in; [apply Permutation_sym; exact P|]. apply nth_In. lia.
    - intros u v U V Q. assert (NoDup perm) by (eapply Permutation_NoDup; [exact P|apply zseq_NoDup]).
      apply (proj1 (NoDup_nth perm 0) H) in Q; lia.
  Qed.
  Lemma permutateWith_rep : forall g M lo hi perm, represents dir g lo hi M -> Permutation (zseq lo (Z.to_nat (hi - lo))) perm ->
    is_i64 lo -> is_i64 hi -> hi - lo <= I64_MAX ->
    always (permutateWith dir g perm) (returns (fun g' => exists M', represents dir g' lo hi M' /\
      forall u v, lo <= u < hi -> lo <= v < hi -> M' (getz perm (u - lo)) (getz perm (v - lo)) = M u v)).
  Proof.
    intros g M lo hi perm R P IL IH SZ. destruct (rep_len _ _ _ _ _ _ R) as (ML & NC & H & N). unfold permutateWith. rewrite ML.
    assert (LP : length perm = Z.to_nat (hi - lo)) by (rewrite <- (Permutation_length P); apply zseq_length).
    destruct (isPerm_ok perm lo) as [[-> _]|(x & l1 & l2 & _ & NP & _)].
    - apply Forall_forall. intros x I. apply (Permutation_in _ (Permutation_sym P)) in I. apply in_zseq in I. mach. lia.
    - cbn [lift rbind fst judgeAssert]. eapply returns_bind; [apply shuffle_always|]. intros es1 PM. cbv beta in PM.
      destruct (perm_array perm lo _ P) as (PA & PB). replace (lo + Z.of_nat (Z.to_nat (hi - lo))) with hi in * by lia.
      set (pi := fun u => getz perm (u - lo)).
      eapply returns_bind; [apply (flipAll_ok _ (fun e e' => samePair dir (pi (efrom e)) (pi (eto e)) (efrom e') (eto e') /\ edat e' = edat e))|].
      { intros e b I B. pose proof (rep_edges _ _ _ _ _ _ R) as (_ & RE & _). assert (IG : In e (edges g)) by (eapply Permutation_in; [apply Permutation_sym; exact PM|auto]).
        destruct (RE (efrom e) (eto e) (edat e)) as (_ & A1 & A2 & _); [apply in_map_iff; exists e; auto|].
        unfold relabel. destruct (PA _ A1) as (G1 & _). destruct (PA _ A2) as (G2 & _). destruct b.
        - rewrite efrom_flip, eto_flip, G1, G2. cbn [bind]. eexists. split; [reflexivity|]. rewrite efrom_mk. cbn [eto edat flipEdge]. split; auto. right. unfold pi. split; auto.
          destruct dir; [discriminate (B eq_refl)|auto].
        - rewrite G1, G2. cbn [bind]. eexists. split; [reflexivity|]. rewrite efrom_mk. cbn [eto edat]. split; auto. left. unfold pi. auto. }
      intros es' F. destruct (relabel_rep g M lo hi pi es1 es' R) as (a' & M' & Q & R' & X); auto.
      + intros u U. apply PA. auto.
      + rewrite ML in Q. rewrite Q. cbn [lift always returns]. exists M'. auto.
    - exfalso. apply NP. rewrite LP. exact P.
  Qed.
  Lemma permutate_rep : forall g M lo hi, represents dir g lo hi M -> is_i64 lo -> is_i64 hi -> hi - lo <= I64_MAX ->
    always (permutate dir g) (returns (fun g' => exists perm M', Permutation (zseq lo (Z.to_nat (hi - lo))) perm /\ represents dir g' lo hi M' /\
      forall u v, lo <= u < hi -> lo <= v < hi -> M' (getz perm (u - lo)) (getz perm (v - lo)) = M u v)).
  Proof.
    intros g M lo hi R IL IH SZ. destruct (rep_len _ _ _ _ _ _ R) as (ML & NC & H & N). unfold permutate. rewrite ML.
    replace (length (adj g)) with (Z.to_nat (hi - lo)) by (unfold alen in NC; lia).
    eapply returns_bind; [apply shuffle_always|]. intros perm P. cbv beta in P.
    eapply returns_mono; [|apply (permutateWith_rep g M lo hi perm R P IL IH SZ)]. intros g' (M' & R' & X). exists perm, M'. auto.
  Qed.

  (* ---- a random part of the edges ---- *)
  Lemma pick_ok : forall A (l : list A) ids, Forall (fun i => 0 <= i < alen l) ids ->
    exists r, pick l ids = Ok r /\ Forall2 (fun i x => nth_error l (Z.to_nat i) = Some x) ids r.
  Proof.
    intros A l ids F. induction F as [|i ids I F (r & Q & IH)]; cbn [pick]; [exists []; split; auto; constructor|]. rewrite Q.
    unfold aget, alen in *. replace (i <? 0) with false by lia. destruct (nth_error l (Z.to_nat i)) as [x|] eqn:N; [|apply nth_error_None in N; lia].
    cbn [bind]. exists (x :: r). split; auto.
  Qed.
  Lemma subgraph_rep : forall g M lo hi m, represents dir g lo hi M -> 0 <= m -> is_i64 (edgeCount g) ->
    always (subgraph dir g m) (returns (fun g' => exists M', represents dir g' lo hi M' /\
      (forall u v d, M' u v = Some d -> M u v = Some d) /\ edgeCount g' = Z.min m (edgeCount g))).
  Proof.
    intros g M lo hi m R H0 IE. destruct (rep_len _ _ _ _ _ _ R) as (ML & NC & H & N). unfold subgraph. destruct (edgeCount g <=? m) eqn:C.
    - destruct (copy_rep E dir g M lo hi R) as (g' & -> & R' & GE). cbn [lift always returns]. exists M. split; auto. split; auto.
      assert (L : length (getEdges g') = length (getEdges g)) by congruence. unfold getEdges in L. rewrite !map_length in L. unfold edgeCount, alen in *. lia.
    - eapply returns_bind; [apply (distinct_always m 0 (edgeCount g)); auto; [mach; lia|lia]|]. intros ids (LI & ND & FI). cbv beta in *.
      destruct (pick_ok _ (edges g) ids FI) as (es & -> & F2). cbn [lift rbind]. pose proof (rep_edges _ _ _ _ _ _ R) as (P & RE & L).
      assert (INE : forall e, In e es -> In e (edges g)). { intros e I. destruct (Forall2_In_r _ _ _ _ _ _ F2 I) as (i & _ & X). eapply nth_error_In; eauto. }
      assert (FP : ForallOrdPairs diffPairs (map pairOf es)).
      { rewrite FOP_map. eapply FOP_Forall2; [|exact F2|apply FOP_NoDup; exact ND]. intros i j e f I J NE N1 N2 SP. cbv beta in *.
        apply rep_elim in R as ((_ & D & _) & _). rewrite Forall_forall in FI. pose proof (FI i I). pose proof (FI j J).
        assert (Z.to_nat i = Z.to_nat j); [|lia]. apply (D _ _ e f); eauto using nth_valid. }
      destruct (build_pairs E dir (adj (clearAdj g)) es (minId g) (mapOf (map pairOf es)) lo hi) as (a' & Q & R').
      + apply clear_empty.
      + auto.
      + cbn [clearAdj adj]. rewrite clear_len. auto.
      + pose proof (rep_pairIn E dir _ _ _ _ R) as PI. rewrite Forall_forall in *. intros p I. apply PI. apply in_map_iff in I as (e & <- & I). apply in_map_iff. exists e. auto.
      + auto.
      + apply mapOf_lists. auto.
      + rewrite Q. cbn [lift always returns]. exists (mapOf (map pairOf es)). rewrite ML in *. split; auto. split.
        * intros u v d X. apply (mapOf_lists _ FP) in X as (x & y & I & J). apply L. exists x, y. split; auto. apply in_map_iff in I as (e & QQ & I). apply in_map_iff. exists e. auto.
        * assert (LE : length ids = length es) by (clear - F2; induction F2; simpl; auto). unfold edgeCount, alen in *. cbn [edges]. lia.
  Qed.
  Lemma subgraph_throws : forall g m, m < 0 -> is_i64 m -> is_i64 (edgeCount g) -> subgraph dir g m = RRet Throw.
  Proof.
    intros g m H I IE. unfold subgraph. assert (0 <= edgeCount g) by (unfold edgeCount, alen; lia). replace (edgeCount g <=? m) with false by lia.
    rewrite distinct_throws; auto; mach; lia.
  Qed.
End Ops.

(* ---- reverse, undirected, directed ---- *)
Lemma reverse_rep : forall E (g : graph E) M lo hi, represents true g lo hi M ->
  exists g', reverse g = Ok g' /\ represents true g' lo hi (fun u v => M v u).
Proof.
  intros E g M lo hi R. destruct (rep_len _ _ _ _ _ _ R) as (ML & NC & H & N). pose proof (rep_pairIn E true _ _ _ _ R) as PI. pose proof (rep_edges _ _ _ _ _ _ R) as (P & RE & L).
  unfold reverse, mapEdges, clearAdj. cbn [adj edges minId].
  assert (MP : map (pairOf E) (map flipEdge (edges g)) = map (fun p => (snd (fst p), fst (fst p), snd p)) (getEdges g)).
  { unfold getEdges. rewrite !map_map. apply map_ext. intro e. unfold GenProofs3.pairOf. rewrite efrom_flip. reflexivity. }
  destruct (build_pairs E true (map (fun _ => []) (adj g)) (map flipEdge (edges g)) (minId g) (fun u v => M v u) lo hi) as (a' & -> & R'); auto.
  - apply clear_empty.
  - rewrite clear_len. auto.
  - rewrite MP, Forall_map. eapply Forall_impl; [|exact PI]. unfold pairIn. intros p. cbn [fst snd]. lia.
  - rewrite MP, FOP_map. eapply FOP_ext; [|exact P]. intros p q _ _. unfold diffPairs. sp.
  - rewrite MP. intros u v d. rewrite (L v u d). split.
    + intros (x & y & I & J). exists y, x. split; [apply in_map_iff; exists (x, y, d); auto|sp].
    + intros (x & y & I & J). apply in_map_iff in I as ([[a b] c] & Q & I). cbn [fst snd] in Q. injection Q as <- <- <-. exists a, b. split; auto. sp.
  - eexists. split; [reflexivity|auto].
Qed.
Lemma undirected_rep : forall E (g : graph E) M lo hi, represents true g lo hi M ->
  exists g' M', undirected g = Ok g' /\ represents false g' lo hi M' /\
    (forall u v, isEdge M' u v = isEdge M u v || isEdge M v u) /\
    (forall u v d, M' u v = Some d -> M u v = Some d \/ M v u = Some d).
Proof.
  intros E g M lo hi R. destruct (rep_len _ _ _ _ _ _ R) as (ML & NC & H & N). pose proof (rep_pairIn E true _ _ _ _ R) as PI. pose proof (rep_edges _ _ _ _ _ _ R) as (P & RE & L).
  unfold undirected. rewrite ML, N. replace (lo + (hi - lo)) with hi by lia. destruct (new_rep E false lo hi H) as (g0 & -> & R0). cbn [bind].
  destruct (addEdges_rep E false (getEdges g) g0 _ lo hi R0) as (g' & Q & R'); [exact PI|]. exists g', (putAll E false (fun _ _ => None) (getEdges g)).
  split; auto. split; auto.
  assert (SOME : forall u v, (exists d, M u v = Some d \/ M v u = Some d) -> exists d, putAll E false (fun _ _ => None) (getEdges g) u v = Some d /\ (M u v = Some d \/ M v u = Some d)).
  { intros u v (d & D). destruct (putAll_some E false (getEdges g) (fun _ _ => None) u v) as (x & y & c & I & J & ->).
    - destruct D as [D|D]; apply L in D as (x & y & I & J); exists x, y, d; (split; [auto|sp]).
    - exists c. split; auto. apply RE in I as (X & _). destruct J as [[<- <-]|(_ & <- & <-)]; auto. }
  assert (NONE : forall u v, M u v = None -> M v u = None -> putAll E false (fun _ _ => None) (getEdges g) u v = None).
  { intros u v N1 N2. apply putAll_none. intros x y d I J. apply RE in I as (X & _). destruct J as [[<- <-]|(_ & <- & <-)]; congruence. }
  split.
  - intros u v. destruct (isEdge M u v || isEdge M v u) eqn:B.
    + apply orb_true_iff in B. rewrite !isEdge_true in B. destruct (SOME u v) as (d & X & _); [destruct B as [(d & B)|(d & B)]; exists d; auto|]. apply isEdge_true. eauto.
    + apply orb_false_iff in B as [B1 B2]. apply isEdge_false. apply isEdge_false in B1, B2. auto.
  - intros u v d Q'. destruct (M u v) as [a|] eqn:Q1; [|destruct (M v u) as [b|] eqn:Q2].
    + destruct (SOME u v) as (c & X & Y); [eauto|]. rewrite Q' in X. inv X. rewrite Q1 in Y. auto.
    + destruct (SOME u v) as (c & X & Y); [eauto|]. rewrite Q' in X. inv X. rewrite Q2, Q1 in Y. auto.
    + rewrite NONE in Q' by auto. discriminate.
Qed.
Lemma directed_rep : forall E (p : Z -> Z -> E -> bool) (g : graph E) M lo hi, represents false g lo hi M ->
  exists g', directed p g = Ok g' /\
    represents true g' lo hi (fun u v => match M u v with Some d => if p u v d then Some d else None | None => None end).
Proof.
  intros E p g M lo hi R. destruct (rep_len _ _ _ _ _ _ R) as (ML & NC & H & N). pose proof (rep_pairIn E false _ _ _ _ R) as PI. pose proof (rep_edges _ _ _ _ _ _ R) as (P & RE & L).
  unfold directed. rewrite ML, N. replace (lo + (hi - lo)) with hi by lia. set (l := flat_map _ _).
  assert (IL : forall u v d, In (u, v, d) l <-> p u v d = true /\ (In (u, v, d) (getEdges g) \/ In (v, u, d) (getEdges g))).
  { intros u v d. unfold l. rewrite in_flat_map. split.
    - intros ([[a b] c] & I & J). apply in_app_or in J. destruct (p a b c) eqn:P1, (p b a c) eqn:P2; cbn [In] in J;
        (destruct J as [[J|[]]|[J|[]]] || destruct J as [[J|[]]|[]] || destruct J as [[]|[J|[]]] || destruct J as [[]|[]]); injection J as <- <- <-; auto.
    - intros (PT & [I|I]).
      + exists (u, v, d). split; auto. rewrite PT. left. auto.
      + exists (v, u, d). split; auto. rewrite PT. apply in_or_app. right. left. auto. }
  destruct (emplace_build E true lo hi l (fun u v => match M u v with Some d => if p u v d then Some d else None | None => None end)) as (a' & Q & R'); auto.
  - apply Forall_forall. intros [[u v] d] I. apply IL in I as (_ & [I|I]); apply RE in I; cbn [fst snd]; lia.
  - unfold l. apply FOP_flat_map.
    + apply Forall_forall. intros [[u v] d] I. apply RE in I. destruct (p u v d), (p v u d); cbn [app]; repeat constructor. unfold diffPairs. sp.
    + eapply FOP_ext; [|exact P]. intros [[u v] d] [[x y] c] _ _ D a b IA IB SP. apply D. cbn [fst snd].
      apply in_app_or in IA. apply in_app_or in IB. destruct SP as [[S1 S2]|[SF _]]; [|discriminate SF].
      assert (IA' : a = (u, v, d) \/ a = (v, u, d)) by (clear - IA; destruct (p u v d), (p v u d); cbn [In] in IA; intuition).
      assert (IB' : b = (x, y, c) \/ b = (y, x, c)) by (clear - IB; destruct (p x y c), (p y x c); cbn [In] in IB; intuition).
      clear IA IB D. destruct IA' as [-> | ->], IB' as [-> | ->]; cbn [fst snd] in *; subst; unfold samePair; auto.
  - intros u v d. split.
    + intro Q. destruct (M u v) as [c|] eqn:QM; [|discriminate]. destruct (p u v c) eqn:PT; [|discriminate]. inv Q. exists u, v. split; [|left; auto]. apply IL. split; auto.
      apply L in QM as (x & y & I & J). destruct J as [[<- <-]|(_ & <- & <-)]; auto.
    + intros (x & y & I & J). assert (x = u /\ y = v) as [-> ->] by sp. apply IL in I as (PT & I).
      assert (M u v = Some d) by (apply L; destruct I as [I|I]; eexists _, _; (split; [exact I|sp])). rewrite H0, PT. auto.
  - exists (mkGraph a' (map (edgeOf E) l) lo). split; [exact Q|exact R'].
Qed.
