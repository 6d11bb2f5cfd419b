(* The representation relation, and building the sets from an edge list. *)
From Verif Require Import Base Tac GenModel GenSpec GenProofs GenProofs2 GenOpsModel.
From Coq Require Import Sorted.

Lemma StronglySorted_map : forall A B (h : A -> B) (R : B -> B -> Prop) l,
  StronglySorted R (map h l) <-> StronglySorted (fun x y => R (h x) (h y)) l.
Proof.
  induction l as [|x l IH]; cbn [map]; [split; constructor|]. split; intro H; inv H; constructor; try (apply IH; auto).
  - rewrite Forall_map in H3. auto.
  - rewrite Forall_map. auto.
Qed.
Lemma StronglySorted_ext : forall A (R Q : A -> A -> Prop) l, (forall x y, In x l -> In y l -> R x y -> Q x y) ->
  StronglySorted R l -> StronglySorted Q l.
Proof.
  induction l as [|x l IH]; intros X H; inv H; constructor.
  - apply IH; auto. intros. apply X; auto; right; auto.
  - rewrite Forall_forall in *. intros y I. apply X; auto; [left; auto|right; auto].
Qed.

Section Store.
  Variable E : Type.
  Variable dir : bool.
  Implicit Types (es : list (edge E)) (e f : edge E) (s : list nat) (g : graph E).
  Notation joins := (joins E dir).
  Notation incident := (incident E dir).
  Notation liveAdj := (liveAdj E dir).
  Notation distinctEdges := (distinctEdges E dir).
  Notation wf := (wf E dir).
  Notation repr := (repr E dir).
  Notation valid := (valid E).
  Notation keyOf := (keyOf E).
  Notation adjOk := (adjOk E).
  Notation okEdge := (okEdge E).

  Lemma sorted_iff : forall es s, Forall (valid es) s -> (sorted E es s <->
    StronglySorted (fun i j => forall e f, nth_error es i = Some e -> nth_error es j = Some f -> ekey e < ekey f) s).
  Proof.
    intros es s V. rewrite Forall_forall in V. unfold sorted. rewrite StronglySorted_map. split; apply StronglySorted_ext.
    - intros i j _ _ H e f N1 N2. rewrite (nth_keyOf _ _ _ _ N1), (nth_keyOf _ _ _ _ N2) in H. auto.
    - intros i j I J H. destruct (deref_valid E es i (V i I)) as (e & N1 & _ & ->). destruct (deref_valid E es j (V j J)) as (f & N2 & _ & ->). auto.
  Qed.

  (* no two edges on the same pair, as a list predicate *)
  Definition diffEdges e f : Prop := ~ samePair dir (efrom e) (eto e) (efrom f) (eto f).
  Lemma distinct_FOP : forall es, ForallOrdPairs diffEdges es -> distinctEdges es (valid es).
  Proof.
    intros es H i j e f _ _ N1 N2 SP. revert i j N1 N2. induction H as [|x l F H IH]; intros i j N1 N2.
    - destruct i; discriminate.
    - rewrite Forall_forall in F. destruct i as [|i], j as [|j]; cbn in N1, N2; auto.
      + exfalso. inv N1. apply (F f); auto. eapply nth_error_In; eauto.
      + exfalso. inv N2. apply (F e); [eapply nth_error_In; eauto|]. apply samePair_sym. auto.
  Qed.
  Lemma FOP_distinct : forall es, distinctEdges es (valid es) -> ForallOrdPairs diffEdges es.
  Proof.
    induction es as [|e es IH]; intro D; constructor.
    - apply Forall_forall. intros f I SP. apply In_nth_error in I as (j & N). assert (0%nat = S j); [|discriminate].
      apply (D 0%nat (S j) e f); auto; unfold GenProofs.valid; simpl; [lia|]. pose proof (nth_valid _ _ _ _ N). unfold GenProofs.valid in *. lia.
    - apply IH. intros i j a b V1 V2 N1 N2 SP. assert (S i = S j); [|lia]. apply (D (S i) (S j) a b); auto; unfold GenProofs.valid in *; simpl; lia.
  Qed.
  Lemma FOP_map_edges : forall es, ForallOrdPairs diffEdges es <->
    (forall l1 x y d l2 u v c l3, map (fun e => (efrom e, eto e, edat e)) es = l1 ++ (x, y, d) :: l2 ++ (u, v, c) :: l3 -> ~ samePair dir x y u v).
  Proof.
    split.
    - intros H l1 x y d l2 u v c l3 Q. apply map_split2 in Q as (m1 & a & m2 & b & m3 & Q & HA & HB). inv HA. inv HB.
      exact (distinct_split E dir _ (distinct_FOP _ H) _ _ _ _ _ eq_refl).
    - induction es as [|e es IH]; intro H; constructor.
      + apply Forall_forall. intros f I. apply in_split in I as (l2 & l3 & ->). 
        apply (H [] (efrom e) (eto e) (edat e) (map (fun e => (efrom e, eto e, edat e)) l2) (efrom f) (eto f) (edat f) (map (fun e => (efrom e, eto e, edat e)) l3)).
        cbn [map]. rewrite map_app. reflexivity.
      + apply IH. intros l1 x y d l2 u v c l3 Q. apply (H ((efrom e, eto e, edat e) :: l1) x y d l2 u v c l3). cbn [map]. rewrite Q. reflexivity.
  Qed.

  Lemma rep_intro : forall g M lo hi, wf g -> repr g M -> minId g = lo -> lo + nodeCount g = hi -> represents dir g lo hi M.
  Proof.
    intros g M lo hi W R ML NC. pose proof W as (F & D & A). destruct (edges_ok E dir g M W R) as [EL _].
    split; [auto|]. split; [auto|]. split; [|split; [auto|split]].
    - intros DF u v. destruct (M u v) as [d|] eqn:Q1.
      + symmetry. apply R in Q1 as (e & I & J & K). apply R. exists e. split; auto. split; auto. unfold GenProofs.joins, samePair in *. tauto.
      + destruct (M v u) as [d|] eqn:Q2; auto. apply R in Q2 as (e & I & J & K). assert (M u v = Some d); [|congruence].
        apply R. exists e. split; auto. split; auto. unfold GenProofs.joins, samePair in *. tauto.
    - intros u v. unfold isEdge. destruct (M u v) as [d|] eqn:Q; [|discriminate]. intros _. apply R in Q as (e & I & J & _).
      rewrite Forall_forall in F. destruct (F e I) as (O1 & O2 & O3). unfold inRange in *. unfold nodeCount in NC. subst lo hi.
      destruct J as [[<- <-]|(_ & <- & <-)]; auto.
    - intros u U. assert (IR : inRange (adj g) (minId g) u) by (unfold inRange; unfold nodeCount in NC; lia).
      destruct (adj_get E _ _ _ _ _ A IR) as (s & G & SO & V & I). exists s. rewrite <- ML. split; auto. split; [apply sorted_iff; auto|].
      intro i. rewrite I. unfold GenProofs.liveAdj. split; [intros (_ & X); exact X|]. intros (e & N & X). split; [eapply nth_valid; eauto|]. exists e. split; auto.
  Qed.
  Lemma rep_elim : forall g M lo hi, represents dir g lo hi M -> wf g /\ repr g M /\ minId g = lo /\ lo + nodeCount g = hi.
  Proof.
    intros g M lo hi (ML & NC & SY & (E1 & E2 & E3) & RG & AD).
    change (fun e : edge E => (Z.lxor (ekey e) (eto e), eto e, edat e)) with (fun e : edge E => (efrom e, eto e, edat e)) in *.
    apply FOP_map_edges in E3. apply distinct_FOP in E3.
    assert (R : repr g M).
    { intros u v d. split.
      - intro Q. apply E2 in Q as (x & y & I & J). apply in_map_iff in I as (e & Q & I). inv Q. exists e. auto.
      - intros (e & I & J & <-). assert (X : M (efrom e) (eto e) = Some (edat e)) by (apply E1; apply in_map_iff; exists e; auto).
        destruct J as [[<- <-]|(DF & <- & <-)]; auto. rewrite SY; auto. }
    assert (F : Forall (okEdge (adj g) (minId g)) (edges g)).
    { apply Forall_forall. intros e I. assert (X : M (efrom e) (eto e) = Some (edat e)) by (apply E1; apply in_map_iff; exists e; auto).
      destruct (RG (efrom e) (eto e)) as (H1 & H2 & H3); [unfold isEdge; rewrite X; auto|]. unfold GenProofs.okEdge, inRange. subst lo hi. auto. }
    split; [|split; [auto|split; auto]]. split; [auto|]. split; [auto|]. split; [intros v i; apply liveAdj_valid|].
    intros k s N. pose proof (proj1 (nth_error_Some (adj g) k)) as K. rewrite N in K. specialize (K ltac:(discriminate)).
    destruct (AD (lo + Z.of_nat k)) as (s' & G & SO & I); [unfold alen in NC; lia|].
    replace (lo + Z.of_nat k - lo) with (Z.of_nat k) in G by lia. unfold aget in G. replace (Z.of_nat k <? 0) with false in G by lia. rewrite Nat2Z.id, N in G.
    inv G. assert (VS : Forall (valid (edges g)) s'). { apply Forall_forall. intros i J. apply I in J as (e & NE & _). eapply nth_valid; eauto. }
    split; [apply sorted_iff; auto|]. intro i. rewrite I. unfold GenProofs.liveAdj. split.
    - intros (e & NE & X). split; [eapply nth_valid; eauto|]. exists e. auto.
    - intros (_ & e & NE & X). exists e. auto.
  Qed.
  Lemma rep_ext : forall g M M' lo hi, represents dir g lo hi M -> (forall u v, M u v = M' u v) -> represents dir g lo hi M'.
  Proof.
    intros g M M' lo hi R X. apply rep_elim in R as (W & R & A & B). apply rep_intro; auto. intros u v d. rewrite <- X. apply R.
  Qed.
  Lemma rep_sym : forall g M lo hi, represents dir g lo hi M -> dir = false -> forall u v, M u v = M v u.
  Proof. intros g M lo hi (_ & _ & H & _). auto. Qed.
  Lemma rep_range : forall g M lo hi u v d, represents dir g lo hi M -> M u v = Some d -> lo <= u < hi /\ lo <= v < hi /\ u <> v.
  Proof. intros g M lo hi u v d (_ & _ & _ & _ & H & _) Q. apply H. unfold isEdge. rewrite Q. auto. Qed.

  (* ---- building the sets ---- *)
  Lemma buildFrom_ok : forall n g i, (i + n = length (edges g))%nat ->
    Forall (okEdge (adj g) (minId g)) (edges g) -> distinctEdges (edges g) (valid (edges g)) ->
    adjOk (edges g) (adj g) (minId g) (liveAdj (edges g) (fun x => (x < i)%nat)) ->
    exists a', buildFrom dir g i n = Ok (mkGraph a' (edges g) (minId g)) /\ alen a' = alen (adj g) /\
      adjOk (edges g) a' (minId g) (liveAdj (edges g) (valid (edges g))).
  Proof.
    induction n as [|n IH]; intros g i L F D A; cbn [buildFrom].
    - exists (adj g). split; [destruct g; reflexivity|]. split; auto. replace (i + 0)%nat with i in L by lia. subst i. exact A.
    - destruct (nth_error (edges g) i) as [e|] eqn:N; [|apply nth_error_None in N; lia].
      destruct (addInternal_ok E dir g (fun x => (x < i)%nat) i e) as (a' & -> & LA & A'); auto.
      + lia.
      + rewrite Forall_forall in F. apply F. eapply nth_error_In; eauto.
      + intros x y ex ey _ _ NX NY. apply (D x y ex ey); auto; eapply nth_valid; eauto.
      + cbn [bind]. destruct (IH (mkGraph a' (edges g) (minId g)) (S i)) as (a2 & Q & L2 & A2); cbn [edges adj minId]; auto.
        * lia.
        * eapply okEdges_adj; eauto.
        * eapply adjOk_ext; [| |exact A'].
          -- intros v x _. unfold GenProofs.liveAdj. split; intros (HX & X); (split; [lia|exact X]).
          -- intros v x. apply liveAdj_valid.
        * exists a2. split; auto. split; auto. cbn [adj] in L2. lia.
  Qed.
  Lemma build_ok : forall a es m M lo hi, Forall (fun s => s = []) a -> Forall (okEdge a m) es -> ForallOrdPairs diffEdges es ->
    (forall u v d, M u v = Some d <-> exists e, In e es /\ joins e u v /\ edat e = d) -> m = lo -> lo + alen a = hi ->
    exists a', buildAdj dir (mkGraph a es m) = Ok (mkGraph a' es m) /\ represents dir (mkGraph a' es m) lo hi M.
  Proof.
    intros a es m M lo hi C F P R ML H. unfold buildAdj. cbn [edges].
    destruct (buildFrom_ok (length es) (mkGraph a es m) 0) as (a' & Q & L & A); cbn [edges adj minId] in *; auto.
    - apply distinct_FOP; auto.
    - split; [intros v i; apply liveAdj_valid|]. intros k s N. apply nth_error_In in N. rewrite Forall_forall in C. apply C in N. subst s.
      split; [constructor|]. intro i. split; [intros []|]. intros (X & _). lia.
    - exists a'. split; auto. apply rep_intro; cbn [edges adj minId]; auto.
      + split; [eapply okEdges_adj; eauto|]. split; [apply distinct_FOP; auto|auto].
      + unfold nodeCount. cbn [adj]. lia.
  Qed.
  (* the same with pairs instead of edges *)
  Definition pairOf e : Z * Z * E := (efrom e, eto e, edat e).
  Definition edgeOf (p : Z * Z * E) : edge E := mkEdge (Z.lxor (fst (fst p)) (snd (fst p))) (snd (fst p)) (snd p).
  Lemma pairOf_edgeOf : forall p, pairOf (edgeOf p) = p.
  Proof. intros [[u v] d]. unfold pairOf, edgeOf. cbn. rewrite efrom_mk. reflexivity. Qed.
  Definition diffPairs (p q : Z * Z * E) : Prop := ~ samePair dir (fst (fst p)) (snd (fst p)) (fst (fst q)) (snd (fst q)).
  Lemma FOP_map : forall A B (h : A -> B) (R : B -> B -> Prop) l, ForallOrdPairs R (map h l) <-> ForallOrdPairs (fun x y => R (h x) (h y)) l.
  Proof.
    induction l as [|x l IH]; cbn [map]; [split; constructor|]. split; intro H; inv H; constructor; try (apply IH; auto).
    - rewrite Forall_map in H2. auto.
    - rewrite Forall_map. auto.
  Qed.
  Lemma FOP_ext : forall A (R Q : A -> A -> Prop) l, (forall x y, In x l -> In y l -> R x y -> Q x y) -> ForallOrdPairs R l -> ForallOrdPairs Q l.
  Proof.
    induction l as [|x l IH]; intros X H; inv H; constructor.
    - rewrite Forall_forall in *. intros y I. apply X; auto; [left; auto|right; auto].
    - apply IH; auto. intros. apply X; auto; right; auto.
  Qed.
  Lemma FOP_app : forall A (R : A -> A -> Prop) l1 l2, ForallOrdPairs R (l1 ++ l2) <->
    ForallOrdPairs R l1 /\ ForallOrdPairs R l2 /\ forall x y, In x l1 -> In y l2 -> R x y.
  Proof.
    induction l1 as [|a l1 IH]; intro l2; cbn [app].
    - split; [intro H; split; [constructor|]; split; auto; intros x y []|tauto].
    - split.
      + intro H. inv H. apply IH in H3 as (P1 & P2 & P3). apply Forall_app in H2 as [F1 F2]. split; [constructor; auto|]. split; auto.
        intros x y [<-|I] J; [rewrite Forall_forall in F2; auto|auto].
      + intros (P1 & P2 & P3). inv P1. constructor.
        * apply Forall_app. split; auto. apply Forall_forall. intros y J. apply P3; auto. left. auto.
        * apply IH. split; auto. split; auto. intros. apply P3; auto. right. auto.
  Qed.
  Lemma FOP_flat_map : forall A B (h : A -> list B) (R : B -> B -> Prop) l, Forall (fun x => ForallOrdPairs R (h x)) l ->
    ForallOrdPairs (fun x y => forall a b, In a (h x) -> In b (h y) -> R a b) l -> ForallOrdPairs R (flat_map h l).
  Proof.
    induction l as [|x l IH]; intros F P; cbn [flat_map]; [constructor|]. inv F. inv P. apply FOP_app. split; auto. split; [auto|].
    intros a b I J. apply in_flat_map in J as (y & J & K). rewrite Forall_forall in H3. eapply H3; eauto.
  Qed.
  Lemma FOP_filter : forall A (R : A -> A -> Prop) p l, ForallOrdPairs R l -> ForallOrdPairs R (filter p l).
  Proof.
    induction 1 as [|x l F H IH]; cbn [filter]; [constructor|]. destruct (p x); auto. constructor; auto. rewrite Forall_forall in *. intros y I. apply filter_In in I as [I _]. auto.
  Qed.
  Lemma FOP_NoDup : forall A (l : list A), NoDup l <-> ForallOrdPairs (fun x y => x <> y) l.
  Proof.
    induction l as [|x l IH]; [split; constructor|]. split; intro H; inv H; constructor.
    - apply Forall_forall. intros y I Q. congruence.
    - apply IH; auto.
    - intro I. rewrite Forall_forall in H2. apply (H2 x); auto.
    - apply IH; auto.
  Qed.

  Lemma emplaceEdges_eq : forall l g, emplaceEdges g l = mkGraph (adj g) (edges g ++ map edgeOf l) (minId g).
  Proof.
    induction l as [|p l IH]; intro g; cbn [map]; unfold emplaceEdges; cbn [fold_left].
    - rewrite app_nil_r. destruct g; auto.
    - fold (emplaceEdges (emplaceEdge g (fst (fst p)) (snd (fst p)) (snd p)) l). rewrite IH. unfold emplaceEdge. cbn [adj edges minId]. rewrite <- app_assoc. reflexivity.
  Qed.
  Lemma emplace_build : forall lo hi l M, lo <= hi -> Forall (fun p => lo <= fst (fst p) < hi /\ lo <= snd (fst p) < hi /\ fst (fst p) <> snd (fst p)) l ->
    ForallOrdPairs diffPairs l -> (forall u v d, M u v = Some d <-> exists x y, In (x, y, d) l /\ samePair dir x y u v) ->
    exists a', (let! res := newGraph lo hi in buildAdj dir (emplaceEdges res l)) = Ok (mkGraph a' (map edgeOf l) lo) /\
      represents dir (mkGraph a' (map edgeOf l) lo) lo hi M.
  Proof.
    intros lo hi l M H F P R. unfold newGraph. replace (lo <=? hi) with true by lia. cbn [judgeAssert bind]. rewrite emplaceEdges_eq. cbn [adj edges minId app].
    assert (EF : forall p, efrom (edgeOf p) = fst (fst p)) by (intro; unfold edgeOf; apply efrom_mk).
    assert (EA : alen (repeat (@nil nat) (Z.to_nat (hi - lo))) = hi - lo) by (unfold alen; rewrite repeat_length; lia).
    apply build_ok; auto.
    - apply Forall_forall. intros s I. apply repeat_spec in I. auto.
    - rewrite Forall_map. eapply Forall_impl; [|exact F]. intros p (A & B & C). unfold GenProofs.okEdge, inRange. rewrite EF, EA. cbn [edgeOf eto].
      replace (lo + (hi - lo)) with hi by lia. auto.
    - rewrite FOP_map. eapply FOP_ext; [|exact P]. intros p q _ _. unfold diffPairs, diffEdges. rewrite !EF. auto.
    - intros u v d. rewrite R. split.
      + intros (x & y & I & J). exists (edgeOf (x, y, d)). split; [apply in_map; auto|]. unfold GenProofs.joins. rewrite EF. auto.
      + intros (e & I & J & K). apply in_map_iff in I as ([[x y] z] & <- & I). cbn [edgeOf edat snd fst] in K. subst z. exists x, y. split; auto.
        unfold GenProofs.joins in J. rewrite EF in J. exact J.
    - rewrite EA. lia.
  Qed.
  Lemma getEdges_build : forall a l m, getEdges (mkGraph a (map edgeOf l) m) = l.
  Proof.
    intros. unfold getEdges. cbn [edges]. rewrite map_map. rewrite <- (map_id l) at 2. apply map_ext. apply pairOf_edgeOf.
  Qed.
  Lemma rep_edges : forall g M lo hi, represents dir g lo hi M ->
    ForallOrdPairs diffPairs (getEdges g) /\
    (forall u v d, In (u, v, d) (getEdges g) -> M u v = Some d /\ lo <= u < hi /\ lo <= v < hi /\ u <> v) /\
    (forall u v d, M u v = Some d <-> exists x y, In (x, y, d) (getEdges g) /\ samePair dir x y u v).
  Proof.
    intros g M lo hi H. pose proof H as RP. apply rep_elim in H as (W & R & ML & NC). destruct (edges_ok E dir g M W R) as [(E1 & E2 & E3) _].
    split; [|split].
    - destruct W as (_ & D & _). apply FOP_distinct in D. unfold getEdges. rewrite FOP_map. eapply FOP_ext; [|exact D]. auto.
    - intros u v d I. apply E1 in I. split; auto. eapply rep_range; eauto.
    - intros u v d. split; [apply E2|]. intros (x & y & I & J). apply E1 in I. destruct J as [[<- <-]|(DF & <- & <-)]; auto. rewrite (rep_sym _ _ _ _ RP); auto.
  Qed.
  Lemma new_rep : forall lo hi, lo <= hi -> exists g, @newGraph E lo hi = Ok g /\ represents dir g lo hi (fun _ _ => None).
  Proof.
    intros lo hi H. destruct (newGraph_ok E dir lo hi H) as (g & Q & W & R & ML & NC). exists g. split; auto. apply rep_intro; auto. lia.
  Qed.
  Lemma add_rep : forall g M lo hi u v d, represents dir g lo hi M -> lo <= u < hi -> lo <= v < hi -> u <> v ->
    exists g', addEdge dir g u v d = Ok g' /\ represents dir g' lo hi (put dir M u v (Some d)).
  Proof.
    intros g M lo hi u v d H U V NE. apply rep_elim in H as (W & R & ML & NC). unfold nodeCount in NC.
    destruct (addEdge_ok E dir g M u v d) as (g' & Q & W' & R' & M' & N'); auto; [unfold inRange; lia|unfold inRange; lia|].
    exists g'. split; auto. apply rep_intro; auto; [lia|]. unfold nodeCount in *. lia.
  Qed.
  Fixpoint putAll (M : emap E) (l : list (Z * Z * E)) : emap E :=
    match l with [] => M | (u, v, d) :: l' => putAll (put dir M u v (Some d)) l' end.
  Lemma addEdges_rep : forall l g M lo hi, represents dir g lo hi M ->
    Forall (fun p => lo <= fst (fst p) < hi /\ lo <= snd (fst p) < hi /\ fst (fst p) <> snd (fst p)) l ->
    exists g', addEdges dir g l = Ok g' /\ represents dir g' lo hi (putAll M l).
  Proof.
    induction l as [|[[u v] d] l IH]; intros g M lo hi R F; cbn [addEdges putAll]; [eauto|]. inv F. cbn [fst snd] in H1. destruct H1 as (U & V & NE).
    destruct (add_rep g M lo hi u v d R U V NE) as (g' & -> & R'). cbn [bind]. apply IH; auto.
  Qed.
  (* a later entry wins; without repeated pairs every entry is found *)
  Lemma putAll_none : forall l M u v, (forall x y d, In (x, y, d) l -> ~ samePair dir x y u v) -> putAll M l u v = M u v.
  Proof.
    induction l as [|[[x y] d] l IH]; intros M u v H; cbn [putAll]; auto. rewrite IH; [|intros; eapply H; right; eauto].
    unfold put. destruct (samePairb dir x y u v) eqn:Q; auto. apply samePairb_iff in Q. exfalso. eapply H; [left; eauto|auto].
  Qed.
  Lemma putAll_some : forall l M u v, (exists x y d, In (x, y, d) l /\ samePair dir x y u v) ->
    exists x y d, In (x, y, d) l /\ samePair dir x y u v /\ putAll M l u v = Some d.
  Proof.
    induction l as [|[[x y] d] l IH]; intros M u v (x0 & y0 & d0 & I & J); [destruct I|]. cbn [putAll].
    destruct (existsb (fun p => samePairb dir (fst (fst p)) (snd (fst p)) u v) l) eqn:X.
    - apply existsb_exists in X as ([[a b] c] & I' & J'). cbn [fst snd] in J'. apply samePairb_iff in J'.
      destruct (IH (put dir M x y (Some d)) u v) as (a1 & b1 & c1 & I1 & J1 & Q); [exists a, b, c; auto|]. exists a1, b1, c1. split; [right; auto|auto].
    - assert (NO : forall a b c, In (a, b, c) l -> ~ samePair dir a b u v).
      { intros a b c I' J'. assert (existsb (fun p => samePairb dir (fst (fst p)) (snd (fst p)) u v) l = true); [|congruence].
        apply existsb_exists. exists (a, b, c). split; auto. apply samePairb_iff. auto. }
      rewrite putAll_none by auto. destruct I as [Q|I]; [|exfalso; eapply NO; eauto]. inv Q. exists x0, y0, d0. split; [left; auto|]. split; auto.
      unfold put. replace (samePairb dir x0 y0 u v) with true; auto. symmetry. apply samePairb_iff. auto.
  Qed.
  Lemma putAll_distinct : forall l M x y d u v, ForallOrdPairs diffPairs l -> In (x, y, d) l -> samePair dir x y u v -> putAll M l u v = Some d.
  Proof.
    intros l M x y d u v P I J. destruct (putAll_some l M u v) as (a & b & c & I' & J' & ->); [eauto|].
    assert (SP : samePair dir x y a b) by (eapply samePair_trans; [exact J|apply samePair_sym; exact J']).
    assert (X : (x, y, d) = (a, b, c)); [|congruence]. clear M J J'. induction P as [|p l F P IH]; [destruct I|]. rewrite Forall_forall in F.
    destruct I as [->|I], I' as [Q|I']; auto.
    - exfalso. apply (F _ I'). exact SP.
    - subst p. exfalso. apply (F _ I). apply samePair_sym. exact SP.
  Qed.
  Lemma rep_observe : forall g M lo hi cs, represents dir g lo hi M -> Forall (gcallOk lo hi) cs ->
    exists g' l, grun dir g cs = Ok (g', l) /\ ganswers dir M cs l.
  Proof.
    intros g M lo hi cs H F. apply rep_elim in H as (W & R & ML & NC). destruct (grun_ok E dir cs g M W R) as (g' & l & Q & A & _); [|eauto].
    rewrite ML, NC. auto.
  Qed.
  Lemma rep_throws : forall g M lo hi c, represents dir g lo hi M -> ~ gcallOk lo hi c -> gstep dir g c = Throw.
  Proof.
    intros g M lo hi c H F. apply rep_elim in H as (W & R & ML & NC). apply store_throws; auto. rewrite ML, NC. auto.
  Qed.
  Lemma erase_rep : forall g M lo hi u v, represents dir g lo hi M -> lo <= u < hi -> lo <= v < hi ->
    exists g', eraseEdge dir g u v = Ok (g', isEdge M u v) /\ represents dir g' lo hi (put dir M u v None).
  Proof.
    intros g M lo hi u v H U V. apply rep_elim in H as (W & R & ML & NC). unfold nodeCount in NC.
    destruct (eraseEdge_ok E dir g M u v) as (g' & Q & W' & R' & M' & N'); auto; [unfold inRange; lia|unfold inRange; lia|].
    exists g'. split; auto. apply rep_intro; auto; [lia|]. unfold nodeCount in *. lia.
  Qed.
End Store.
