(* isSimple: the sweep over the sides of a polygon. *)
From Coq Require Import Sorted Permutation.
From Verif Require Import Tac GeoModel GeoSpec GeoProofs SimpleModel SimpleSpec SimpleProofs SimpleProofs2.

Lemma onSegment_swap : forall a b q, onSegment a b q <-> onSegment b a q.
Proof.
  intros a b q. unfold onSegment, between. rewrite (Z.min_comm (fst b)), (Z.max_comm (fst b)), (Z.min_comm (snd b)), (Z.max_comm (snd b)).
  assert (orient b a q = - orient a b q) as -> by (unfold orient; ring). split; intros (H & K); split; [lia|exact K|lia|exact K].
Qed.
Lemma meet_swap : forall a b c d, meet a b c d <-> meet b a c d.
Proof.
  intros a b c d. unfold meet, properlyCross. rewrite !(onSegment_swap b a).
  assert (orient b a c = - orient a b c) as -> by (unfold orient; ring).
  assert (orient b a d = - orient a b d) as -> by (unfold orient; ring).
  assert (- orient a b c * - orient a b d = orient a b c * orient a b d) as -> by ring.
  rewrite (Z.mul_comm (orient c d b)). tauto.
Qed.

Lemma onU : forall a b q, small a -> small b -> small q -> a <> b ->
  (onSegment a b q <-> orient a b q = 0 /\ Z.min (U a) (U b) <= U q <= Z.max (U a) (U b)).
Proof.
  intros a b q Sa Sb Sq N. destruct (Z.lt_trichotomy (U a) (U b)) as [L|[L|L]].
  - rewrite on_iff by assumption. unfold inU. split; intros (H & K); split; lia.
  - exfalso. apply N, U_inj; assumption.
  - rewrite onSegment_swap, on_iff by assumption. unfold inU.
    assert (orient b a q = - orient a b q) as -> by (unfold orient; ring). split; intros (H & K); split; lia.
Qed.

(* two sides with a corner in common *)
Lemma corner_only : forall a v b q, small a -> small v -> small b -> small q -> a <> v -> v <> b ->
  ~ onSegment a v b -> ~ onSegment v b a -> onSegment a v q -> onSegment v b q -> q = v.
Proof.
  intros a v b q Sa Sv Sb Sq N1 N2 H1 H2 Q1 Q2.
  destruct (Z.eq_dec (U q) (U v)) as [E|E]; [apply U_inj; assumption|]. exfalso.
  rewrite onU in * by assumption. destruct Q1 as (O1 & Q1), Q2 as (O2 & Q2).
  assert (N : v <> q) by congruence.
  assert (O : orient a v b = 0).
  { apply (collinear3 v q); [exact N|rewrite <- orient_cycle; exact O1|apply orient_same|rewrite orient_swap; lia]. }
  assert (O' : orient v b a = 0) by (rewrite <- orient_cycle; exact O).
  assert (K1 : ~ (Z.min (U a) (U v) <= U b <= Z.max (U a) (U v))) by tauto.
  assert (K2 : ~ (Z.min (U v) (U b) <= U a <= Z.max (U v) (U b))) by tauto.
  lia.
Qed.

(* ---- events *)
Definition swapB (a b : Z * Z) : bool := (fst b <? fst a) || ((fst a =? fst b) && (snd b <? snd a)).
Lemma swapB_spec : forall a b, small a -> small b -> (swapB a b = true <-> U b < U a).
Proof.
  intros a b A B. rewrite U_lt by assumption. unfold swapB. rewrite Bool.orb_true_iff, Bool.andb_true_iff, !Z.ltb_lt, Z.eqb_eq.
  split; intros [H|(H & K)]; auto.
Qed.

Lemma eventLess_true : forall e f, small (epoint e) -> small (epoint f) -> eventLess e f = true -> ordE e f.
Proof.
  intros e f A B. unfold eventLess, ordE. rewrite U_lt by assumption. cbn [epoint fst snd].
  destruct (Z.eqb_spec (ex e) (ex f)) as [X|X]; [|rewrite Z.ltb_lt; auto].
  destruct (Z.eqb_spec (ey e) (ey f)) as [Y|Y]; [|rewrite Z.ltb_lt; auto].
  intros H. right. unfold epoint. rewrite X, Y. split; [reflexivity|].
  destruct (erem e), (erem f); cbn in H; intros; congruence.
Qed.
Lemma eventLess_false : forall e f, small (epoint e) -> small (epoint f) -> eventLess e f = false -> ordE f e.
Proof.
  intros e f A B. unfold eventLess, ordE. rewrite U_lt by assumption. cbn [epoint fst snd].
  destruct (Z.eqb_spec (ex e) (ex f)) as [X|X]; [|rewrite Z.ltb_ge; intros; left; left; lia].
  destruct (Z.eqb_spec (ey e) (ey f)) as [Y|Y]; [|rewrite Z.ltb_ge; intros; left; right; lia].
  intros H. right. unfold epoint. rewrite X, Y. split; [reflexivity|].
  destruct (erem e), (erem f); cbn in H; intros; congruence.
Qed.
Lemma ordE_trans : forall e f g, ordE e f -> ordE f g -> ordE e g.
Proof.
  unfold ordE. intros e f g [H|(H & H')] [K|(K & K')]; [left; lia|left; lia|left; lia|right]. split; [lia|auto].
Qed.

Lemma insertEvent_perm : forall e l, Permutation (e :: l) (insertEvent e l).
Proof.
  induction l as [|x l IH]; cbn [insertEvent]; [reflexivity|]. destruct (eventLess e x); [reflexivity|].
  rewrite perm_swap. constructor. exact IH.
Qed.
Lemma sortEvents_perm : forall l, Permutation l (sortEvents l).
Proof.
  induction l as [|x l IH]; [reflexivity|]. cbn [sortEvents fold_right]. rewrite <- insertEvent_perm. constructor. exact IH.
Qed.
Lemma insertEvent_sorted : forall e l, small (epoint e) -> Forall (fun f => small (epoint f)) l ->
  StronglySorted ordE l -> StronglySorted ordE (insertEvent e l).
Proof.
  intros e l E F S. induction S as [|x l S IH H]; cbn [insertEvent]; [repeat constructor|].
  inv F. destruct (eventLess e x) eqn:L.
  - apply eventLess_true in L; [|assumption|assumption]. constructor; [constructor; assumption|].
    constructor; [exact L|]. apply Forall_impl with (2 := H). intros f. apply ordE_trans, L.
  - apply eventLess_false in L; [|assumption|assumption]. constructor; [apply IH; assumption|].
    apply Forall_forall. intros f K. apply (Permutation_in _ (Permutation_sym (insertEvent_perm e l))) in K.
    destruct K as [<-|K]; [exact L|exact (proj1 (Forall_forall _ _) H f K)].
Qed.
Lemma sortEvents_sorted : forall l, Forall (fun f => small (epoint f)) l -> StronglySorted ordE (sortEvents l).
Proof.
  intros l F. induction F as [|x l X F IH]; [constructor|]. cbn [sortEvents fold_right].
  apply insertEvent_sorted; [exact X| |exact IH].
  apply Forall_forall. intros f K. apply (Permutation_in _ (Permutation_sym (sortEvents_perm l))) in K.
  exact (proj1 (Forall_forall _ _) F f K).
Qed.

Section Polygon.
  Variable ps : list point.
  Hypothesis R : inRange ps.
  Hypothesis L : (3 <= length ps)%nat.

  Local Notation c i := (corner ps i).
  Local Notation N := (length ps).

  Definition eseg (i : nat) : seg :=
    if swapB (c i) (c (i + 1)) then {| sl := c (i + 1); sr := c i; sid := Z.of_nat i |}
    else {| sl := c i; sr := c (i + 1); sid := Z.of_nat i |}.
  Definition ev (r : bool) (i : nat) : event :=
    let p := if r then sr (eseg i) else sl (eseg i) in
    {| ex := fst p; ey := snd p; erem := r; eswap := swapB (c i) (c (i + 1)); eid := Z.of_nat i |}.
  Definition evs0 (l : list nat) : list event := flat_map (fun i => [ev false i; ev true i]) l.
  Definition isedge (s : seg) : Prop := exists i, (i < N)%nat /\ s = eseg i.

  Lemma cs : forall i, small (c i).
  Proof. intros i. apply corner_small. exact R. Qed.

  Lemma eseg_id : forall i, sid (eseg i) = Z.of_nat i.
  Proof. intros. unfold eseg. destruct (swapB _ _); reflexivity. Qed.
  Lemma eseg_small : forall i, smallS (eseg i).
  Proof. intros. unfold eseg. destruct (swapB _ _); split; apply cs. Qed.
  Lemma eseg_le : forall i, U (sl (eseg i)) <= U (sr (eseg i)).
  Proof.
    intros. unfold eseg. pose proof (swapB_spec (c i) (c (i + 1)) (cs _) (cs _)) as H.
    destruct (swapB _ _); cbn [sl sr]; [apply proj1 in H; specialize (H eq_refl)|apply proj2 in H]; [lia|].
    destruct (Z_lt_le_dec (U (c (i + 1))) (U (c i))) as [K|K]; [specialize (H K); discriminate|exact K].
  Qed.
  Lemma eseg_on : forall i q, onSegment (sl (eseg i)) (sr (eseg i)) q <-> onSegment (c i) (c (i + 1)) q.
  Proof. intros. unfold eseg. destruct (swapB _ _); cbn [sl sr]; [apply onSegment_swap|tauto]. Qed.
  Lemma eseg_meet : forall i j, meetS (eseg i) (eseg j) <-> meet (c i) (c (i + 1)) (c j) (c (j + 1)).
  Proof.
    intros. unfold meetS.
    assert (A : forall a b k, meet (sl (eseg k)) (sr (eseg k)) a b <-> meet (c k) (c (k + 1)) a b).
    { intros. unfold eseg. destruct (swapB _ _); cbn [sl sr]; [apply meet_swap|tauto]. }
    rewrite A. split; intros H; apply meet_sym; apply meet_sym in H; apply A; exact H.
  Qed.
  Lemma eseg_left : forall i, sl (eseg i) = c i \/ sr (eseg i) = c i.
  Proof. intros. unfold eseg. destruct (swapB _ _); auto. Qed.
  Lemma eseg_right : forall i, sl (eseg i) = c (i + 1) \/ sr (eseg i) = c (i + 1).
  Proof. intros. unfold eseg. destruct (swapB _ _); auto. Qed.

  Lemma ev_point : forall r i, epoint (ev r i) = if r then sr (eseg i) else sl (eseg i).
  Proof. intros. unfold epoint, ev. cbn [ex ey]. destruct r; symmetry; apply surjective_pairing. Qed.
  Lemma ev_small : forall r i, small (epoint (ev r i)).
  Proof. intros. rewrite ev_point. destruct (eseg_small i). destruct r; assumption. Qed.

  Lemma ordered_ok : forall i, (i < N)%nat ->
    ordered ps (alen ps) (Z.of_nat i) = Ok (sl (eseg i), sr (eseg i), swapB (c i) (c (i + 1))).
  Proof.
    intros i I. unfold ordered. rewrite aget_corner0 by exact I. change (Z.of_nat i + 1) with (Z.of_nat i + Z.of_nat 1).
    rewrite aget_corner by exact L. cbn [bind]. fold (swapB (c i) (c (i + 1))). unfold eseg. destruct (swapB _ _); reflexivity.
  Qed.
  Lemma makeEvents_ok : forall l, (forall i, In i l -> (i < N)%nat) ->
    makeEvents ps (alen ps) (map Z.of_nat l) = Ok (evs0 l).
  Proof.
    induction l as [|i l IH]; intros B; [reflexivity|]. cbn [map makeEvents].
    rewrite ordered_ok by (apply B; left; reflexivity). cbn [bind].
    rewrite IH by (intros; apply B; right; assumption). reflexivity.
  Qed.

  Lemma evs0_in : forall e l, In e (evs0 l) <-> exists i r, In i l /\ e = ev r i.
  Proof.
    intros e l. unfold evs0. rewrite in_flat_map. split.
    - intros (i & I & [<-|[<-|[]]]); eauto.
    - intros (i & r & I & ->). exists i. split; [exact I|]. destruct r; [right; left|left]; reflexivity.
  Qed.
  Lemma evs0_tag : forall l, NoDup l -> NoDup (map tag (evs0 l)).
  Proof.
    intros l D. induction D as [|i l I D IH]; [constructor|].
    assert (A : forall r, ~ In (r, Z.of_nat i) (map tag (evs0 l))).
    { intros r K. apply in_map_iff in K. destruct K as (f & Tf & K). apply evs0_in in K. destruct K as (j & r' & J & ->).
      unfold tag, ev in Tf. cbn [erem eid] in Tf. inv Tf. apply Nat2Z.inj in H1. subst j. contradiction. }
    change (map tag (evs0 (i :: l))) with ((false, Z.of_nat i) :: (true, Z.of_nat i) :: map tag (evs0 l)).
    constructor; [intros [K|K]; [discriminate|exact (A _ K)]|]. constructor; [apply A|exact IH].
  Qed.

  Definition evs : list event := sortEvents (evs0 (seq 0 N)).

  Lemma evs_in : forall e, In e evs <-> exists i r, (i < N)%nat /\ e = ev r i.
  Proof.
    intros e. unfold evs. split.
    - intros H. apply (Permutation_in _ (Permutation_sym (sortEvents_perm _))) in H. apply evs0_in in H.
      destruct H as (i & r & H & E). apply in_seq in H. exists i, r. split; [lia|exact E].
    - intros (i & r & H & E). apply (Permutation_in _ (sortEvents_perm _)). apply evs0_in.
      exists i, r. split; [apply in_seq; lia|exact E].
  Qed.
  Lemma evs_tag : NoDup (map tag evs).
  Proof. apply (Permutation_NoDup (l := map tag (evs0 (seq 0 N)))); [apply Permutation_map, sortEvents_perm|apply evs0_tag, seq_NoDup]. Qed.
  Lemma evs_sorted : StronglySorted ordE evs.
  Proof.
    apply sortEvents_sorted. apply Forall_forall. intros e H. apply evs0_in in H. destruct H as (i & r & _ & ->). apply ev_small.
  Qed.

  Lemma isSimple_sweep : forall place, isSimple place ps = sweep place ps (alen ps) evs [].
  Proof.
    intros place. unfold isSimple. rewrite assertBounds_ok by exact R. cbn [bind].
    unfold point in *. destruct (Z.ltb_spec (alen ps) 3); [unfold alen in *; lia|]. rewrite indices_eq, makeEvents_ok; [reflexivity|].
    intros i I. apply in_seq in I. destruct I as (_ & I). exact I.
  Qed.

  Lemma evs_builds : forall l, (forall e, In e l -> In e evs) -> builds (alen ps) isedge ps l.
  Proof.
    intros l H e I Re. apply H in I. apply evs_in in I. destruct I as (i & r & I & ->). cbn [ev erem] in Re. subst r.
    exists (c i), (c (i + 1)). cbn [ev eid]. split; [apply aget_corner0; exact I|].
    change (Z.of_nat i + 1) with (Z.of_nat i + Z.of_nat 1). split; [apply aget_corner; exact L|].
    exists i. split; [exact I|]. reflexivity.
  Qed.

  (* neighbours *)
  Lemma next_cases : forall i, (i < N)%nat -> ((i + 1) mod N = i + 1 /\ i + 1 < N \/ (i + 1) mod N = 0 /\ i + 1 = N)%nat.
  Proof.
    intros i I. destruct (Nat.eq_dec (i + 1) N) as [E|E].
    - right. rewrite E, Nat.mod_same by lia. auto.
    - left. rewrite Nat.mod_small by lia. lia.
  Qed.
  Lemma near_iff : forall i j, (i < N)%nat -> (j < N)%nat ->
    (near (alen ps) (eseg i) (eseg j) <-> ((i + 1) mod N = j \/ (j + 1) mod N = i)%nat).
  Proof.
    intros i j I J. unfold near, alen. rewrite !eseg_id.
    destruct (next_cases i I) as [(E & ?)|(E & ?)], (next_cases j J) as [(F & ?)|(F & ?)]; rewrite E, F; lia.
  Qed.

  Section NoSpike.
    Hypothesis NS : noSpike ps.

    Lemma c_ne : forall i, c i <> c (i + 1).
    Proof.
      intros i E. destruct (NS i) as (_ & H). apply H. rewrite E. split; [apply orient_same|]. unfold between. lia.
    Qed.
    Lemma c_mod1 : forall i, c ((i + 1) mod N) = c (i + 1).
    Proof. intros. apply corner_mod. Qed.

    Lemma edge_wf : forall s, isedge s -> wfS s.
    Proof.
      intros s (i & I & ->). split; [apply eseg_small|]. pose proof (eseg_le i) as H.
      destruct (Z.eq_dec (U (sl (eseg i))) (U (sr (eseg i)))) as [E|E]; [|lia]. exfalso.
      apply U_inj in E; [|apply eseg_small|apply eseg_small]. apply (c_ne i).
      unfold eseg in E. destruct (swapB _ _); cbn [sl sr] in E; congruence.
    Qed.
    Lemma edge_ids : forall s t, isedge s -> isedge t -> sid s = sid t -> s = t.
    Proof. intros s t (i & I & ->) (j & J & ->). rewrite !eseg_id. intros E. apply Nat2Z.inj in E. congruence. Qed.

    Lemma On_iff : forall i q, (i < N)%nat -> small q -> (On (eseg i) q <-> onSegment (c i) (c (i + 1)) q).
    Proof.
      intros i q I Q. rewrite <- eseg_on. destruct (edge_wf (eseg i)) as ((A & B) & C); [exists i; auto|].
      rewrite on_iff by assumption. unfold On, inS, side. tauto.
    Qed.

    Lemma next_only : forall i q, (i < N)%nat -> small q -> On (eseg i) q -> On (eseg ((i + 1) mod N)) q -> q = c (i + 1).
    Proof.
      intros i q I Q H K. apply On_iff in H; [|exact I|exact Q]. apply On_iff in K; [|apply Nat.mod_upper_bound; lia|exact Q].
      rewrite c_mod1, corner_mod_add in K. replace (i + 1 + 1)%nat with (i + 2)%nat in K by lia.
      destruct (NS i) as (S1 & S2). pose proof (c_ne (i + 1)) as N2. replace (i + 1 + 1)%nat with (i + 2)%nat in N2 by lia.
      apply (corner_only (c i) (c (i + 1)) (c (i + 2))); try assumption; try apply cs. apply c_ne.
    Qed.

    Lemma next_mate : forall i j, (i < N)%nat -> ((i + 1) mod N = j)%nat ->
      exists v, small v /\ (v = sl (eseg i) \/ v = sr (eseg i)) /\ (v = sl (eseg j) \/ v = sr (eseg j)) /\
        forall q, small q -> On (eseg i) q -> On (eseg j) q -> q = v.
    Proof.
      intros i j I <-. exists (c (i + 1)). split; [apply cs|]. split; [destruct (eseg_right i); auto|].
      split; [rewrite <- c_mod1; destruct (eseg_left ((i + 1) mod N)); auto|]. intros q Q. apply next_only; assumption.
    Qed.
    Lemma edge_mates : forall s t, isedge s -> isedge t -> near (alen ps) s t ->
      exists v, small v /\ (v = sl s \/ v = sr s) /\ (v = sl t \/ v = sr t) /\
        forall q, small q -> On s q -> On t q -> q = v.
    Proof.
      intros s t (i & I & ->) (j & J & ->) H. apply near_iff in H; [|assumption|assumption]. destruct H as [H|H].
      - apply next_mate; assumption.
      - destruct (next_mate j i J H) as (v & H1 & H2 & H3 & H4). exists v. auto.
    Qed.

    Lemma edge_unique : forall z s t q, isedge z -> isedge s -> isedge t -> small q -> s <> t ->
      near (alen ps) z s -> near (alen ps) z t -> On z q -> On s q -> On t q -> False.
    Proof.
      assert (A : forall i j k q, (i < N)%nat -> (j < N)%nat -> (k < N)%nat -> small q -> ((i + 1) mod N = j)%nat -> ((k + 1) mod N = i)%nat ->
        On (eseg i) q -> On (eseg j) q -> On (eseg k) q -> False).
      { intros i j k q I J K Q Hj Hi Qi Qj Qk. subst j. pose proof (next_only i q I Q Qi Qj) as E1.
        rewrite <- Hi in Qi. pose proof (next_only k q K Q Qk Qi) as E2. apply (c_ne i). rewrite <- E1, E2, <- c_mod1, Hi. reflexivity. }
      intros z s t q (i & I & ->) (j & J & ->) (k & K & ->) Q D H1 H2 Qi Qj Qk.
      apply near_iff in H1; [|assumption|assumption]. apply near_iff in H2; [|assumption|assumption].
      destruct H1 as [H1|H1], H2 as [H2|H2].
      - congruence.
      - apply (A i j k q); assumption.
      - apply (A i k j q); assumption.
      - apply D. f_equal. destruct (next_cases j J) as [(E & ?)|(E & ?)], (next_cases k K) as [(F & ?)|(F & ?)]; lia.
    Qed.

    Lemma evs_edge : forall e, In e evs -> exists s, isedge s /\ sid s = eid e /\ epoint e = if erem e then sr s else sl s.
    Proof.
      intros e H. apply evs_in in H. destruct H as (i & r & I & ->). exists (eseg i). split; [exists i; auto|].
      rewrite eseg_id, ev_point. split; reflexivity.
    Qed.
    Lemma edge_has : forall s, isedge s -> hasins s evs /\ hasrem s evs.
    Proof.
      intros s (i & I & ->). split; [exists (ev false i)|exists (ev true i)]; rewrite eseg_id;
        (split; [apply evs_in; eauto|split; reflexivity]).
    Qed.

    Lemma start_inv : Inv (alen ps) isedge evs [].
    Proof.
      constructor.
      - constructor.
      - constructor.
      - intros s Es. destruct (edge_has s Es). split; [intros []|tauto].
      - intros s Es _. apply edge_has. exact Es.
      - intros s e [].
      - constructor.
      - constructor.
      - intros s t Es _ _ H. exfalso. apply H, edge_has, Es.
      - apply evs_tag.
      - apply evs_sorted.
      - apply evs_edge.
    Qed.

    Lemma clean_simple : clean (alen ps) isedge <-> simple ps.
    Proof.
      unfold clean, simple. split.
      - intros C. split; [exact L|]. split; [|exact NS]. intros i j I J D N1 N2 M.
        apply eseg_meet in M. destruct (C (eseg i) (eseg j)) as [H|H]; [exists i; auto|exists j; auto| | |contradiction].
        + intros E. apply D. apply (f_equal sid) in E. rewrite !eseg_id in E. lia.
        + apply near_iff in H; tauto.
      - intros (_ & H & _) s t (i & I & ->) (j & J & ->) D.
        destruct (Nat.eq_dec ((i + 1) mod N) j) as [E|E]; [left; apply near_iff; auto|].
        destruct (Nat.eq_dec ((j + 1) mod N) i) as [F|F]; [left; apply near_iff; auto|].
        right. intros M. apply eseg_meet in M. revert M. apply H; try assumption. congruence.
    Qed.

    Lemma noSpike_simple : forall place, searches place ->
      exists b, isSimple place ps = Ok b /\ (b = true <-> simple ps).
    Proof.
      intros place SP. rewrite isSimple_sweep.
      destruct (sweep_ok (alen ps) isedge edge_wf edge_ids edge_mates edge_unique place SP ps evs [] start_inv) as (b & E & H).
      - apply evs_builds. auto.
      - exists b. split; [exact E|]. rewrite H. apply clean_simple.
    Qed.
  End NoSpike.

  (* ---- without any condition the sweep is defined *)
  Record Inv2 (es : list event) (l : list seg) : Prop := {
    d_small : Forall smallS l;
    d_in : forall e, In e es -> In e evs;
    d_sorted : StronglySorted ordE es;
    d_tag : NoDup (map tag es);
    d_rem : forall e, In e es -> erem e = true -> (exists s, In s l /\ sid s = eid e) \/
      (exists f, In f es /\ erem f = false /\ eid f = eid e)
  }.

  Lemma ins_before_rem : forall e f, In e evs -> In f evs -> erem e = true -> erem f = false -> eid f = eid e -> ~ ordE e f.
  Proof.
    intros e f He Hf Re Rf D. apply evs_in in He. apply evs_in in Hf. destruct He as (i & r & I & ->), Hf as (j & r' & J & ->).
    cbn [ev erem eid] in *. subst r r'. apply Nat2Z.inj in D. subst j. intros [O|(O & O')]; [|specialize (O' eq_refl); discriminate].
    rewrite !ev_point in O. pose proof (eseg_le i). lia.
  Qed.

  Lemma small_sweep : forall place, searches place -> forall es l, Inv2 es l ->
    exists b, sweep place ps (alen ps) es l = Ok b.
  Proof.
    intros place SP. induction es as [|e es IH]; intros l I; [exists true; reflexivity|].
    pose proof (d_small _ _ I) as Fs. pose proof (d_sorted _ _ I) as Ss. inv Ss. rename H1 into Ss, H2 into Sh.
    pose proof (d_tag _ _ I) as T. cbn [map] in T. inversion T as [|? ? T1 T2]. subst.
    assert (He : In e evs) by (apply (d_in _ _ I); left; reflexivity).
    cbn [sweep]. destruct (erem e) eqn:Re.
    - destruct (splitId (eid e) l) as [[a b]|] eqn:Sp.
      + apply splitId_Some in Sp. destruct Sp as (z & Dz & ->). apply Forall_app in Fs. destruct Fs as (Fa & Fb). inv Fb.
        assert (X : exists m, match lastOpt a, headOpt b with Some p, Some s => segMeet s p (alen ps) | _, _ => Ok false end = Ok m).
        { destruct (lastOpt a) as [p|] eqn:La; [|exists false; reflexivity]. destruct b as [|s b]; [exists false; reflexivity|]. cbn [headOpt].
          apply lastOpt_Some in La. destruct La as (a' & ->). apply Forall_app in Fa. destruct Fa as (_ & Fp). inv Fp. inv H2.
          destruct (segMeet_ok (alen ps) s p) as (m & E & _); [assumption|assumption|]. exists m. exact E. }
        destruct X as (m & ->). cbn [bind]. destruct m; [exists false; reflexivity|]. apply IH. constructor.
        * apply Forall_app. auto.
        * intros f H. apply (d_in _ _ I). right. exact H.
        * exact Ss.
        * exact T2.
        * intros f H Rf. destruct (d_rem _ _ I f (or_intror H) Rf) as [(s & Is & D)|(g & Ig & Rg & D)].
          -- left. exists s. split; [|exact D]. apply in_app_or in Is. apply in_or_app. destruct Is as [Is|[->|Is]]; [auto| |auto].
             exfalso. apply T1. replace (tag e) with (tag f); [apply in_map; exact H|]. unfold tag. congruence.
          -- right. destruct Ig as [<-|Ig]; [congruence|]. exists g. auto.
      + exfalso. destruct (d_rem _ _ I e (or_introl eq_refl) Re) as [(s & Is & D)|(g & Ig & Rg & D)].
        * exact (splitId_None _ _ Sp s Is D).
        * destruct Ig as [<-|Ig]; [congruence|].
          apply (ins_before_rem e g He (d_in _ _ I g (or_intror Ig)) Re Rg D). exact (proj1 (Forall_forall _ _) Sh g Ig).
    - destruct (evs_builds (e :: es) (d_in _ _ I) e (or_introl eq_refl) Re) as (p & q & -> & -> & Ez). cbn [bind].
      fold (mkSeg e p q). remember (mkSeg e p q) as z eqn:Hz. assert (Dz : sid z = eid e) by (rewrite Hz; apply mkSeg_id).
      clear p q Hz. assert (Sz : smallS z) by (destruct Ez as (i & _ & ->); apply eseg_small).
      unfold emplace. rewrite allCompare_ok by assumption. cbn [bind].
      remember (firstn (place (length es) z l) l) as a eqn:Ha. remember (skipn (place (length es) z l) l) as b eqn:Hb.
      assert (El : l = a ++ b) by (rewrite Ha, Hb, firstn_skipn; reflexivity). clear Ha Hb. subst l.
      apply Forall_app in Fs. destruct Fs as (Fa & Fb).
      assert (Rest : exists r, (let! m := match lastOpt a with Some p => segMeet z p (alen ps) | None => Ok false end in
                if m then Ok false
                else
                  let! m := match headOpt b with Some s => segMeet z s (alen ps) | None => Ok false end in
                  if m then Ok false else sweep place ps (alen ps) es (a ++ z :: b)) = Ok r).
      { assert (X : exists m, match lastOpt a with Some p => segMeet z p (alen ps) | None => Ok false end = Ok m).
        { destruct (lastOpt a) as [p|] eqn:La; [|exists false; reflexivity].
          apply lastOpt_Some in La. destruct La as (a' & ->). apply Forall_app in Fa. destruct Fa as (_ & Fp). inv Fp.
          destruct (segMeet_ok (alen ps) z p) as (m & E & _); [assumption|assumption|]. exists m. exact E. }
        assert (Y : exists m, match headOpt b with Some s => segMeet z s (alen ps) | None => Ok false end = Ok m).
        { destruct b as [|s b']; cbn [headOpt]; [exists false; reflexivity|]. inv Fb.
          destruct (segMeet_ok (alen ps) z s) as (m & E & _); [assumption|assumption|]. exists m. exact E. }
        destruct X as (m & ->), Y as (m' & ->). cbn [bind]. destruct m; [exists false; reflexivity|]. cbn [bind].
        destruct m'; [exists false; reflexivity|]. apply IH. constructor.
        - apply Forall_app. split; [exact Fa|constructor; assumption].
        - intros f H. apply (d_in _ _ I). right. exact H.
        - exact Ss.
        - exact T2.
        - intros f H Rf. destruct (d_rem _ _ I f (or_intror H) Rf) as [(s & Is & D)|(g & Ig & Rg & D)].
          + left. exists s. split; [|exact D]. apply in_app_or in Is. apply in_or_app. destruct Is as [Is|Is]; [left|right; right]; exact Is.
          + destruct Ig as [<-|Ig]; [|right; exists g; auto]. left. exists z. split; [apply in_or_app; right; left; reflexivity|congruence]. }
      destruct (lastOpt a) as [p|] eqn:La.
      + pose proof La as Lb. apply lastOpt_Some in Lb. destruct Lb as (a' & Ea). assert (Sp : smallS p).
        { apply (proj1 (Forall_forall _ _) Fa). rewrite Ea. apply in_or_app. right. left. reflexivity. }
        rewrite segLess_ok by assumption. cbn [bind]. destruct (lessb p z); [|exists false; reflexivity].
        rewrite La. exact Rest.
      + cbn [bind]. rewrite La. exact Rest.
  Qed.

  Lemma start_inv2 : Inv2 evs [].
  Proof.
    constructor; [constructor|auto|apply evs_sorted|apply evs_tag|].
    intros e H _. right. apply evs_in in H. destruct H as (i & r & I & ->). exists (ev false i).
    split; [apply evs_in; eauto|split; reflexivity].
  Qed.
End Polygon.

(* ---- the theorems *)
Lemma isSimple_short : forall place ps, inRange ps -> (length ps < 3)%nat -> isSimple place ps = Ok false.
Proof.
  intros place ps R S. unfold isSimple. rewrite assertBounds_ok by exact R. cbn [bind].
  unfold point in *. destruct (Z.ltb_spec (alen ps) 3); [reflexivity|unfold alen in *; lia].
Qed.

Lemma isSimple_defined : forall place ps, searches place -> inRange ps -> exists b, isSimple place ps = Ok b.
Proof.
  intros place ps SP R. destruct (le_lt_dec 3 (length ps)) as [L|L].
  - rewrite isSimple_sweep by assumption. apply small_sweep; try assumption. apply start_inv2; assumption.
  - exists false. apply isSimple_short; assumption.
Qed.

Lemma isSimple_exact : forall place ps, searches place -> inRange ps -> noSpike ps ->
  exists b, isSimple place ps = Ok b /\ (b = true <-> simple ps).
Proof.
  intros place ps SP R NS. destruct (le_lt_dec 3 (length ps)) as [L|L].
  - apply noSpike_simple; assumption.
  - exists false. split; [apply isSimple_short; assumption|]. split; [discriminate|]. intros (H & _). lia.
Qed.

Lemma isSimple_accepts : forall place ps, searches place -> inRange ps -> simple ps -> isSimple place ps = Ok true.
Proof.
  intros place ps SP R Si. pose proof (proj2 (proj2 Si)) as NS. destruct (isSimple_exact place ps SP R NS) as (b & E & H).
  rewrite E. f_equal. apply H, Si.
Qed.

Lemma isSimple_sound : forall place ps, searches place -> inRange ps -> noSpike ps ->
  isSimple place ps = Ok true -> simple ps.
Proof.
  intros place ps SP R NS E. destruct (isSimple_exact place ps SP R NS) as (b & E' & H). rewrite E in E'. inv E'. apply H. reflexivity.
Qed.

Lemma isSimple_throws : forall place ps, ~ inRange ps ->
  Forall (fun p => Z.abs (fst p) < two63 /\ Z.abs (snd p) < two63) ps -> isSimple place ps = Throw.
Proof. intros place ps R F. unfold isSimple. rewrite assertBounds_throw by assumption. reflexivity. Qed.
