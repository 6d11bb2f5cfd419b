(* Pruefer codes: the correspondence between codes and trees. *)
From Verif Require Import Base Tac RndModel GenSpec GraphSpec GenRandSpec GenTreeSpec.
From Coq Require Import Permutation.
Open Scope Z_scope.

(* V, code, edges: the smallest node of V that is not in the code is a leaf *)
Inductive pf : list Z -> list Z -> list (Z * Z) -> Prop :=
| pf_last : forall V x y, NoDup V -> length V = 2%nat -> In x V -> In y V -> x <> y -> pf V [] [(x, y)]
| pf_step : forall V x y code E, NoDup V -> In x V -> In y V -> ~ In y (x :: code) ->
    (forall v, In v V -> ~ In v (x :: code) -> y <= v) ->
    pf (remove Z.eq_dec y V) code E -> pf V (x :: code) ((x, y) :: E).

Lemma in_rem : forall v y V, In v (remove Z.eq_dec y V) <-> In v V /\ v <> y.
Proof. intros. split; [apply in_remove|]. intros (A & B). apply in_in_remove; auto. Qed.
Lemma NoDup_rem : forall y V, NoDup V -> NoDup (remove Z.eq_dec y V).
Proof. induction V as [|a V IH]; intro N; cbn [remove]; auto. inv N. destruct (Z.eq_dec y a); auto. constructor; auto. rewrite in_rem. tauto. Qed.
Lemma rem_length : forall y V, NoDup V -> In y V -> length V = S (length (remove Z.eq_dec y V)).
Proof.
  induction V as [|a V IH]; intros N I; [destruct I|]. inv N. cbn [remove]. destruct (Z.eq_dec y a) as [->|NE].
  - rewrite notin_remove; auto.
  - destruct I as [->|I]; [tauto|]. cbn [length]. f_equal. auto.
Qed.

Lemma pf_nodup : forall V code E, pf V code E -> NoDup V.
Proof. intros V code E H. inv H; auto. Qed.
Lemma pf_incl : forall V code E, pf V code E -> incl code V.
Proof.
  induction 1 as [V x y N L X Y NE|V x y code E N X Y NY MN H IH]; [intros z []|]. intros z [<-|I]; auto. apply IH in I. apply in_rem in I. tauto.
Qed.
Lemma pf_len : forall V code E, pf V code E -> length V = (length code + 2)%nat /\ length E = (length code + 1)%nat.
Proof.
  induction 1 as [V x y N L X Y NE|V x y code E N X Y NY MN H IH]; [auto|]. cbn [length]. rewrite (rem_length y V) by auto. lia.
Qed.
Lemma pf_in : forall V code E, pf V code E -> forall u v, joined E u v -> In u V /\ In v V /\ u <> v.
Proof.
  induction 1 as [V x y N L X Y NE|V x y code E N X Y NY MN H IH]; intros u v [I|I].
  - destruct I as [Q|[]]. inv Q. auto.
  - destruct I as [Q|[]]. inv Q. auto.
  - destruct I as [Q|I]. + inv Q. repeat split; auto. intros ->. apply NY. left. auto.
    + destruct (IH u v (or_introl I)) as (A & B & C). apply in_rem in A. apply in_rem in B. tauto.
  - destruct I as [Q|I]. + inv Q. repeat split; auto. intros ->. apply NY. left. auto.
    + destruct (IH u v (or_intror I)) as (A & B & C). apply in_rem in A. apply in_rem in B. tauto.
Qed.
Lemma joined_cons : forall x y E u v, joined ((x, y) :: E) u v <-> (u = x /\ v = y) \/ (u = y /\ v = x) \/ joined E u v.
Proof.
  intros. unfold joined. cbn [In]. split.
  - intros [[Q|Q]|[Q|Q]]; try (inv Q); auto.
  - intros [(-> & ->)|[(-> & ->)|[Q|Q]]]; auto.
Qed.
Lemma joined_sym : forall E u v, joined E u v -> joined E v u.
Proof. unfold joined. tauto. Qed.
Lemma pf_some : forall V code E, pf V code E -> forall v, In v V -> exists a, joined E v a.
Proof.
  induction 1 as [V x y N L X Y NE|V x y code E N X Y NY MN H IH]; intros v I.
  - assert (v = x \/ v = y).
    { destruct (Z.eq_dec v x); auto. destruct (Z.eq_dec v y); auto. exfalso.
      assert (NN : NoDup [v; x; y]). { repeat constructor; cbn; intuition congruence. }
      apply (NoDup_incl_length (l' := V)) in NN; [cbn in NN; lia|]. intros z [<-|[<-|[<-|[]]]]; auto. }
    destruct H as [-> | ->]; [exists y|exists x]; apply joined_cons; auto.
  - destruct (Z.eq_dec v y) as [->|NE]; [exists x; apply joined_cons; auto|].
    destruct (IH v) as (a & J); [apply in_rem; auto|]. exists a. apply joined_cons. auto.
Qed.
Lemma pf_one : forall V code E, pf V code E -> forall v a b, ~ In v code -> joined E v a -> joined E v b -> a = b.
Proof.
  induction 1 as [V x y N L X Y NE|V x y code E N X Y NY MN H IH]; intros v a b NI JA JB; apply joined_cons in JA; apply joined_cons in JB.
  - assert (joined (@nil (Z * Z)) v a -> False) by (intros [[]|[]]). assert (joined (@nil (Z * Z)) v b -> False) by (intros [[]|[]]). intuition congruence.
  - assert (RA : forall u, joined E u y -> False). { intros u J. apply (pf_in _ _ _ H) in J as (_ & J & _). apply in_rem in J. tauto. }
    assert (RB : forall u, joined E y u -> False). { intros u J. apply (RA u). apply joined_sym. auto. }
    destruct JA as [(-> & ->)|[(-> & ->)|JA]].
    + exfalso. apply NI. left. auto.
    + destruct JB as [(-> & ->)|[(_ & ->)|JB]]; auto. exfalso. eapply RB; eauto.
    + destruct JB as [(-> & ->)|[(-> & ->)|JB]].
      * exfalso. apply NI. left. auto.
      * exfalso. eapply RB; eauto.
      * eapply IH; eauto. intro I. apply NI. right. auto.
Qed.
Lemma pf_two : forall V code E, pf V code E -> forall v, In v code -> exists a b, a <> b /\ joined E v a /\ joined E v b.
Proof.
  induction 1 as [V x y N L X Y NE|V x y code E N X Y NY MN H IH]; intros v I; [destruct I|].
  destruct (in_dec Z.eq_dec v code) as [J|J].
  - destruct (IH v J) as (a & b & AB & A & B). exists a, b. split; auto. split; apply joined_cons; auto.
  - destruct I as [->|I]; [|tauto]. assert (NE : v <> y) by (intros ->; apply NY; left; auto).
    destruct (pf_some _ _ _ H v) as (a & A); [apply in_rem; auto|]. exists y, a. split.
    + intros ->. apply (pf_in _ _ _ H) in A as (_ & A & _). apply in_rem in A. tauto.
    + split; apply joined_cons; auto.
Qed.
(* the leaves are the nodes that do not occur *)
Lemma pf_leaf : forall V code E, pf V code E -> forall v, In v V -> (~ In v code <-> exists a, forall b, joined E v b <-> a = b).
Proof.
  intros V code E H v I. split.
  - intro NI. destruct (pf_some _ _ _ H v I) as (a & A). exists a. intro b. split; [|intros <-; auto]. intro B. eapply pf_one; eauto.
  - intros (a & A) J. destruct (pf_two _ _ _ H v J) as (b & c & BC & B & C). apply A in B. apply A in C. congruence.
Qed.
(* the specification is the same relation *)
Lemma pf_spec : forall V code E, pf V code E -> prueferCode V E code.
Proof.
  induction 1 as [V x y N L X Y NE|V x y code E N X Y NY MN H IH]; [constructor; auto|]. constructor; auto.
  - intros ->. apply NY. left. auto.
  - intros u v J. apply (pf_in _ _ _ H) in J as (A & B & _). apply in_rem in A. apply in_rem in B. tauto.
  - intros v I Q. apply MN; auto. apply (pf_leaf V (x :: code) ((x, y) :: E)); auto. constructor; auto.
Qed.

Lemma pf_conn : forall V code E, pf V code E -> forall u v, In u V -> In v V -> conn E u v.
Proof.
  assert (W : forall E E' u v, incl E E' -> conn E u v -> conn E' u v). { intros E E' u v I. induction 1; [apply conn_refl|apply conn_edge; auto|apply conn_sym; auto|eapply conn_trans; eauto]. }
  induction 1 as [V x y N L X Y NE|V x y code E N X Y NY MN H IH]; intros u v U W'.
  - assert (T : forall v, In v V -> v = x \/ v = y).
    { intros z I. destruct (Z.eq_dec z x); auto. destruct (Z.eq_dec z y); auto. exfalso.
      assert (NN : NoDup [z; x; y]). { repeat constructor; cbn; intuition congruence. }
      apply (NoDup_incl_length (l' := V)) in NN; [cbn in NN; lia|]. intros q [<-|[<-|[<-|[]]]]; auto. }
    assert (C : conn [(x, y)] x y) by (apply conn_edge; left; auto).
    destruct (T u U) as [-> | ->], (T v W') as [-> | ->]; try apply conn_refl; auto. apply conn_sym; auto.
  - assert (NE : x <> y) by (intros ->; apply NY; left; auto).
    assert (T : forall z, In z V -> conn ((x, y) :: E) z x).
    { intros z I. destruct (Z.eq_dec z y) as [->|ZY].
      - apply conn_sym, conn_edge. left. auto.
      - apply (W E); [intros q; right; auto|]. apply IH; apply in_rem; auto. }
    eapply conn_trans; [apply T; auto|]. apply conn_sym. apply T. auto.
Qed.

(* the number of edges at v *)
Definition incident (v : Z) (e : Z * Z) : bool := (fst e =? v) || (snd e =? v).
Definition deg (v : Z) (E : list (Z * Z)) : Z := alen (filter (incident v) E).
Lemma deg_cons : forall v x y E, x <> y -> deg v ((x, y) :: E) = (if x =? v then 1 else 0) + (if y =? v then 1 else 0) + deg v E.
Proof. intros. unfold deg, incident, alen. cbn [filter fst snd]. destruct (x =? v) eqn:?, (y =? v) eqn:?; cbn [orb length]; lia. Qed.
Lemma occ_cons : forall v x l, occurrences v (x :: l) = (if x =? v then 1 else 0) + occurrences v l.
Proof. intros. unfold occurrences, alen. cbn [filter]. destruct (x =? v); cbn [length]; lia. Qed.
Lemma occ_notin : forall v l, ~ In v l <-> occurrences v l = 0.
Proof.
  induction l as [|x l IH]; [cbn; unfold occurrences; cbn; intuition|]. rewrite occ_cons. assert (0 <= occurrences v l) by (unfold occurrences, alen; lia). cbn [In].
  destruct (Z.eq_dec x v) as [->|NE].
  - rewrite Z.eqb_refl. split; [intro A; exfalso; apply A; auto|lia].
  - replace (x =? v) with false by lia. rewrite Z.add_0_l, <- IH. tauto.
Qed.
Lemma deg_none : forall v E, (forall a, ~ joined E v a) -> deg v E = 0.
Proof.
  intros v E H. unfold deg, alen. replace (filter (incident v) E) with (@nil (Z * Z)); auto. symmetry.
  induction E as [|[x y] E IH]; auto. cbn [filter]. unfold incident at 1. cbn [fst snd].
  destruct (x =? v) eqn:A; [exfalso; apply Z.eqb_eq in A; subst; apply (H y); left; left; auto|].
  destruct (y =? v) eqn:B; [exfalso; apply Z.eqb_eq in B; subst; apply (H x); right; left; auto|]. cbn [orb]. apply IH.
  intros a J. apply (H a). apply joined_cons. auto.
Qed.
Lemma pf_deg : forall V code E, pf V code E -> forall v, In v V -> deg v E = 1 + occurrences v code.
Proof.
  induction 1 as [V x y N L X Y NE|V x y code E N X Y NY MN H IH]; intros v I.
  - destruct (pf_some _ _ _ (pf_last V x y N L X Y NE) v I) as (a & J). apply joined_cons in J.
    rewrite deg_cons by auto. unfold deg, occurrences, alen. cbn. assert (v = x \/ v = y) by (destruct J as [(-> & ->)|[(-> & ->)|[[]|[]]]]; auto). destruct (x =? v) eqn:?, (y =? v) eqn:?; lia.
  - assert (NE : x <> y) by (intros ->; apply NY; left; auto). rewrite deg_cons, occ_cons by auto.
    destruct (Z.eq_dec v y) as [->|VY].
    + rewrite deg_none. * rewrite (proj1 (occ_notin y code)); [|intro; apply NY; right; auto]. replace (x =? y) with false by lia. rewrite Z.eqb_refl. lia.
      * intros a J. apply (pf_in _ _ _ H) in J as (J & _). apply in_rem in J. tauto.
    + rewrite IH by (apply in_rem; auto). replace (y =? v) with false by lia. lia.
Qed.
(* no pair twice *)
Lemma pf_simple : forall V code E, pf V code E -> ForallOrdPairs (fun e f => ~ sameEdge e f) E.
Proof.
  induction 1 as [V x y N L X Y NE|V x y code E N X Y NY MN H IH]; [repeat constructor|]. constructor; auto.
  apply Forall_forall. intros [a b] I Q. destruct (pf_in _ _ _ H a b (or_introl I)) as (A & B & _). apply in_rem in A. apply in_rem in B.
  destruct Q as [Q|Q]; cbn [fst snd] in Q; inv Q; tauto.
Qed.

(* one code per tree *)
Lemma pf_inj : forall V1 c1 E1, pf V1 c1 E1 -> forall V2 c2 E2, pf V2 c2 E2 -> (forall v, In v V1 <-> In v V2) ->
  (forall u v, joined E1 u v <-> joined E2 u v) -> c1 = c2.
Proof.
  induction 1 as [V1 x1 y1 N L X Y NE|V1 x1 y1 c1 E1 N X Y NY MN H IH]; intros V2 c2 E2 H2 SV SE.
  - destruct c2 as [|a c2]; auto. exfalso. apply pf_len in H2 as L2. destruct L2 as (L2 & _). cbn [length] in L2.
    assert (length V2 <= length V1)%nat. { apply NoDup_incl_length; [eapply pf_nodup; eauto|]. intros v I. apply SV. auto. } lia.
  - pose proof (pf_step V1 x1 y1 c1 E1 N X Y NY MN H) as H1. pose proof (pf_len _ _ _ H1) as (L1 & _).
    destruct H2 as [V2 x2 y2 N2 LL2 X2 Y2 NE2|V2 x2 y2 c2 E2 N2 X2 Y2 NY2 MN2 H2].
    + exfalso. cbn [length] in L1. assert (length V1 <= length V2)%nat. { apply NoDup_incl_length; auto. intros v I. apply SV. auto. } lia.
    + pose proof (pf_step V2 x2 y2 c2 E2 N2 X2 Y2 NY2 MN2 H2) as H2'.
      assert (LF : forall v, In v V1 -> (~ In v (x1 :: c1) <-> ~ In v (x2 :: c2))).
      { intros v I. rewrite (pf_leaf _ _ _ H1 v I), (pf_leaf _ _ _ H2' v) by (apply SV; auto). split; intros (a & A); exists a; intro b; rewrite <- A; [symmetry|]; apply SE. }
      assert (y1 = y2).
      { assert (y1 <= y2) by (apply MN; [apply SV; auto|apply LF; auto; apply SV; auto]). assert (y2 <= y1) by (apply MN2; [apply SV; auto|apply LF; auto]). lia. }
      subst y2. assert (x1 = x2).
      { assert (A : joined ((x1, y1) :: E1) y1 x1) by (apply joined_cons; auto). assert (B : joined ((x2, y1) :: E2) y1 x2) by (apply joined_cons; auto). apply SE in B. eapply (pf_one _ _ _ H1); eauto. }
      subst x2. f_equal. apply (IH (remove Z.eq_dec y1 V2) c2 E2); auto.
      * intro v. rewrite !in_rem, SV. tauto.
      * assert (HN : forall V c E u v, pf (remove Z.eq_dec y1 V) c E -> joined E u v -> joined E u v /\ u <> y1 /\ v <> y1).
        { intros V c E u v HH J. split; auto. apply (pf_in _ _ _ HH) in J as (A & B & _). apply in_rem in A. apply in_rem in B. tauto. }
        intros u v. split; intro J.
        -- destruct (HN _ _ _ _ _ H J) as (_ & A & B). pose proof (proj1 (SE u v)) as Q. rewrite !joined_cons in Q. intuition congruence.
        -- destruct (HN _ _ _ _ _ H2 J) as (_ & A & B). pose proof (proj2 (SE u v)) as Q. rewrite !joined_cons in Q. intuition congruence.
Qed.
