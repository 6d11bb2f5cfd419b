From Verif Require Import Tac RndModel RandSeqModel RndLemmas SortLemmas GraphModel GraphSpec GraphClientSpec UnionFindProofs.
From Coq Require Import Permutation.

(* ---- union-find client programs ---- *)
Lemma ufRun_ok : forall cs u E, ufInv u E -> Forall (callIn (alen u)) cs ->
  exists r, ufRun u cs = Ok r /\ ufAnswers (alen u) E cs r.
Proof.
  induction cs as [| c cs IH]; intros u E I H; [exists []; split; simpl; auto |].
  inversion_clear H as [| ? ? Hc Hcs]. destruct c as [a b | a b | a]; cbn [ufRun]; simpl in Hc.
  - destruct Hc as [Ha Hb]. destruct (union_inv u E a b I Ha Hb) as (j & u' & U1 & U2 & U3 & U4 & U5).
    rewrite U1. cbn [bind]. destruct (IH u' _ U3) as (r & R1 & R2); [rewrite U4; auto |].
    rewrite R1. cbn [bind]. eexists. split; [reflexivity |]. cbn [ufAnswers]. rewrite U4 in R2. auto.
  - destruct Hc as [Ha Hb]. destruct (connected_inv u E a b I Ha Hb) as (j & u' & U1 & U2 & U3 & U4 & U5).
    rewrite U1. cbn [bind]. destruct (IH u' _ U3) as (r & R1 & R2); [rewrite U4; auto |].
    rewrite R1. cbn [bind]. eexists. split; [reflexivity |]. cbn [ufAnswers]. rewrite U4 in R2. auto.
  - destruct (find_inv u E a I Hc) as (x & u' & F1 & F2 & F3 & F4 & F5 & F6). rewrite F1. cbn [bind].
    destruct (IH u' _ F3) as (r & R1 & R2); [rewrite F4; auto |].
    rewrite R1. cbn [bind]. eexists. split; [reflexivity |]. cbn [ufAnswers]. rewrite F4 in R2.
    destruct (Root_rng _ _ _ F2) as (_ & Ix & _). split; [exact Ix |]. split; [| exact R2].
    apply (inv_conn _ _ I); auto. exists x. split; auto. eapply Root_self; eauto.
Qed.

Lemma uf_program : forall n cs, 0 <= n <= I64_MAX -> Forall (callIn n) cs ->
  exists r, (let! u := ufInit n in ufRun u cs) = Ok r /\ ufAnswers n [] cs r.
Proof.
  intros n cs Hn H. destruct (ufInit_inv n Hn) as (u & U1 & U2 & U3 & _). rewrite U1. cbn [bind].
  rewrite <- U3 in *. apply ufRun_ok; auto.
Qed.

(* ---- shifting node numbers ---- *)
Definition shiftE (o : Z) (E : list (Z * Z)) : list (Z * Z) := map (fun e => (fst e - o, snd e - o)) E.
Lemma shiftE_app : forall o E F, shiftE o (E ++ F) = shiftE o E ++ shiftE o F.
Proof. intros. apply map_app. Qed.
Lemma in_shiftE : forall o E a b, In (a, b) (shiftE o E) <-> In (a + o, b + o) E.
Proof.
  intros o E a b. unfold shiftE. rewrite in_map_iff. split.
  - intros ((x & y) & H1 & H2). simpl in H1. inv H1. replace (x - o + o) with x by lia. replace (y - o + o) with y by lia. auto.
  - intros H. exists (a + o, b + o). simpl. split; [f_equal; lia | exact H].
Qed.
Lemma conn_shift : forall o E x y, conn (shiftE o E) x y <-> conn E (x + o) (y + o).
Proof.
  intros o E x y. split; intros H.
  - induction H; eauto using conn. apply conn_edge. apply in_shiftE. exact H.
  - assert (G : forall u v, conn E u v -> conn (shiftE o E) (u - o) (v - o)).
    { clear H x y. intros u v H. induction H; eauto using conn. apply conn_edge. apply in_shiftE.
      replace (a - o + o) with a by lia. replace (b - o + o) with b by lia. exact H. }
    apply G in H. replace (x + o - o) with x in H by lia. replace (y + o - o) with y in H by lia. exact H.
Qed.

(* ---- forests ---- *)
Lemma acyclic_snoc : forall E a b, acyclic (E ++ [(a, b)]) <-> acyclic E /\ ~ conn E a b.
Proof.
  intros E a b. split.
  - intros H. split.
    + intros E1 x y E2 -> C. apply (H E1 x y (E2 ++ [(a, b)])).
      * rewrite <- app_assoc. reflexivity.
      * eapply conn_mono; [| exact C]. intros e. rewrite !in_app_iff. tauto.
    + intros C. apply (H E a b []); auto. rewrite app_nil_r. exact C.
  - intros [HA HN] E1 x y E2 HE. destruct E2 as [| e E2] using rev_ind.
    + apply app_inj_tail in HE. destruct HE as [<- HE]. inv HE. rewrite app_nil_r. exact HN.
    + clear IHE2. change (E1 ++ (x, y) :: E2 ++ [e]) with (E1 ++ ((x, y) :: E2) ++ [e]) in HE. rewrite app_assoc in HE.
      apply app_inj_tail in HE. destruct HE as [-> <-]. rewrite app_assoc, conn_snoc.
      assert (XY : conn (E1 ++ (x, y) :: E2) x y) by (apply conn_edge; apply in_app_iff; right; left; reflexivity).
      assert (M : forall u v, conn (E1 ++ E2) u v -> conn (E1 ++ (x, y) :: E2) u v).
      { intros u v. apply conn_mono. intros f. rewrite !in_app_iff. simpl. tauto. }
      intros [C | [[C1 C2] | [C1 C2]]].
      * exact (HA E1 x y E2 eq_refl C).
      * apply HN. apply M in C1, C2. eauto using conn_trans, conn_sym.
      * apply HN. apply M in C1, C2. eauto using conn_trans, conn_sym.
Qed.
Lemma acyclic_nil : acyclic [].
Proof. intros E1 a b E2 H. destruct E1; discriminate. Qed.

(* ---- double cover ---- *)
Fixpoint dbl (E : list (Z * Z)) : list (Z * Z) :=
  match E with [] => [] | (a, b) :: E => (2 * a, 2 * b + 1) :: (2 * a + 1, 2 * b) :: dbl E end.
Lemma dbl_app : forall E F, dbl (E ++ F) = dbl E ++ dbl F.
Proof. induction E as [| [a b] E IH]; intros F; simpl; [reflexivity |]. rewrite IH. reflexivity. Qed.
Lemma in_dbl : forall E u v, In (u, v) (dbl E) <->
  exists a b, In (a, b) E /\ ((u = 2 * a /\ v = 2 * b + 1) \/ (u = 2 * a + 1 /\ v = 2 * b)).
Proof.
  induction E as [| [a b] E IH]; intros u v; cbn [dbl In].
  - split; [tauto | intros (x & y & [] & _)].
  - rewrite IH. split.
    + intros [H | [H | (x & y & H1 & H2)]].
      * inversion H. exists a, b. auto.
      * inversion H. exists a, b. auto.
      * exists x, y. auto.
    + intros (x & y & [H | H] & H2).
      * inv H. destruct H2 as [[-> ->] | [-> ->]]; auto.
      * right. right. exists x, y. auto.
Qed.
Definition flip (z : Z) : Z := if Z.even z then z + 1 else z - 1.
Lemma flip_even : forall x, flip (2 * x) = 2 * x + 1.
Proof. intros. unfold flip. rewrite Z.even_mul. reflexivity. Qed.
Lemma flip_odd : forall x, flip (2 * x + 1) = 2 * x.
Proof. intros. unfold flip. rewrite Z.even_add, Z.even_mul. simpl. lia. Qed.
Lemma flip_dbl : forall E u v, conn (dbl E) u v -> conn (dbl E) (flip u) (flip v).
Proof.
  intros E u v H. induction H; eauto using conn. apply conn_edge. apply in_dbl in H. apply in_dbl.
  destruct H as (x & y & H1 & [[-> ->] | [-> ->]]); exists x, y; split; auto; rewrite flip_even, flip_odd; auto.
Qed.
Lemma conn_app_cases : forall E F u v, conn (E ++ F) u v ->
  conn E u v \/ exists w, (exists z, In (w, z) F \/ In (z, w) F) /\ conn (E ++ F) u w.
Proof.
  intros E F u v H.
  assert (G : conn E u v \/ ((exists w, (exists z, In (w, z) F \/ In (z, w) F) /\ conn (E ++ F) u w) /\
                             exists w, (exists z, In (w, z) F \/ In (z, w) F) /\ conn (E ++ F) v w)).
  { induction H.
    - left. constructor.
    - apply in_app_iff in H. destruct H as [H | H]; [left; apply conn_edge; exact H |]. right.
      split; [exists a | exists b]; (split; [eauto | constructor]).
    - destruct IHconn as [I | [I J]]; [left; apply conn_sym; exact I | right; auto].
    - destruct IHconn1 as [I | [(w & W1 & W2) J]]; destruct IHconn2 as [K | [(w' & W1' & W2') L]].
      + left. eapply conn_trans; eauto.
      + right. split; [exists w'; split; auto; eapply conn_trans; eauto | exact L].
      + right. split; [exists w; auto |]. destruct J as (t & T1 & T2). exists t. split; auto.
        eapply conn_trans; [apply conn_sym; exact H0 | exact T2].
      + right. split; [exists w; auto | exact L]. }
  destruct G as [G | [G _]]; auto.
Qed.

Definition clash (E : list (Z * Z)) (x : Z) : Prop := conn (dbl E) (2 * x) (2 * x + 1).
Lemma clash_snoc : forall E a b, (forall x, ~ clash E x) -> ~ clash (E ++ [(a, b)]) a ->
  forall x, ~ clash (E ++ [(a, b)]) x.
Proof.
  intros E a b HO HN x C. set (E' := E ++ [(a, b)]) in *.
  pose proof C as C'. unfold clash in C'. unfold E' in C' at 1. rewrite dbl_app in C'. apply conn_app_cases in C'.
  rewrite <- dbl_app in C'. fold E' in C'. destruct C' as [C' | (w & (z & Hw) & Cw)]; [exact (HO x C') |].
  assert (W : conn (dbl E') w (2 * a) \/ conn (dbl E') w (2 * a + 1)).
  { assert (I1 : In (2 * a, 2 * b + 1) (dbl E')) by (apply in_dbl; exists a, b; split; auto; unfold E'; apply in_app_iff; right; left; reflexivity).
    assert (I2 : In (2 * a + 1, 2 * b) (dbl E')) by (apply in_dbl; exists a, b; split; auto; unfold E'; apply in_app_iff; right; left; reflexivity).
    simpl in Hw. destruct Hw as [[Hw | [Hw | []]] | [Hw | [Hw | []]]]; inv Hw.
    - left. constructor.
    - right. constructor.
    - left. apply conn_sym. apply conn_edge. exact I1.
    - right. apply conn_sym. apply conn_edge. exact I2. }
  apply HN. unfold clash. destruct W as [W | W].
  - assert (A : conn (dbl E') (2 * x) (2 * a)) by (eapply conn_trans; eauto).
    pose proof (flip_dbl _ _ _ A) as B. rewrite !flip_even in B.
    eapply conn_trans; [apply conn_sym; exact A |]. eapply conn_trans; [exact C | exact B].
  - assert (A : conn (dbl E') (2 * x) (2 * a + 1)) by (eapply conn_trans; eauto).
    pose proof (flip_dbl _ _ _ A) as B. rewrite flip_even, flip_odd in B.
    eapply conn_trans; [apply conn_sym; exact B |]. apply conn_sym.
    eapply conn_trans; [apply conn_sym; exact A | exact C].
Qed.

Lemma colour_no_clash : forall E x, twoColourable E -> ~ clash E x.
Proof.
  intros E x [c Hc] C.
  assert (V : forall u v, conn (dbl E) u v -> xorb (c (u / 2)) (Z.odd u) = xorb (c (v / 2)) (Z.odd v)).
  { intros u v H. induction H; try congruence. apply in_dbl in H. destruct H as (p & q & H1 & H2). specialize (Hc p q H1).
    assert (D0 : forall t, 2 * t / 2 = t) by (intros; dlia). assert (D1 : forall t, (2 * t + 1) / 2 = t) by (intros; dlia).
    destruct H2 as [[-> ->] | [-> ->]]; rewrite D0, D1, Z.odd_add, !Z.odd_mul; simpl; destruct (c p), (c q); simpl; congruence. }
  apply V in C. assert (D0 : 2 * x / 2 = x) by dlia. assert (D1 : (2 * x + 1) / 2 = x) by dlia.
  rewrite D0, D1, Z.odd_add, Z.odd_mul in C. simpl in C. destruct (c x); discriminate.
Qed.

Lemma lxor_even : forall b, Z.lxor (b * 2) 1 = 2 * b + 1.
Proof.
  intros b. rewrite <- Z.add_nocarry_lxor; [lia |].
  change 1 with (Z.ones 1). rewrite Z.land_ones by lia. apply Z_mod_mult.
Qed.

Lemma dbl_edges : forall n E, edgesIn 0 n E -> edgesIn 0 (2 * n) (dbl E).
Proof.
  intros n E H. induction H as [| [a b] E [H1 H2] H IH]; cbn [dbl]; constructor.
  - unfold node in *. cbn [fst snd] in *. lia.
  - constructor; [unfold node in *; cbn [fst snd] in *; lia | exact IH].
Qed.

Lemma no_clash_colour : forall u E n, ufInv u (dbl E) -> alen u = 2 * n -> edgesIn 0 n E ->
  (forall x, 0 <= x < n -> ~ clash E x) -> twoColourable E.
Proof.
  intros u E n I L HE HC.
  exists (fun x => match find u (2 * x), find u (2 * x + 1) with Ok (p, _), Ok (q, _) => p <? q | _, _ => false end).
  intros a b Hab. unfold edgesIn in HE. rewrite Forall_forall in HE. specialize (HE _ Hab). simpl in HE. unfold node in HE.
  destruct (find_inv u (dbl E) (2 * a) I ltac:(lia)) as (p & u1 & F1 & R1 & _).
  destruct (find_inv u (dbl E) (2 * a + 1) I ltac:(lia)) as (q & u2 & F2 & R2 & _).
  destruct (find_inv u (dbl E) (2 * b) I ltac:(lia)) as (q' & u3 & F3 & R3 & _).
  destruct (find_inv u (dbl E) (2 * b + 1) I ltac:(lia)) as (p' & u4 & F4 & R4 & _).
  rewrite F1, F2, F3, F4.
  assert (p = p').
  { assert (C : conn (dbl E) (2 * a) (2 * b + 1)) by (apply conn_edge; apply in_dbl; exists a, b; auto).
    apply (inv_conn _ _ I) in C; try lia. destruct C as (r & C1 & C2).
    rewrite (Root_fun _ _ _ R1 _ C1), (Root_fun _ _ _ R4 _ C2). reflexivity. }
  assert (q = q').
  { assert (C : conn (dbl E) (2 * a + 1) (2 * b)) by (apply conn_edge; apply in_dbl; exists a, b; auto).
    apply (inv_conn _ _ I) in C; try lia. destruct C as (r & C1 & C2).
    rewrite (Root_fun _ _ _ R2 _ C1), (Root_fun _ _ _ R3 _ C2). reflexivity. }
  assert (p <> q).
  { intros ->. apply (HC a); [lia |]. apply (inv_conn _ _ I); try lia. exists q. auto. }
  subst. lia.
Qed.

(* ---- sets ---- *)
Lemma smem_In : forall x s, smem x s = true <-> In x s.
Proof.
  intros x s. unfold smem. rewrite existsb_exists. split.
  - intros (y & H1 & H2). replace x with y by lia. exact H1.
  - intros H. exists x. split; auto. lia.
Qed.
Lemma sinsert_spec : forall x s, NoDup s -> NoDup (sinsert x s) /\ forall y, In y (sinsert x s) <-> y = x \/ In y s.
Proof.
  intros x s N. unfold sinsert. destruct (smem x s) eqn:E.
  - apply smem_In in E. split; auto. intros y. split; auto. intros [-> | H]; auto.
  - assert (Nx : ~ In x s) by (intros H; apply smem_In in H; congruence).
    pose proof (insert_perm x s) as P. split.
    + eapply Permutation_NoDup; [exact P | constructor; auto].
    + intros y. split.
      * intros H. apply (Permutation_in _ (Permutation_sym P)) in H. destruct H; auto.
      * intros H. apply (Permutation_in _ P). destruct H; [left | right]; auto.
Qed.
