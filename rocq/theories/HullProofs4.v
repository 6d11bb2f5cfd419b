From Verif Require Import Base BaseLemmas Tac RndModel RndLemmas RandSpec RandSeqModel ShuffleProofs FloatModel RealModel GeoModel GeoSpec HullModel HullSpec HullProofs HullProofs2 HullProofs3.
From Coq Require Import ZArith List Sorted Lia Permutation.
Import ListNotations.
Open Scope Z_scope.

Definition ifOk {A} (P : A -> Prop) (o : outcome A) : Prop := forall a, o = Ok a -> P a.
Lemma ifOk_bind : forall A B (m : rnd A) (f : A -> rnd B) P Q, always m (ifOk P) -> (forall a, P a -> always (f a) (ifOk Q)) -> always (rbind m f) (ifOk Q).
Proof.
  intros A B m f P Q H K. apply always_bind. revert H. apply always_mono. intros o O. destruct o; try (intros ? E; discriminate). apply K, O. reflexivity.
Qed.
Lemma ifOk_lift : forall A (o : outcome A) (P : A -> Prop), ifOk P o -> always (lift o) (ifOk P).
Proof. intros A o P H. exact H. Qed.

Lemma inDisk_small : forall dim l, 0 < dim -> dim <= 0x3FFFFFFF -> Forall (inDisk dim) l -> small l.
Proof.
  intros dim l D1 D2. unfold small. apply Forall_impl. intros [x y]. unfold inDisk. cbn [fst snd]. intros H.
  assert (Z.abs x < dim) by (apply Z.square_lt_simpl_nonneg; [lia|]; rewrite <- Z.abs_mul; rewrite Z.abs_eq by nia; nia).
  assert (Z.abs y < dim) by (apply Z.square_lt_simpl_nonneg; [lia|]; rewrite <- Z.abs_mul; rewrite Z.abs_eq by nia; nia).
  lia.
Qed.
Lemma pts_dec : forall p : list pt, p = [] \/ (exists a, In a p /\ forall b, In b p -> b = a) \/ (exists a b, In a p /\ In b p /\ a <> b).
Proof.
  intros p. destruct p as [|a p]; [left; reflexivity|right].
  destruct (Forall_dec (fun b => b = a) (fun b => (ltac:(decide equality; apply Z.eq_dec) : {b = a} + {b <> a})) p) as [F|N].
  - left. exists a. split; [left; reflexivity|]. rewrite Forall_forall in F. intros b [<-|B]; [reflexivity|exact (F b B)].
  - right. apply neg_Forall_Exists_neg in N; [|intros b; decide equality; apply Z.eq_dec]. apply Exists_exists in N. destruct N as (b & B & K).
    exists a, b. split; [left; reflexivity|]. split; [right; exact B|congruence].
Qed.
Lemma hull_incl : forall p h, small p -> convexHull p = Ok h -> incl h p.
Proof.
  intros p h S E. destruct (hull_correct p S) as (h' & E' & A & B & C). rewrite E in E'. inv E'.
  destruct (pts_dec p) as [->|[(a & IA & U)|T]].
  - rewrite C by reflexivity. apply incl_refl.
  - rewrite (B a IA U). intros x [<-|[]]. exact IA.
  - destruct (A T) as (_ & J & _). exact J.
Qed.
Lemma hull_spread : forall p h, small p -> convexHull p = Ok h -> ~ onOneLine h -> isHull p h.
Proof.
  intros p h S E NL. destruct (hull_correct p S) as (h' & E' & A & B & C). rewrite E in E'. inv E'.
  destruct (pts_dec p) as [->|[(a & IA & U)|T]].
  - exfalso. apply NL. rewrite C by reflexivity. intros x y z [].
  - exfalso. apply NL. rewrite (B a IA U). intros x y z [<-|[]] [<-|[]] [<-|[]]. unfold orient. ring.
  - exact (A T).
Qed.
Lemma line_incl : forall p q, incl p q -> onOneLine q -> onOneLine p.
Proof. intros p q I L a b c A B C. apply L; auto. Qed.
Lemma removelast_incl : forall (l : list pt), incl (removelast l) l.
Proof.
  intros l x X. destruct l as [|a l]; [contradiction|]. rewrite (app_removelast_last (0, 0)) by discriminate. apply in_or_app. left. exact X.
Qed.
Lemma NoDup_removelast : forall (l : list pt), NoDup l -> NoDup (removelast l).
Proof.
  intros l N. destruct l as [|a l]; [constructor|]. rewrite (app_removelast_last (0, 0)) in N by discriminate. apply NoDup_remove_1 in N. rewrite app_nil_r in N. exact N.
Qed.
Lemma NoDup_firstn : forall n (l : list pt), NoDup l -> NoDup (firstn n l).
Proof.
  induction n as [|n IH]; intros [|a l] N; cbn; try constructor; inversion N; subst; [|auto]. intros I. apply H1. rewrite <- (firstn_skipn n l). apply in_or_app. left. exact I.
Qed.
Lemma firstn_incl : forall n (l : list pt), incl (firstn n l) l.
Proof. intros n l x X. rewrite <- (firstn_skipn n l). apply in_or_app. left. exact X. Qed.

(* what convexDisk does with the points of its last round *)
Lemma select_hull : forall pts h0 n res h, small pts -> convexHull pts = Ok h0 -> Permutation (removelast (removelast h0)) res ->
  (n <= length res)%nat -> convexHull (firstn n res) = Ok h -> ~ onOneLine h ->
  length h = S n /\ NoDup (removelast h) /\ isHull h h.
Proof.
  intros pts h0 n res h S E0 P L E NL. set (q := firstn n res) in *.
  assert (I0 : incl h0 pts) by (apply hull_incl; assumption).
  assert (Iq : incl q h0). { intros x X. apply removelast_incl, removelast_incl. apply (Permutation_in x (Permutation_sym P)). apply (firstn_incl n). exact X. }
  assert (Sq : small q). { unfold small in *. rewrite Forall_forall in *. intros x X. apply S, I0, Iq, X. }
  assert (Ih : incl h q) by (apply hull_incl; assumption).
  assert (N0 : ~ onOneLine h0) by (intros X; apply NL; apply (line_incl h h0); [intros x Y; apply Iq, Ih, Y|exact X]).
  assert (Np : ~ onOneLine pts) by (intros X; apply N0; exact (line_incl h0 pts I0 X)).
  assert (Nq : ~ onOneLine q) by (intros X; apply NL; exact (line_incl h q Ih X)).
  pose proof (hull_spread pts h0 S E0 N0) as H0. pose proof (hull_spread q h Sq E NL) as H.
  assert (Dq : NoDup q). { apply NoDup_firstn. apply (Permutation_NoDup P). apply NoDup_removelast. exact (hull_distinct pts h0 H0 Np). }
  assert (BQ : forall x, In x q -> onBoundary q x).
  { intros x X. destruct (corner_boundary pts h0 x H0 (Iq x X)) as (y & NE & Y). exists y. split; [exact NE|]. intros z Z0. apply Y, I0, Iq, Z0. }
  destruct (boundary_count q h H Nq Dq BQ) as [PQ LQ]. split.
  - etransitivity; [exact LQ|]. unfold q. rewrite firstn_length. lia.
  - split; [exact (hull_distinct q h H Nq)|]. revert H. apply isHull_ext. intros x. split; [|apply Ih]. intros X. apply (removelast_incl h). exact (Permutation_in x PQ X).
Qed.
Lemma popBack_len : forall l v, popBack l = Ok v -> v = removelast l /\ alen l = alen v + 1.
Proof.
  intros l v E. destruct l as [|a l]; [discriminate|]. assert (V : removelast (a :: l) = v) by (unfold popBack in E; congruence). split; [congruence|].
  unfold alen. rewrite (app_removelast_last (0, 0) (l := a :: l)) by discriminate. rewrite V, app_length. cbn [length]. lia.
Qed.

Lemma hull_two_points : forall p, small p -> (exists a b, In a p /\ In b p /\ a <> b) -> exists h, convexHull p = Ok h /\ isHull p h.
Proof. intros p S T. destruct (hull_correct p S) as (h & E & A & _). exists h. split; [exact E|exact (A T)]. Qed.
Lemma hull_one_point : forall p a, small p -> In a p -> (forall b, In b p -> b = a) -> convexHull p = Ok [a].
Proof. intros p a S I U. destruct (hull_correct p S) as (h & E & _ & A & _). rewrite E, (A a I U). reflexivity. Qed.
Lemma hull_listed : forall p h q, isHull p h -> In q p -> (In q h <-> onBoundary p q).
Proof. intros p h q H Q. split; [apply corner_boundary; exact H|apply boundary_listed; assumption]. Qed.
Lemma triangle_hull : isHull [(0, 0); (2, 0); (0, 2)] [(0, 0); (2, 0); (0, 2); (0, 0)] /\ ~ onOneLine [(0, 0); (2, 0); (0, 2)].
Proof.
  split.
  - destruct (hull_two_points [(0, 0); (2, 0); (0, 2)]) as (h & E & H).
    + repeat constructor; cbn; lia.
    + exists (0, 0), (2, 0). cbn. split; [auto|]. split; [auto|discriminate].
    + vm_compute in E. inv E. exact H.
  - intros L. specialize (L (0, 0) (2, 0) (0, 2)). cbv in L. discriminate L; auto.
Qed.

Section Disk.
  Variable sqrt sin cos : real -> real.
  Variable llround : real -> Z.
  Lemma ring_in : forall fuel fuel' dim r, always (sampleRing sqrt sin cos llround fuel fuel' dim r) (ifOk (fun p => fst p * fst p + snd p * snd p < dim)).
  Proof.
    induction fuel as [|fuel IH]; intros fuel' dim r; [intros ? E; discriminate|]. cbn [sampleRing].
    apply ifOk_bind with (P := fun _ => True); [apply always_mono with (P := fun _ => True); [intros ? _ ? _; exact I|apply always_can; auto]|]. intros alpha _.
    apply ifOk_bind with (P := fun _ => True); [apply always_mono with (P := fun _ => True); [intros ? _ ? _; exact I|apply always_can; auto]|]. intros square _. cbv zeta.
    set (x := llround _). set (y := llround (rmul (cos alpha) _)).
    apply ifOk_bind with (P := fun v => v = x * x); [intros v E; apply chk_inv in E; apply E|]. intros xx ->.
    apply ifOk_bind with (P := fun v => v = y * y); [intros v E; apply chk_inv in E; apply E|]. intros yy ->.
    apply ifOk_bind with (P := fun v => v = x * x + y * y); [intros v E; apply chk_inv in E; apply E|]. intros d ->.
    destruct ((r <=? x * x + y * y) && (x * x + y * y <? dim)) eqn:C; [|apply IH].
    apply andb_prop in C. destruct C as [_ C]. apply Z.ltb_lt in C. intros a E. inv E. exact C.
  Qed.
  Lemma rings_in : forall count fuel fuel' dim r, always (sampleRings sqrt sin cos llround count fuel fuel' dim r) (ifOk (Forall (fun p => fst p * fst p + snd p * snd p < dim))).
  Proof.
    induction count as [|count IH]; intros fuel fuel' dim r; [intros ? E; inv E; constructor|]. cbn [sampleRings].
    eapply ifOk_bind; [apply ring_in|]. intros p P. eapply ifOk_bind; [apply IH|]. intros l L a E. inv E. constructor; assumption.
  Qed.
  Lemma loop_out : forall rounds fuel fuel' n dim res, 0 < dim -> dim <= 0x3FFFFFFF -> 0 <= n -> is_i64 n -> Forall (inDisk dim) res ->
    always (diskLoop sqrt sin cos llround rounds fuel fuel' n (dim * dim) res) (ifOk (fun r => exists pts h0, Forall (inDisk dim) pts /\ convexHull pts = Ok h0 /\ r = removelast h0 /\ n < alen r)).
  Proof.
    induction rounds as [|rounds IH]; intros fuel fuel' n dim res D1 D2 N1 N2 F; [intros ? E; discriminate|]. cbn [diskLoop].
    apply ifOk_bind with (P := fun _ => True); [intros ? _; exact I|]. intros r _.
    eapply ifOk_bind; [apply rings_in|]. intros more M.
    apply ifOk_bind with (P := fun v => convexHull (res ++ more) = Ok v); [intros v E; exact E|]. intros h0 H0.
    assert (FP : Forall (inDisk dim) (res ++ more)) by (apply Forall_app; split; [exact F|exact M]).
    apply ifOk_bind with (P := fun v => v = removelast h0); [intros v E; destruct h0; [discriminate|inversion E; reflexivity]|]. intros v ->.
    assert (U : u64 n = n) by (unfold u64; apply Z.mod_small; unfold is_i64 in N2; mach; lia).
    rewrite U. destruct (alen (removelast h0) <=? n) eqn:C.
    - apply IH; auto. rewrite Forall_forall in *. intros x X. apply FP. apply (hull_incl _ _ (inDisk_small dim _ D1 D2 (proj2 (Forall_forall _ _) FP)) H0). apply removelast_incl. exact X.
    - apply Z.leb_gt in C. intros a E. inv E. exists (res ++ more), h0. auto.
  Qed.
  Lemma disk_correct : forall rounds fuel fuel' n dim, 0 < dim -> 0 < n -> is_i64 n ->
    always (convexDisk sqrt sin cos llround rounds fuel fuel' n dim) (ifOk (fun h =>
      Forall (inDisk dim) h /\ (~ onOneLine h -> alen h = n + 1 /\ NoDup (removelast h) /\ isHull h h))).
  Proof.
    intros rounds fuel fuel' n dim D1 N1 N2. unfold convexDisk.
    apply ifOk_bind with (P := fun _ => dim <= 0x3FFFFFFF). { intros v E. unfold judgeAssert in E. destruct (dim <=? 0x3FFFFFFF) eqn:C; [|discriminate]. apply Z.leb_le in C. exact C. }
    intros _ D2. apply ifOk_bind with (P := fun _ => True); [intros ? _; exact I|]. intros nn _.
    apply ifOk_bind with (P := fun _ => True); [intros ? _; exact I|]. intros _ _.
    apply ifOk_bind with (P := fun v => v = dim * dim); [intros v E; apply chk_inv in E; apply E|]. intros d ->.
    eapply ifOk_bind; [apply loop_out; auto; try lia|].
    { constructor; [|constructor]. unfold inDisk. cbn. nia. }
    intros r (pts & h0 & FP & H0 & -> & L). cbv beta.
    apply ifOk_bind with (P := fun v => v = removelast (removelast h0) /\ n <= alen v).
    { intros v E. apply popBack_len in E. destruct E as [-> E]. split; [reflexivity|]. change (@alen point) with (@alen pt) in *. lia. }
    intros v (-> & L2).
    apply ifOk_bind with (P := Permutation (removelast (removelast h0))).
    { eapply always_mono; [|apply shuffle_always]. intros o O a ->. exact O. }
    intros res P. intros h E. pose proof (inDisk_small dim pts D1 D2 FP) as SP.
    assert (LR : (Z.to_nat n <= length res)%nat) by (rewrite <- (Permutation_length P); unfold alen in L2; lia).
    assert (IH0 : incl h0 pts) by (apply hull_incl; assumption).
    assert (FR : Forall (inDisk dim) (firstn (Z.to_nat n) res)).
    { rewrite Forall_forall in *. intros x X. apply FP, IH0. apply removelast_incl, removelast_incl. apply (Permutation_in x (Permutation_sym P)). apply (firstn_incl _ _ _ X). }
    pose proof (inDisk_small dim _ D1 D2 FR) as SR.
    split.
    - pose proof (hull_incl _ _ SR E) as IH. rewrite Forall_forall in *. intros x X. apply FR, IH, X.
    - intros NL. destruct (select_hull pts h0 (Z.to_nat n) res h SP H0 P LR E NL) as (A & B & C). split; [apply (f_equal Z.of_nat) in A; unfold alen; etransitivity; [exact A|lia]|]. auto.
  Qed.
  Lemma disk_zero : forall rounds fuel fuel' dim, 0 <= dim -> dim <= 0x3FFFFFFF ->
    convexDisk sqrt sin cos llround (S (S rounds)) fuel fuel' 0 dim = RRet UB.
  Proof.
    intros rounds fuel fuel' dim D1 D2. unfold convexDisk. replace (dim <=? 0x3FFFFFFF) with true by lia. cbn [lift judgeAssert rbind].
    change (chk (0 * 0)) with (Ok 0). cbn [lift rbind]. change (Z.quot 0 1000) with 0. replace (0 <=? dim) with true by lia. cbn [lift judgeAssert rbind].
    rewrite chk_Ok by (mach; nia). cbn [lift rbind diskLoop sampleRings Z.to_nat]. reflexivity.
  Qed.
  Lemma disk_throws : forall rounds fuel fuel' n dim, is_i64 (n * n) -> 0x3FFFFFFF < dim \/ dim < n * n / 1000 ->
    convexDisk sqrt sin cos llround rounds fuel fuel' n dim = RRet Throw.
  Proof.
    intros rounds fuel fuel' n dim N H. unfold convexDisk. destruct (dim <=? 0x3FFFFFFF) eqn:C; [|reflexivity]. cbn [lift judgeAssert rbind].
    rewrite (chk_Ok _ N). cbn [lift rbind]. rewrite Z.quot_div_nonneg by nia. replace (n * n / 1000 <=? dim) with false by lia. reflexivity.
  Qed.
End Disk.
