From Coq Require Import QArith Permutation.
From Verif Require Import Tac RndModel RandIntModel RndLemmas RandSpec MathModel RandSeqModel GraphModel CollModel ConvexModel ConvexSpec DegModel DegSpec DegProofs3 DegProofs4 EngineModel EngineSpec EngineProofs EngineFitProofs.
From Verif Require Import GenModel GenSpec GenProofs GenOpsModel GenOpsProofs2 GenOpsProofs PipeProofs2 GenMakeModel FloatModel ArgsModel InitModel GenExModel GenExProofs.
Open Scope Z_scope.

Lemma can_bind_inv : forall A B (m : rnd A) (f : A -> rnd B) b,
  can (rbind m f) (Ok b) -> exists a, can m (Ok a) /\ can (f a) (Ok b).
Proof.
  intros A B m f b. induction m as [[a | | |] | lo hi k IH]; simpl; try discriminate; eauto.
  intros (x & Hx & C). destruct (IH x C) as (a & Ca & Cb). eauto.
Qed.
Lemma can_rint : forall lo hi x, can (rint lo hi) (Ok x) -> lo <= x < hi.
Proof.
  intros lo hi x C. unfold rint in C. destruct (lo <? hi); simpl in C; [|discriminate]. destruct C as (y & Hy & E). inv E. exact Hy.
Qed.
Lemma can_distinct : forall count lo hi l, can (distinct count lo hi) (Ok l) -> 0 <= count /\ Z.of_nat (length l) = count.
Proof.
  intros count lo hi l C. unfold distinct in C.
  apply can_bind_inv in C as (u & C1 & C). simpl in C1. apply assert_true in C1.
  apply can_bind_inv in C as (e & _ & C). apply can_bind_inv in C as (u' & _ & C). split; [lia|].
  assert (K : forall n i used res, can (distinctLoop n i lo hi used res) (Ok l) -> length l = (length res + n)%nat).
  { induction n as [|n IH]; intros i used res D; cbn [distinctLoop] in D; [simpl in D; inv D; lia|].
    apply can_bind_inv in D as (? & _ & D). apply can_bind_inv in D as (? & _ & D).
    apply can_bind_inv in D as (? & _ & D). apply IH in D. rewrite app_length in D. simpl in D. lia. }
  apply K in C. simpl in C. lia.
Qed.
Lemma insert_length : forall x l, length (insert x l) = S (length l).
Proof. induction l as [|y l IH]; simpl; [reflexivity|]. destruct (x <=? y); simpl; congruence. Qed.
Lemma sort_length : forall l, length (sort l) = length l.
Proof. induction l as [|x l IH]; simpl; [reflexivity|]. rewrite insert_length. congruence. Qed.
Lemma diff_length : forall l last min r, diffLoop l last min = Ok r -> length r = length l.
Proof.
  induction l as [|x l IH]; intros last min r H; cbn [diffLoop] in H; [inv H; reflexivity|].
  repeat match type of H with bind ?o _ = _ => destruct o eqn:?; cbn [bind] in H; try discriminate end.
  inv H. simpl. f_equal. eauto.
Qed.
Lemma can_partition : forall n k min l, can (partition n k min) (Ok l) -> 0 < k /\ Z.of_nat (length l) = k.
Proof.
  intros n k min l C. unfold partition in C.
  do 7 (apply can_bind_inv in C as (? & ? & C)). apply can_bind_inv in C as (r & D & C).
  unfold increasing in D. apply can_bind_inv in D as (r' & D & E). apply can_distinct in D as [D1 D2].
  simpl in E. inv E. simpl in C. apply diff_length in C. rewrite C, app_length, sort_length. simpl. lia.
Qed.
Lemma neg_length : forall l r, negAll l = Ok r -> length r = length l.
Proof.
  induction l as [|x l IH]; intros r H; cbn [negAll] in H; [inv H; reflexivity|].
  repeat match type of H with bind ?o _ = _ => destruct o eqn:?; cbn [bind] in H; try discriminate end.
  inv H. simpl. f_equal. eauto.
Qed.

Lemma fit_draw : forall prt binom n dim, partitions prt -> (forall m, drawsFit (binom m)) -> is_i64 n ->
  drawsFit (draw prt binom n dim).
Proof.
  intros prt binom n dim Hp Hb Hn. unfold draw.
  fit. apply fit_any; [apply Hb|]. fit. apply fit_any; [apply Hb|]. fit.
  apply drawsFit_bind; [apply fit_partition|]. intros x Cx. apply can_partition in Cx.
  apply drawsFit_bind; [apply fit_partition|]. intros y Cy. apply can_partition in Cy.
  apply fit_lift. intros x2 Ex. apply fit_lift. intros y2 Ey. apply neg_length in Ex. apply neg_length in Ey. fit.
  apply drawsFit_bind; [apply fit_partition|]. intros x3 Cx3. apply can_partition in Cx3. fit.
  apply drawsFit_bind; [apply fit_partition|]. intros y3 Cy3. apply can_partition in Cy3.
  pose proof (Hp (fun z => z =? 0) (x2 ++ x3)) as (PX & _). pose proof (Hp (fun z => negb (z =? 0)) (y2 ++ y3)) as (PY & _).
  destruct (prt _ (x2 ++ x3)) as [x0 x1]. destruct (prt _ (y2 ++ y3)) as [y1 y0]. cbn [fst snd] in *.
  apply Permutation_length in PX. apply Permutation_length in PY. rewrite !app_length in PX, PY.
  assert (LX : Z.of_nat (length x1) < two63) by (mach; lia). assert (LY : Z.of_nat (length y1) < two63) by (mach; lia).
  fit. apply fit_any; [apply drawsFit_shuffle; exact LX|]. intro. apply fit_any; [|fit].
  destruct x0; [exact I|]. apply drawsFit_shuffle. exact LY.
Qed.
Lemma fit_convex : forall srt prt binom fuel n dim, partitions prt -> (forall m, drawsFit (binom m)) -> is_i64 n ->
  drawsFit (randomConvex srt prt binom fuel n dim).
Proof.
  intros srt prt binom fuel n dim Hp Hb Hn. unfold randomConvex. fit. clear - Hp Hb Hn.
  induction fuel as [|f IH]; [exact I|]. cbn [convexLoop]. apply fit_any; [apply fit_draw; assumption|].
  intros [d|]; [exact I|exact IH].
Qed.

Lemma can_prime : forall lo hi p, can (randomPrime lo hi) (Ok p) -> is_i64 p.
Proof.
  intros lo hi p C. unfold randomPrime in C. apply can_bind_inv in C as (u & _ & C). cbv zeta in C.
  apply can_bind_inv in C as (r & D & C). destruct r as [q|]; [|discriminate C]. simpl in C. inv C.
  revert D. match goal with |- can (if ?b then _ else _) _ -> _ => destruct b end; [|intros D; simpl in D; discriminate].
  enough (K : forall k i l h, can (primeLoop k i lo hi l h) (Ok (Some p)) -> is_i64 p) by apply K.
  intros k i l h. revert i. induction k as [|k IH]; intros i D; cbn [primeLoop] in D; [simpl in D; discriminate|].
  apply can_bind_inv in D as (d1 & _ & D). apply can_bind_inv in D as (d4 & _ & D).
  destruct (_ <? _) in D; [|simpl in D; discriminate].
  apply can_bind_inv in D as (x & _ & D). apply can_bind_inv in D as (x2 & C2 & D). change (chk (2 * x) = Ok x2) in C2.
  apply chk_fits in C2 as [E2 C2]. apply can_bind_inv in D as (ok & _ & D).
  destruct ok; [|exact (IH _ D)]. cbn [can ret] in D. injection D as <-. subst x2.
  assert (K : Z.lor (2 * x) 1 = 2 * x + 1).
  { rewrite <- Z.lxor_lor, <- Z.add_nocarry_lxor; [reflexivity| |];
      change 1 with (Z.ones 1); rewrite Z.land_ones by lia; change (2 ^ 1) with 2; rewrite Z.mul_comm; apply Z.mod_mul; lia. }
  rewrite K. revert C2. mach. lia.
Qed.
Lemma fit_rot : forall fuel p, is_i64 p -> drawsFit (rotLoop fuel p).
Proof. intros fuel p H. induction fuel as [|f IH]; [exact I|]. cbn [rotLoop]. fit; auto; mach; lia. Qed.
Lemma fit_noncollinear : forall fuel n dim, drawsFit (nonCollinearPoints fuel n dim).
Proof.
  intros fuel n dim. unfold nonCollinearPoints. apply fit_any; [|fit]. unfold draws. fit.
  apply drawsFit_bind; [apply fit_prime; assumption|]. intros p Cp. apply can_prime in Cp.
  apply fit_any; [apply fit_rot; exact Cp|]. fit; try (mach; lia).
  apply fit_any; [apply fit_distinct; mach; lia|fit].
Qed.

Lemma pair_bound : forall lo hi (l : list (Z * Z)), lo <= hi -> NoDup l -> Forall (fun e => (lo <= fst e < hi) /\ (lo <= snd e < hi)) l ->
  Z.of_nat (length l) <= (hi - lo) * (hi - lo).
Proof.
  intros lo hi l H N F.
  assert (I : incl l (list_prod (zseq lo (Z.to_nat (hi - lo))) (zseq lo (Z.to_nat (hi - lo))))).
  { intros [u v] Hi. rewrite Forall_forall in F. specialize (F _ Hi). cbn in F. apply in_prod; apply in_zseq; lia. }
  apply (NoDup_incl_length N) in I. rewrite prod_length, !zseq_length in I. nia.
Qed.
Lemma rep_edge_bound : forall E dir (g : graph E) lo hi M, represents dir g lo hi M -> edgeCount g <= (hi - lo) * (hi - lo).
Proof.
  intros E dir g lo hi M R. pose proof (arcs_NoDup E dir g lo hi M R) as N. pose proof (arcs_range dir g M lo hi R) as F.
  rewrite <- (arcs_len g). apply pair_bound; auto. pose proof (rep_nodes dir g M lo hi R) as H. unfold nodeCount, alen in H. lia.
Qed.
Lemma fit_degrees : forall E (d : E) ds av, alen ds <= 2 ^ 31 -> drawsFit (randomGraphDeg d ds av).
Proof.
  intros E d ds av H. destruct (randomGraph_cases E d ds av) as [[-> _]|(g & HG & ->)]; [exact I|]. fit.
  generalize (Z.to_nat a). intros k. revert g HG. induction k as [|k IH]; intros g HG; [exact I|]. cbn [flips].
  assert (B : is_i64 (edgeCount g)).
  { destruct HG as (M & R & _). apply rep_edge_bound in R. rewrite pos0_alen in R. rewrite Z.sub_0_r in R.
    assert (0 <= alen ds) by (unfold alen; lia). assert (0 <= edgeCount g) by (unfold edgeCount, alen; lia). mach. nia. }
  apply fit_rint_can; [mach; lia|exact B|]. intros i Hi. apply fit_rint_can; [mach; lia|exact B|]. intros j Hj.
  apply fit_lift. intros g' EQ. destruct (flip_ok E d _ g i j HG Hi Hj) as (g2 & E2 & H2).
  rewrite EQ in E2. inv E2. apply IH. exact H2.
Qed.

Lemma fit_numbers : forall parse args, drawsFit (numbersMain parse args).
Proof.
  intros parse args. unfold numbersMain. fit. apply fit_any; [apply fit_distinct; mach; lia|fit].
Qed.
Lemma fit_dag : forall parse args, drawsFit (dagMain parse args).
Proof.
  intros parse args. unfold dagMain. apply fit_lift. intros q _.
  destruct cubes_rep as (g & M & -> & RG & ME). cbn [lift rbind].
  assert (SMALL : forall dir (h : graph unit) lo hi M, represents dir h lo hi M -> hi - lo = 19 -> nodeCount h < two63 /\ edgeCount h < two63).
  { intros dir h lo hi M' R D. pose proof (rep_nodes dir h M' lo hi R). apply rep_edge_bound in R. rewrite D in *. mach. lia. }
  apply drawsFit_bind; [apply fit_permutate; eapply SMALL; eauto|]. intros g1 C1.
  eapply can_always in C1; [|apply (permutate_rep unit false g M 0 19 RG); mach; lia].
  destruct C1 as (p1 & M1 & P1 & RG1 & MM1).
  destruct (directed_rep unit (fun from to _ => from <? to) g1 M1 0 19 RG1) as (g2 & -> & RG2). cbn [lift rbind].
  destruct (setMinId_rep unit true g2 _ 0 19 1 RG2) as (g3 & -> & RG3). cbn [lift rbind]. change (1 + (19 - 0)) with 20 in RG3.
  apply fit_any; [apply fit_permutate; eapply SMALL; eauto|fit].
Qed.

(* a law of the draws is a law of the words *)
Lemma shares_law : forall A (m : rnd A) p q, drawsFit m -> (Pr m p == q)%Q -> sharesTo (fun bits => runOn bits m) p q.
Proof.
  intros A m p q F H bits eps He. destruct (engine_law A bits m p eps F He) as [N K]. exists N. intros n Hn.
  specialize (K n Hn). rewrite H in K. exact K.
Qed.
