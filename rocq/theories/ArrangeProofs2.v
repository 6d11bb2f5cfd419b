(* Every order of the edges and every acyclic orientation of the example generator can occur. *)
From Coq Require Import String Permutation QArith.
From Verif Require Import Base Tac RndModel RndLemmas RandSpec RandSeqModel ShuffleProofs DistinctProofs UniformProofs FloatModel InputSpec InputClient ArgsModel ArgsSpec ArgsClient ArgsProofs InitModel InitSpec InitProofs
  GraphSpec GenModel GenSpec GenProofs GenProofs2 GenOpsModel GenProofs3 GenOpsProofs GenOpsProofs2 GenMakeProofs GenMakeProofs2 GenMakeProofs3 ExampleProofs2 GenExModel GenExSpec GenExProofs UniformProofs3 ArrangeSpec ArrangeProofs.
From Verif Require PipeProofs PipeProofs2.
Import PipeProofs PipeProofs2.
Open Scope Z_scope.

Lemma Qplus_nonneg : forall a b, (0 <= a -> 0 <= b -> 0 <= a + b)%Q.
Proof. intros a b A B. change 0%Q with (0 + 0)%Q. apply Qplus_le_compat; auto. Qed.
Lemma Qplus_pos_l : forall a b, (0 < a -> 0 <= b -> 0 < a + b)%Q.
Proof. intros a b A B. change 0%Q with (0 + 0)%Q. apply Qplus_lt_le_compat; auto. Qed.
(* ---- what can happen has positive probability ---- *)
Lemma expect_pos : forall A (m : rnd A) f, (forall o, 0 <= f o)%Q -> (0 <= expect m f)%Q.
Proof.
  intros A m f H. induction m as [o|lo hi k IH]; cbn [expect]; [apply H|].
  assert (S : (0 <= qsum (fun x => expect (k x) f) (zseq lo (Z.to_nat (hi - lo))))%Q).
  { generalize (zseq lo (Z.to_nat (hi - lo))). intro l. unfold qsum. induction l as [|x l IL]; cbn [fold_right]; [apply Qle_refl|]. apply Qplus_nonneg; auto. }
  destruct (Z_lt_le_dec lo hi) as [L|L].
  - unfold Qdiv. apply Qmult_le_0_compat; auto. apply Qinv_le_0_compat. change 0%Q with (inject_Z 0). rewrite <- Zle_Qle. lia.
  - replace (Z.to_nat (hi - lo)) with 0%nat by lia. cbn [zseq qsum fold_right]. unfold Qdiv. rewrite Qmult_0_l. apply Qle_refl.
Qed.
Lemma can_Pr : forall A (m : rnd A) o ev, can m o -> ev o = true -> (0 < Pr m ev)%Q.
Proof.
  intros A m o ev. unfold Pr. induction m as [o'|lo hi k IH]; cbn [can expect].
  - intros -> ->. reflexivity.
  - intros (x & X & C) V. unfold Qdiv. rewrite <- (Qmult_0_l (/ inject_Z (hi - lo))). apply Qmult_lt_compat_r.
    { apply Qinv_lt_0_compat. change 0%Q with (inject_Z 0). rewrite <- Zlt_Qlt. lia. }
    assert (I : In x (zseq lo (Z.to_nat (hi - lo)))) by (apply in_zseq; lia). revert I. generalize (zseq lo (Z.to_nat (hi - lo))). intro l. unfold qsum.
    assert (P : forall l, (0 <= fold_right (fun x s => expect (k x) (fun o => if ev o then 1 else 0) + s) 0 l)%Q).
    { clear - k. intro l. induction l as [|x l IL]; cbn [fold_right]; [apply Qle_refl|]. apply Qplus_nonneg; auto. apply expect_pos. intro o. destruct (ev o); discriminate. }
    induction l as [|y l IL]; intros I; [contradiction|]. cbn [fold_right]. destruct I as [->|I].
    + apply Qplus_pos_l; auto.
    + rewrite Qplus_comm. apply Qplus_pos_l; auto. apply expect_pos. intro o'. destruct (ev o'); discriminate.
Qed.
Lemma Pr_can : forall A (m : rnd A) ev, ~ (Pr m ev == 0)%Q -> exists o, can m o /\ ev o = true.
Proof.
  intros A m ev. unfold Pr. induction m as [o|lo hi k IH]; cbn [can expect].
  - intro H. exists o. split; auto. destruct (ev o); auto. exfalso. apply H. reflexivity.
  - intro H. assert (X : exists x, In x (zseq lo (Z.to_nat (hi - lo))) /\ ~ (expect (k x) (fun o => if ev o then 1 else 0) == 0)%Q).
    { assert (G : ~ (qsum (fun x => expect (k x) (fun o => if ev o then 1 else 0)) (zseq lo (Z.to_nat (hi - lo))) == 0)%Q) by (intro Z; apply H; rewrite Z; reflexivity).
      clear H. revert G. generalize (zseq lo (Z.to_nat (hi - lo))). intro l. unfold qsum. induction l as [|x l IL]; cbn [fold_right]; intro G; [exfalso; apply G; reflexivity|].
      destruct (Qeq_dec (expect (k x) (fun o => if ev o then 1 else 0)%Q) 0) as [Z|Z]; [|exists x; split; [left|]; auto].
      destruct IL as (y & I & Y); [intro W; apply G; rewrite Z, W; reflexivity|]. exists y. split; [right|]; auto. }
    destruct X as (x & I & X). apply in_zseq in I. destruct (IH x X) as (o & C & V). exists o. split; auto. exists x. split; auto. lia.
Qed.
Lemma can_shuffle : forall A (dec : forall x y : A, {x = y} + {x <> y}) (l p : list A), NoDup l -> Permutation l p -> can (shuffle l) (Ok p).
Proof.
  intros A dec l p N P. destruct (Pr_can _ (shuffle l) (resultIs (list_eq_dec dec) p)) as (o & C & V).
  - rewrite (shuffle_uniform dec) by auto. intro Z. pose proof (zfact_pos (length l)) as ZP. apply (Qmult_integral 1) in Z as [Z|Z]; [discriminate|].
    assert (Y : ((/ inject_Z (zfact (length l))) * inject_Z (zfact (length l)) == 1)%Q) by (rewrite Qmult_comm; apply Qmult_inv_r; apply inject_Z_nonzero; lia). rewrite Z in Y. discriminate.
  - destruct o as [q| | |]; try discriminate. cbn [resultIs] in V. destruct (list_eq_dec dec q p) as [->|]; [auto|discriminate].
Qed.

Section Reach.
  Variable E : Type.
  Variable dir : bool.
  Variable dec : forall x y : E, {x = y} + {x <> y}.
  Lemma permutate_reach : forall (g : graph E) M lo hi perm L, represents dir g lo hi M ->
    Permutation (zseq lo (Z.to_nat (hi - lo))) perm -> is_i64 lo -> is_i64 hi -> hi - lo <= I64_MAX ->
    arrangement dir (fun u => getz perm (u - lo)) (getEdges g) L ->
    exists g' M', can (permutate dir g) (Ok g') /\ getEdges g' = L /\ represents dir g' lo hi M' /\
      forall u v, lo <= u < hi -> lo <= v < hi -> M' (getz perm (u - lo)) (getz perm (v - lo)) = M u v.
  Proof.
    intros g M lo hi perm L R P IL IH SZ A. set (ev := fun o : outcome (graph E) => match o with Ok g' => if ldec E dec (getEdges g') L then true else false | _ => false end).
    destruct (Pr_can _ (permutateWith dir g perm) ev) as (o & C & V).
    - rewrite (permutateWith_law E dir dec g M lo hi perm L ev R P IL IH SZ A).
      + set (d := zfact (length L) * _). assert (D : 0 < d).
        { unfold d. pose proof (zfact_pos (length L)). destruct dir; [lia|]. pose proof (Z.pow_pos_nonneg 2 (alen L)). unfold alen in *. apply Z.mul_pos_pos; lia. }
        intro Z. apply (Qmult_integral 1) in Z as [Z|Z]; [discriminate|]. assert (Y : ((/ inject_Z d) * inject_Z d == 1)%Q) by (rewrite Qmult_comm; apply Qmult_inv_r; apply inject_Z_nonzero; lia).
        rewrite Z in Y. discriminate.
      + intros [g'| | |]; unfold ev; (split; [intro H|intros (g1 & Q & H)]); try discriminate.
        * exists g'. split; auto. destruct (ldec E dec (getEdges g') L); [auto|discriminate].
        * injection Q as <-. destruct (ldec E dec (getEdges g') L); auto.
    - destruct o as [g'| | |]; try discriminate. cbn [ev] in V. destruct (ldec E dec (getEdges g') L) as [Q|]; [|discriminate].
      destruct (can_always _ _ _ _ C (permutateWith_rep E dir g M lo hi perm R P IL IH SZ)) as (M' & R' & X).
      exists g', M'. split; [|auto]. destruct (rep_len _ _ _ _ _ _ R) as (ML & NC & H & N). unfold permutate. rewrite ML. replace (length (adj g)) with (Z.to_nat (hi - lo)) by (unfold alen in NC; lia).
      eapply can_bind; [|exact C]. apply can_shuffle; auto; [apply Z.eq_dec|apply zseq_NoDup].
  Qed.
  Lemma permutate_pos : forall (g : graph E) M lo hi perm L (ev : outcome (graph E) -> bool), represents dir g lo hi M ->
    Permutation (zseq lo (Z.to_nat (hi - lo))) perm -> is_i64 lo -> is_i64 hi -> hi - lo <= I64_MAX ->
    arrangement dir (fun u => getz perm (u - lo)) (getEdges g) L -> (forall o, ev o = true <-> exists g', o = Ok g' /\ getEdges g' = L) ->
    (0 < Pr (permutate dir g) ev)%Q.
  Proof.
    intros g M lo hi perm L ev R P IL IH SZ A EV. destruct (permutate_reach g M lo hi perm L R P IL IH SZ A) as (g' & M' & C & Q & _).
    eapply can_Pr; [exact C|]. apply EV. exists g'. auto.
  Qed.
End Reach.

(* ---- positions in a topological order ---- *)
Section Positions.
  Variable n : nat.
  Variable key : Z -> Z.
  Definition before (u v : Z) : bool := (key u <? key v) || ((key u =? key v) && (u <? v)).
  Definition place (v : Z) : Z := alen (filter (fun u => before u v) (zseq 0 n)).
  Lemma place_mono : forall u v, 0 <= u < Z.of_nat n -> before u v = true -> place u < place v.
  Proof.
    intros u v U B. unfold place, alen. assert (X : forall l, In u l -> (length (filter (fun w => before w u) l) < length (filter (fun w => before w v) l))%nat).
    { assert (Y : forall l, (length (filter (fun w => before w u) l) <= length (filter (fun w => before w v) l))%nat).
      { induction l as [|w l IH]; cbn [filter]; [lia|]. destruct (before w u) eqn:W; [|destruct (before w v); cbn [length]; lia]. replace (before w v) with true by (unfold before in *; lia). cbn [length]. lia. }
      induction l as [|w l IH]; intros I; [contradiction|]. cbn [filter]. destruct I as [->|I].
      - replace (before u u) with false by (unfold before; lia). rewrite B. cbn [length]. specialize (Y l). lia.
      - specialize (IH I). destruct (before w u) eqn:W; [|destruct (before w v); cbn [length]; lia]. replace (before w v) with true by (unfold before in *; lia). cbn [length]. lia. }
    specialize (X (zseq 0 n)). rewrite in_zseq in X. specialize (X ltac:(lia)). lia.
  Qed.
  Lemma place_inj : forall u v, 0 <= u < Z.of_nat n -> 0 <= v < Z.of_nat n -> place u = place v -> u = v.
  Proof.
    intros u v U V Q. destruct (before u v) eqn:A; [pose proof (place_mono u v U A); lia|]. destruct (before v u) eqn:B; [pose proof (place_mono v u V B); lia|]. unfold before in *. lia.
  Qed.
  Lemma place_range : forall v, 0 <= v < Z.of_nat n -> 0 <= place v < Z.of_nat n.
  Proof.
    intros v V. unfold place, alen. split; [lia|]. assert (X : forall l, In v l -> (length (filter (fun w => before w v) l) < length l)%nat).
    { assert (Y : forall l, (length (filter (fun w => before w v) l) <= length l)%nat) by (induction l as [|w l IH]; cbn [filter length]; [lia|]; destruct (before w v); cbn [length]; lia).
      induction l as [|w l IH]; intros I; [contradiction|]. cbn [filter length]. destruct I as [->|I].
      - replace (before v v) with false by (unfold before; lia). specialize (Y l). lia.
      - specialize (IH I). destruct (before w v); cbn [length]; lia. }
    specialize (X (zseq 0 n)). rewrite in_zseq, zseq_length in X. specialize (X ltac:(lia)). lia.
  Qed.
  Lemma place_perm : Permutation (zseq 0 n) (map place (zseq 0 n)).
  Proof.
    assert (ND : NoDup (map place (zseq 0 n))).
    { apply map_NoDup_in; [|apply zseq_NoDup]. intros x y X Y. apply in_zseq in X, Y. apply place_inj; lia. }
    symmetry. apply NoDup_Permutation_bis; auto.
    - rewrite map_length. lia.
    - intros z I. apply in_map_iff in I as (v & <- & I). apply in_zseq in I. apply in_zseq. pose proof (place_range v). lia.
  Qed.
End Positions.

(* ---- generator.graph.cpp ---- *)
Lemma getz_map : forall (f : Z -> Z) lo n a, 0 <= a < Z.of_nat n -> getz (map f (zseq lo n)) a = f (lo + a).
Proof.
  intros f lo n a A. unfold getz. rewrite (nth_indep _ 0 (f 0)) by (rewrite map_length, zseq_length; lia). rewrite map_nth. f_equal.
  revert lo a A. induction n as [|n IH]; intros lo a A; [lia|]. cbn [zseq]. destruct (Z.eq_dec a 0) as [->|N]; [cbn; lia|].
  replace (Z.to_nat a) with (S (Z.to_nat (a - 1))) by lia. cbn [nth]. rewrite IH by lia. lia.
Qed.
Lemma dag_NoDup : forall es, dagOf 1 blueprint es 19 -> NoDup es.
Proof.
  intros es (LE & EI & (pi & _ & INJ & ADJ) & (rank & RK)). destruct blueprint_ok as (BN & BF & BA). rewrite Forall_forall in BF.
  assert (deq : forall x y : Z * Z, {x = y} + {x <> y}) by (decide equality; apply Z.eq_dec). set (dec := fun e : Z * Z => in_dec deq e es).
  set (orient := fun e : Z * Z => if dec (pi (fst e), pi (snd e)) then (pi (fst e), pi (snd e)) else (pi (snd e), pi (fst e))).
  apply (NoDup_incl_NoDup (l := map orient blueprint)).
  - apply map_NoDup_in; auto. intros [u v] [x y] I1 I2 Q. destruct (BF _ I1) as (U & V & _), (BF _ I2) as (X & Y & _). cbn [fst snd] in *. change (0 + 19) with 19 in *.
    assert (C : (pi u = pi x /\ pi v = pi y) \/ (pi u = pi y /\ pi v = pi x)) by (unfold orient in Q; cbn [fst snd] in Q; destruct (dec (pi x, pi y)), (dec (pi u, pi v)); inversion Q; auto).
    destruct C as [(C1 & C2)|(C1 & C2)]; apply INJ in C1, C2; auto; subst; auto. exfalso. eapply BA; eauto.
  - rewrite map_length. unfold alen in LE. lia.
  - intros e I. apply in_map_iff in I as ([u v] & <- & I). destruct (BF _ I) as (U & V & _). cbn [fst snd] in *. unfold orient. cbn [fst snd]. destruct (dec (pi u, pi v)) as [J|J]; auto.
    destruct (proj2 (ADJ u v U V)) as [K|K]; auto; [left; auto|contradiction].
Qed.

Lemma dag_reach : forall parse args es, ready parse args start -> dagOf 1 blueprint es 19 -> can (dagMain parse args) (Ok (graphText 19 es)).
Proof.
  intros parse args es RD DG. unfold dagMain. destruct (init_two parse args start) as [(R & p & w & E & P & _)|(N & E)]; [|contradiction]. rewrite E. cbn [lift RndModel.rbind]. clear R.
  destruct cubes_rep as (g & M & -> & RG & ME). cbn [lift RndModel.rbind].
  pose proof (dag_NoDup es DG) as NE. destruct DG as (LE & EI & (pi & PI & INJ & ADJ) & (rank & RK)). change (1 + 19) with 20 in *. unfold edgesIn in EI. rewrite Forall_forall in EI.
  set (key := fun u => rank (pi u)). set (tau := place 19 key).
  assert (TR : forall u, node 0 19 u -> node 0 19 (tau u)) by (intros u U; apply (place_range 19 key u); exact U).
  assert (TI : forall u v, node 0 19 u -> node 0 19 v -> tau u = tau v -> u = v) by (intros u v U V; apply (place_inj 19 key); [exact U|exact V]).
  assert (TM : forall u v, node 0 19 u -> rank (pi u) < rank (pi v) -> tau u < tau v) by (intros u v U L; apply (place_mono 19 key); [exact U|unfold before, key; lia]).
  set (p1 := map tau (zseq 0 19)). assert (P1 : Permutation (zseq 0 19) p1) by apply (place_perm 19 key). clearbody tau.
  assert (G1 : forall u, node 0 19 u -> getz p1 u = tau u) by (intros u U; unfold p1; rewrite getz_map by exact U; f_equal; lia).
  assert (N1 : NoDup p1) by (eapply Permutation_NoDup; [exact P1|apply zseq_NoDup]). pose proof (Permutation_length P1) as LP1. rewrite zseq_length in LP1.
  set (inv := fun a => Z.of_nat (posn p1 a)).
  assert (IT : forall u, node 0 19 u -> inv (tau u) = u) by (intros u U; unfold inv; rewrite <- G1 by auto; unfold getz; unfold node in U; rewrite posn_nth by (auto; lia); lia).
  assert (ON : forall a, node 0 19 a -> exists u, node 0 19 u /\ tau u = a).
  { intros a A. destruct (perm_onto p1 0 19 a P1) as (u & U & Q); [exact A|]. exists u. split; [exact U|]. rewrite <- G1; auto. }
  assert (IR : forall a, node 0 19 a -> node 0 19 (inv a) /\ tau (inv a) = a) by (intros a A; destruct (ON a A) as (u & U & <-); rewrite IT by auto; auto).
  clearbody inv p1.
  (* the first permutation *)
  destruct (permutate_reach unit false ltac:(decide equality) g M 0 19 p1 (map (fun e => (getz p1 (fst (fst e) - 0), getz p1 (snd (fst e) - 0), snd e)) (getEdges g)) RG) as (g1 & M1 & C1 & _ & RG1 & MM1); auto; try (mach; lia).
  { exists (getEdges g). split; auto. induction (getEdges g) as [|e l IL]; cbn [map]; constructor; auto. cbn [fst snd]. split; auto. left. auto. }
  eapply can_bind; [exact C1|]. cbv beta.
  destruct (directed_rep unit (fun from to _ => from <? to) g1 M1 0 19 RG1) as (g2 & -> & RG2). cbn [lift RndModel.rbind].
  destruct (setMinId_rep unit true g2 _ 0 19 1 RG2) as (g3 & -> & RG3). cbn [lift RndModel.rbind]. change (1 + (19 - 0)) with 20 in RG3.
  (* the second *)
  set (q2 := fun a => pi (inv a)). set (p2 := map q2 (zseq 0 19)).
  assert (G2 : forall a, node 1 20 a -> getz p2 (a - 1) = q2 (a - 1)) by (intros a A; unfold node in A; unfold p2; rewrite getz_map by lia; f_equal; lia).
  assert (Q2I : forall a b, node 0 19 a -> node 0 19 b -> q2 a = q2 b -> a = b).
  { intros a b A B Q. destruct (IR a A) as (A1 & A2), (IR b B) as (B1 & B2). unfold q2 in Q. assert (QI : inv a = inv b) by (apply INJ; auto). rewrite <- A2, <- B2, QI. auto. }
  assert (P2 : Permutation (zseq 1 19) p2).
  { symmetry. apply NoDup_Permutation_bis.
    - apply map_NoDup_in; [|apply zseq_NoDup]. intros a b A B. apply in_zseq in A, B. apply Q2I; unfold node; lia.
    - unfold p2. rewrite map_length, !zseq_length. auto.
    - intros z I. apply in_map_iff in I as (a & <- & I). apply in_zseq in I. apply in_zseq. destruct (PI (inv a)); [apply IR; unfold node; lia|]. unfold q2. lia. }
  clearbody p2.
  assert (BP : forall u v, node 0 19 u -> node 0 19 v -> (isEdge M1 (tau u) (tau v) = true <-> adjacent blueprint u v)).
  { intros u v U V. rewrite <- ME. unfold isEdge. rewrite <- (MM1 u v U V). rewrite !Z.sub_0_r, !G1 by auto. reflexivity. }
  pose proof (rep_edges _ _ _ _ _ _ RG3) as (_ & RE3 & LI3).
  assert (IN3 : forall a b, In (a, b, tt) (getEdges g3) <-> isEdge M1 (a - 1) (b - 1) = true /\ a < b).
  { intros a b. transitivity (match M1 (a - 1 + 0) (b - 1 + 0) with Some d => if a - 1 + 0 <? b - 1 + 0 then Some d else None | None => None end = Some tt).
    - rewrite LI3. split; [intro I; exists a, b; split; auto; left; auto|]. intros (x & y & I & [(<- & <-)|(D & _)]); auto. discriminate.
    - unfold isEdge. rewrite !Z.add_0_r. destruct (M1 (a - 1) (b - 1)) as [[]|]; [|intuition discriminate]. destruct (Z.ltb_spec (a - 1) (b - 1)); intuition (try discriminate; try lia). }
  assert (MEM : forall a b, node 1 20 a -> node 1 20 b -> (In (a, b, tt) (getEdges g3) <-> In (q2 (a - 1), q2 (b - 1)) es)).
  { intros a b A B. rewrite IN3. unfold node in A, B. destruct (IR (a - 1)) as (U & TU); [unfold node; lia|]. destruct (IR (b - 1)) as (V & TV); [unfold node; lia|].
    unfold q2. rewrite <- TU at 1. rewrite <- TV at 1. rewrite BP by auto. rewrite <- ADJ by auto. unfold adjacent. split.
    - intros ([I|I] & L); auto. apply RK in I. apply TM in I; auto. lia.
    - intro I. split; auto. apply RK in I. apply TM in I; auto. lia. }
  set (rel := fun e : Z * Z * unit => (getz p2 (fst (fst e) - 1), getz p2 (snd (fst e) - 1), snd e)).
  set (L4 := map (fun e : Z * Z => (e, tt)) es).
  assert (PR : Permutation L4 (map rel (getEdges g3))).
  { apply NoDup_Permutation.
    - apply map_NoDup_in; auto. intros x y _ _ Q. injection Q. auto.
    - apply map_NoDup_in; [|apply (edges_NoDup _ _ _ _ _ _ RG3)]. intros [[a b] []] [[x y] []] I J Q. destruct (RE3 _ _ _ I) as (_ & A & B & _), (RE3 _ _ _ J) as (_ & X & Y & _).
      unfold rel in Q. cbn [fst snd] in Q. rewrite !G2 in Q by auto. injection Q as Q1 Q2. apply Q2I in Q1, Q2; try (unfold node; lia). f_equal. f_equal; lia.
    - intros [[x y] []]. unfold L4. rewrite !in_map_iff. split.
      + intros ([x' y'] & Q & I). injection Q as -> ->. destruct (EI _ I) as (X & Y). cbn [fst snd] in X, Y.
        assert (SU : forall z, node 1 20 z -> exists a, node 1 20 a /\ q2 (a - 1) = z).
        { intros z Z. destruct (perm_onto p2 1 19 z P2) as (a & A & Q); [exact Z|]. exists (a + 1). split; [unfold node; lia|]. rewrite <- G2 by (unfold node; lia). replace (a + 1 - 1) with a by lia. auto. }
        destruct (SU x X) as (a & A & <-), (SU y Y) as (b & B & <-). exists (a, b, tt). split; [unfold rel; cbn [fst snd]; rewrite !G2 by auto; auto|]. apply MEM; auto.
      + intros ([[a b] []] & Q & I). destruct (RE3 _ _ _ I) as (_ & A & B & _). exists (x, y). split; auto. apply MEM in I; auto. unfold rel in Q. cbn [fst snd] in Q. rewrite !G2 in Q by auto. injection Q as <- <-. auto. }
  destruct (permutate_reach unit true ltac:(decide equality) g3 _ 1 20 p2 L4 RG3) as (g4 & M4 & C4 & EQ4 & RG4 & _); auto; try (mach; lia).
  { destruct (Permutation_map_inv _ _ PR) as (es' & Q & PE). exists es'. split; [auto|]. rewrite Q. clear. induction es' as [|e l IL]; cbn [map]; constructor; auto. split; auto. left. auto. }
  eapply can_bind; [exact C4|]. cbv beta. rewrite noData_file. rewrite (rep_nodes true g4 M4 1 20 RG4). change (20 - 1) with 19. unfold arcsOf. rewrite EQ4. unfold L4. rewrite map_map. rewrite map_id. reflexivity.
Qed.
Lemma dag_pos : forall parse args es, ready parse args start -> dagOf 1 blueprint es 19 -> (0 < Pr (dagMain parse args) (resultIs (list_eq_dec Z.eq_dec) (graphText 19 es)))%Q.
Proof. intros parse args es R D. eapply can_Pr; [apply dag_reach; eauto|]. cbn [resultIs]. destruct (list_eq_dec Z.eq_dec _ _); auto. Qed.
