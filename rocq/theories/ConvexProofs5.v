(* Random::convex: the draws. *)
From Verif Require Import Base BaseLemmas RndModel RandSpec RndLemmas GeoModel RandSeqModel ConvexModel ConvexSpec.
From Verif Require Import ConvexProofs ConvexProofs2 ConvexProofs3 ConvexProofs4 ShuffleProofs PartitionProofs GeoProofs GeoProofs2.
From Coq Require Import ZArith Lia List Permutation Sorted.
Import ListNotations.
Open Scope Z_scope.
Notation point := (Z * Z)%type.

Lemma negAll_ok : forall l, Forall (fun z => Z.abs z <= 2 ^ 32) l -> negAll l = Ok (map Z.opp l).
Proof.
  induction 1 as [| z l Hz _ IH]; [reflexivity |]. cbn [negAll map].
  rewrite chk_Ok by (unfold is_i64, I64_MIN, I64_MAX, two63; lia). cbn [bind]. rewrite IH. reflexivity.
Qed.
Lemma nn_le : forall l z, nn l -> In z l -> 0 <= z <= zsum l.
Proof.
  intros l z H I. pose proof (negs_bound l z I) as B. rewrite (negs_nn l H) in B. lia.
Qed.
Lemma zsum_opp : forall l, zsum (map Z.opp l) = - zsum l.
Proof. induction l as [| z l IH]; [reflexivity |]. cbn [map]. rewrite !zsum_cons, IH. lia. Qed.

(* -t1 followed by t2, rearranged *)
Lemma signed : forall D t1 t2, nn t1 -> nn t2 -> zsum t1 = D -> zsum t2 = D ->
  zsum (map Z.opp t1 ++ t2) = 0 /\ negs (map Z.opp t1 ++ t2) = - D.
Proof.
  intros D t1 t2 H1 H2 E1 E2. rewrite zsum_app, zsum_opp, negs_app, (negs_nn t2 H2).
  rewrite negs_np, zsum_opp; [lia |].
  unfold np. rewrite Forall_map. eapply Forall_impl; [| exact H1]. cbn. intros; lia.
Qed.

Lemma combine_fst : forall (x y : list Z), length x = length y -> map fst (combine x y) = x.
Proof. induction x as [| a x IH]; intros [| b y] E; cbn in *; [reflexivity | discriminate | discriminate |]. rewrite IH by lia. reflexivity. Qed.
Lemma combine_snd : forall (x y : list Z), length x = length y -> map snd (combine x y) = y.
Proof. induction x as [| a x IH]; intros [| b y] E; cbn in *; [reflexivity | discriminate | discriminate |]. rewrite IH by lia. reflexivity. Qed.

Lemma combine_nonzero : forall x0 x1 y1 y0, length (x0 ++ x1) = length (y1 ++ y0) ->
  (length x0 + length y0 <= length (x0 ++ x1))%nat ->
  Forall (fun z => z <> 0) x1 -> Forall (fun z => z <> 0) y1 ->
  Forall (fun d => d <> (0, 0)) (combine (x0 ++ x1) (y1 ++ y0)).
Proof.
  intros x0 x1 y1 y0 E Le F1 F2. rewrite Forall_forall. intros d Id E0. subst d.
  apply (In_nth _ _ (0, 0)) in Id as (i & Hi & Ei). rewrite combine_length in Hi. rewrite combine_nth in Ei by exact E.
  injection Ei as A B. rewrite !app_length in *.
  destruct (Nat.lt_ge_cases i (length y1)) as [G | G].
  - rewrite app_nth1 in B by exact G. rewrite Forall_forall in F2. apply (F2 (nth i y1 0)); [apply nth_In; exact G | exact B].
  - rewrite app_nth2 in A by lia. rewrite Forall_forall in F1.
    apply (F1 (nth (i - length x0) x1 0)); [apply nth_In; lia | exact A].
Qed.

Section oracles.
  Variable srt : list point -> list point.
  Variable prt : (Z -> bool) -> list Z -> list Z * list Z.
  Variable binom : Z -> rnd Z.
  Hypothesis Hs : sorts srt.
  Hypothesis Hp : partitions prt.
  Hypothesis Hb : forall m, 0 <= m -> always (binom m) (returns (fun b => 0 <= b <= m)).

  Lemma draw_always : forall n dim, 3 <= n <= 8 * dim - 8 -> 0 < dim <= 0x3FFFFFFF ->
    always (draw prt binom n dim) (returns (fun o => match o with None => True | Some ds => okDirs n dim ds end)).
  Proof.
    intros n dim Hn Hd.
    assert (I : forall z, Z.abs z <= 2 ^ 40 -> is_i64 z) by (intros; unfold is_i64, I64_MIN, I64_MAX, two63; lia).
    unfold draw. rewrite chk_Ok by (apply I; lia). cbn [lift rbind].
    eapply returns_bind; [apply Hb; lia |]. intros l Hl. cbn beta in Hl. rewrite chk_Ok by (apply I; lia). cbn [lift rbind].
    eapply returns_bind; [apply Hb; lia |]. intros d Hd'. cbn beta in Hd'.
    rewrite chk_Ok by (apply I; lia). cbn [lift rbind].
    rewrite chk_Ok by (apply I; lia). cbn [lift rbind].
    rewrite chk_Ok by (apply I; lia). cbn [lift rbind].
    set (s := 2 * dim - 2). assert (Hsm : 1 <= s <= 2 ^ 31) by (unfold s; lia).
    eapply returns_bind; [apply partition_always; try (apply I; lia); lia |]. intros t1 (L1 & S1 & F1).
    eapply returns_bind; [apply partition_always; try (apply I; lia); lia |]. intros t2 (L2 & S2 & F2).
    rewrite negAll_ok.
    2:{ rewrite Forall_forall. intros z Iz. pose proof (nn_le t1 z F1 Iz). lia. }
    cbn [lift rbind]. rewrite negAll_ok.
    2:{ rewrite Forall_forall. intros z Iz. pose proof (nn_le t2 z F2 Iz). lia. }
    cbn [lift rbind]. rewrite chk_Ok by (apply I; lia). cbn [lift rbind].
    eapply returns_bind; [apply partition_always; try (apply I; lia); lia |]. intros t3 (L3 & S3 & F3).
    rewrite chk_Ok by (apply I; lia). cbn [lift rbind].
    eapply returns_bind; [apply partition_always; try (apply I; lia); lia |]. intros t4 (L4 & S4 & F4).
    destruct (signed s t1 t3 F1 F3 S1 S3) as [Zx Nx]. destruct (signed s t2 t4 F2 F4 S2 S4) as [Zy Ny].
    assert (Lx : Z.of_nat (length (map Z.opp t1 ++ t3)) = n) by (rewrite app_length, map_length; lia).
    assert (Ly : Z.of_nat (length (map Z.opp t2 ++ t4)) = n) by (rewrite app_length, map_length; lia).
    set (X := map Z.opp t1 ++ t3) in *. set (Y := map Z.opp t2 ++ t4) in *. clearbody X Y.
    pose proof (Hp (fun z => z =? 0) X) as (PX & X0 & X1). pose proof (Hp (fun z => negb (z =? 0)) Y) as (PY & Y1 & Y0).
    destruct (prt (fun z => z =? 0) X) as [x0 x1]. destruct (prt (fun z => negb (z =? 0)) Y) as [y1 y0]. cbn [fst snd] in *.
    destruct (n <? Z.of_nat (length x0) + Z.of_nat (length y0)) eqn:E; [exact Logic.I |].
    eapply returns_bind; [apply shuffle_always |]. intros x1' PX1. cbn beta in PX1.
    eapply returns_bind with (R := Permutation y1).
    { destruct x0; [apply returns_ret; apply Permutation_refl | apply shuffle_always]. }
    intros y1' PY1. cbn [always ret returns].
    rewrite PX1 in PX. rewrite PY1 in PY. apply (Permutation_Forall PX1) in X1. apply (Permutation_Forall PY1) in Y1.
    clear PX1 PY1 x1 y1.
    assert (LX : length (x0 ++ x1') = length X) by (symmetry; apply Permutation_length; exact PX).
    assert (LY : length (y1' ++ y0) = length Y) by (symmetry; apply Permutation_length; exact PY).
    assert (EL : length (x0 ++ x1') = length (y1' ++ y0)) by lia.
    unfold okDirs. rewrite combine_fst, combine_snd by exact EL. rewrite combine_length.
    split; [lia |]. split.
    { apply combine_nonzero; [exact EL | lia | |].
      - eapply Forall_impl; [| exact X1]. cbn. intros; lia.
      - eapply Forall_impl; [| exact Y1]. cbn. intros; lia. }
    rewrite <- (zsum_perm _ _ PX), <- (negs_perm _ _ PX), <- (zsum_perm _ _ PY), <- (negs_perm _ _ PY).
    unfold s in *. repeat split; assumption.
  Qed.

  Lemma convexLoop_always : forall fuel n dim, 3 <= n <= 8 * dim - 8 -> 0 < dim <= 0x3FFFFFFF ->
    always (ConvexModel.convexLoop srt prt binom fuel n dim) (fun o => o = Fuel \/ exists ps, o = Ok ps /\ spans n dim ps /\ (flat ps \/ convex ps /\ NoDup ps)).
  Proof.
    intros fuel n dim Hn Hd. induction fuel as [| fuel IH]; [left; reflexivity |]. cbn [ConvexModel.convexLoop].
    eapply returns_bind; [apply draw_always; assumption |]. intros [ds |] Hds; [| exact IH].
    destruct (polygonOf_ok srt n dim ds Hs ltac:(lia) Hd Hds) as (ps & -> & G). right. exists ps. split; [reflexivity | exact G].
  Qed.

  Lemma randomConvex_always : forall fuel n dim, is_i64 n -> is_i64 dim -> 3 <= n <= 8 * dim - 8 -> dim <= 0x3FFFFFFF ->
    always (randomConvex srt prt binom fuel n dim) (fun o => o = Fuel \/ exists ps, o = Ok ps /\ spans n dim ps /\ (flat ps \/ convex ps /\ NoDup ps)).
  Proof.
    intros fuel n dim In Id Hn Hd. unfold randomConvex, judgeAssert.
    assert (I : forall z, Z.abs z <= 2 ^ 40 -> is_i64 z) by (intros; unfold is_i64, I64_MIN, I64_MAX, two63; lia).
    replace (dim <=? 0x3FFFFFFF) with true by lia. replace (0 <? dim) with true by lia. cbn [lift rbind].
    rewrite chk_Ok by (apply I; lia). cbn [lift rbind]. rewrite chk_Ok by (apply I; lia). cbn [lift rbind].
    replace (n <=? 8 * dim - 8) with true by lia. replace (3 <=? n) with true by lia. cbn [lift rbind].
    apply convexLoop_always; [exact Hn | lia].
  Qed.

  Lemma randomConvex_throws : forall fuel n dim, 0x3FFFFFFF < dim \/ n < 3 \/ 8 * dim - 8 < n ->
    randomConvex srt prt binom fuel n dim = RRet Throw.
  Proof.
    clear Hs Hp Hb. intros fuel n dim H. unfold randomConvex, judgeAssert.
    assert (I : forall z, Z.abs z <= 2 ^ 40 -> is_i64 z) by (intros; unfold is_i64, I64_MIN, I64_MAX, two63; lia).
    destruct (dim <=? 0x3FFFFFFF) eqn:E1; [| reflexivity]. destruct (0 <? dim) eqn:E2; [| reflexivity]. cbn [lift rbind].
    rewrite chk_Ok by (apply I; lia). cbn [lift rbind]. rewrite chk_Ok by (apply I; lia). cbn [lift rbind].
    destruct (n <=? 8 * dim - 8) eqn:E3; [| reflexivity]. destruct (3 <=? n) eqn:E4; [lia | reflexivity].
  Qed.

  Lemma randomConvex_accepted : forall fuel n dim, is_i64 n -> is_i64 dim -> 3 <= n <= 8 * dim - 8 -> dim <= 0x3FFFFFFF ->
    always (randomConvex srt prt binom fuel n dim) (fun o => o = Fuel \/ exists ps, o = Ok ps /\
      (flat ps \/ isConvex ps = Ok true)).
  Proof.
    intros fuel n dim In Id Hn Hd. eapply always_mono; [| apply randomConvex_always; assumption].
    cbn beta. intros o [-> | (ps & -> & G)]; [auto |]. right. exists ps. split; [reflexivity |].
    destruct G as ((_ & F & _) & [C | [C _]]); [left; exact C | right].
    apply convex_accepted; [| exact C]. eapply Forall_impl; [| exact F]. cbn. intros. lia.
  Qed.
End oracles.

(* ---- oracles that keep their promises *)
Definition lessb (a b : point) : bool :=
  if left a then negb (left b) || (0 <? cr a b) else negb (left b) && (0 <? cr a b).
Lemma lessb_ok : forall a b, lessb a b = true <-> before a b.
Proof.
  intros a b. unfold lessb, before. fold (cr a b). pose proof (left_spec a) as A. pose proof (left_spec b) as B.
  destruct (left a), (left b); cbn [negb andb orb]; rewrite ?Z.ltb_lt; split; intros H;
    try discriminate H; try tauto;
    try (destruct A as [A1 A2]; destruct B as [B1 B2]; firstorder congruence).
Qed.
Fixpoint insert (d : point) (l : list point) : list point :=
  match l with
  | [] => [d]
  | e :: l => if lessb e d then e :: insert d l else d :: e :: l
  end.
Definition isort (l : list point) : list point := fold_right insert [] l.
Lemma insert_perm : forall d l, Permutation (d :: l) (insert d l).
Proof.
  induction l as [| e l IH]; [reflexivity |]. cbn [insert]. destruct (lessb e d); [| reflexivity].
  rewrite perm_swap. constructor. exact IH.
Qed.
Lemma isort_perm : forall l, Permutation l (isort l).
Proof. induction l as [| d l IH]; [reflexivity |]. cbn [isort fold_right]. rewrite <- insert_perm. constructor. exact IH. Qed.
Lemma insert_sorted : forall d l, d <> (0, 0) -> Forall (fun d => d <> (0, 0)) l ->
  StronglySorted (fun a b => ~ before b a) l -> StronglySorted (fun a b => ~ before b a) (insert d l).
Proof.
  intros d l Nd N SS. induction SS as [| e l SS IH F]; [repeat constructor |].
  apply Forall_inv in N as Ne. apply Forall_inv_tail in N. cbn [insert]. destruct (lessb e d) eqn:E.
  - constructor; [apply IH; exact N |]. eapply Permutation_Forall; [apply insert_perm |]. constructor; [| exact F].
    intros H. apply lessb_ok in E. exact (before_irrefl e (before_trans e d e Ne Nd Ne E H)).
  - assert (H : ~ before e d) by (intros H; apply lessb_ok in H; congruence).
    constructor; [constructor; assumption |]. constructor; [exact H |]. rewrite Forall_forall in *. intros x Hx.
    apply before_total with e; auto.
Qed.
Lemma isort_sorts : sorts isort.
Proof.
  intros l N. split; [apply isort_perm |]. induction N as [| d l Nd N IH]; [constructor |].
  cbn [isort fold_right]. apply insert_sorted; [exact Nd | | exact IH]. eapply Permutation_Forall; [apply isort_perm | exact N].
Qed.
Definition split2 (f : Z -> bool) (l : list Z) : list Z * list Z := (filter f l, filter (fun z => negb (f z)) l).
Lemma split2_ok : partitions split2.
Proof.
  intros f l. cbn [split2 fst snd]. split; [| split].
  - induction l as [| z l IH]; [reflexivity |]. cbn [filter]. destruct (f z); cbn [negb app].
    + constructor. exact IH.
    + rewrite <- Permutation_middle. constructor. exact IH.
  - rewrite Forall_forall. intros z Hz. apply filter_In in Hz. tauto.
  - rewrite Forall_forall. intros z Hz. apply filter_In in Hz as [_ Hz]. destruct (f z); [discriminate | reflexivity].
Qed.
Definition someBinom (m : Z) : rnd Z := rint 0 (m + 1).
Lemma someBinom_ok : forall m, 0 <= m -> always (someBinom m) (returns (fun b => 0 <= b <= m)).
Proof. intros m H. eapply returns_mono; [| apply returns_rint; lia]. cbn. intros; lia. Qed.
Lemma convex_flat : exists fuel n dim ps, 3 <= n <= 8 * dim - 8 /\ dim <= 0x3FFFFFFF /\
  can (randomConvex isort split2 someBinom fuel n dim) (Ok ps) /\ flat ps /\ isConvex ps = Ok false.
Proof.
  exists 1%nat, 3, 2, [(1, 1); (-1, -1); (0, 0)]. split; [lia |]. split; [lia |]. split; [| split].
  - apply (can_play _ _ [0; 0; 2; 2; 2; 1]). vm_compute. reflexivity.
  - assert (C : forall i, exists z, corner [(1, 1); (-1, -1); (0, 0)] i = (z, z)).
    { intros i. unfold corner. destruct (i mod _)%nat as [| [| [| k]]]; [exists 1 | exists (-1) | exists 0 | exists 0]; try reflexivity.
      destruct k; reflexivity. }
    intros i j k. destruct (C i) as (a & ->). destruct (C j) as (b & ->). destruct (C k) as (c & ->). unfold orient. cbn [fst snd]. ring.
  - vm_compute. reflexivity.
Qed.
Lemma convex_not_strict : exists fuel n dim ps, 3 <= n <= 8 * dim - 8 /\ dim <= 0x3FFFFFFF /\
  can (randomConvex isort split2 someBinom fuel n dim) (Ok ps) /\ convex ps /\ isStrictlyConvex ps = Ok false.
Proof.
  exists 1%nat, 5, 4, [(3, -3); (-1, 3); (-2, 3); (-3, 3); (-3, -3)]. split; [lia |]. split; [lia |].
  assert (P : can (randomConvex isort split2 someBinom 1 5 4) (Ok [(3, -3); (-1, 3); (-2, 3); (-3, 3); (-3, -3)])).
  { apply (can_play _ _ [3; 3; 1; 5; 3; 2; 2; 1; 0; 1; 0; 1; 3; 4]). vm_compute. reflexivity. }
  split; [exact P |]. split; [| vm_compute; reflexivity].
  pose proof (can_always _ _ _ _ P (randomConvex_always isort split2 someBinom isort_sorts split2_ok someBinom_ok 1 5 4
    ltac:(vm_compute; split; discriminate) ltac:(vm_compute; split; discriminate) ltac:(lia) ltac:(lia))) as Q.
  cbn beta in Q. destruct Q as [Q | (ps & Q & _ & [F | [C _]])]; [discriminate Q | |]; injection Q as <-.
  - specialize (F 0%nat 1%nat 4%nat). vm_compute in F. discriminate F.
  - exact C.
Qed.
