From Verif Require Import Tac RndModel RandSeqModel RndLemmas SortLemmas GraphModel GraphSpec GraphClientSpec UnionFindProofs GraphProofs GraphProofs2.
From Coq Require Import Permutation.

Definition isnil {A} (l : list A) : bool := match l with [] => true | _ => false end.
Definition zeros (rv : list (list Z)) : Z := Z.of_nat (length (filter isnil rv)).
Notation lst rv i := (nth (Z.to_nat i) rv ([] : list Z)).

Lemma zeros_upd : forall rv x v, 0 <= x < alen rv ->
  zeros (upd rv (Z.to_nat x) v) = zeros rv - (if isnil (lst rv x) then 1 else 0) + (if isnil v then 1 else 0).
Proof.
  intros u x v H. unfold alen, zeros in *. assert (L : (Z.to_nat x < length u)%nat) by lia. revert L. clear H.
  generalize (Z.to_nat x) as k. induction u as [| w u IH]; intros k L; [simpl in L; lia |].
  destruct k as [| k]; cbn [upd filter nth].
  - destruct (isnil v), (isnil w); cbn [length]; lia.
  - specialize (IH k ltac:(simpl in L; lia)). destruct (isnil w); cbn [length]; lia.
Qed.
Lemma zeros_range : forall rv, 0 <= zeros rv <= alen rv.
Proof.
  intros rv. unfold zeros, alen. split; [lia |]. apply Nat2Z.inj_le. induction rv as [| w l IH]; simpl; auto.
  destruct (isnil w); simpl; lia.
Qed.
Lemma zeros_two : forall rv i j, 0 <= i < j -> j < alen rv -> lst rv i = [] -> lst rv j = [] -> 2 <= zeros rv.
Proof.
  intros rv i j Hij Hj Ei Ej.
  assert (Z1 : zeros (upd rv (Z.to_nat i) [0]) = zeros rv - 1).
  { rewrite zeros_upd by lia. rewrite Ei. simpl. lia. }
  assert (Z2 : zeros (upd (upd rv (Z.to_nat i) [0]) (Z.to_nat j) [0]) = zeros rv - 2).
  { rewrite zeros_upd by (unfold alen in *; rewrite upd_length; lia). rewrite nth_upd_other by lia. rewrite Ej. simpl. lia. }
  pose proof (zeros_range (upd (upd rv (Z.to_nat i) [0]) (Z.to_nat j) [0])). lia.
Qed.
(* exactly one empty entry *)
Lemma zeros_one : forall rv x, 0 <= x < alen rv -> (forall i, 0 <= i < alen rv -> (lst rv i = [] <-> i = x)) -> zeros rv = 1.
Proof.
  intros rv x Hx H.
  assert (Z1 : zeros (upd rv (Z.to_nat x) [0]) = zeros rv - 1).
  { rewrite zeros_upd by lia. assert (E : lst rv x = []) by (apply H; auto). rewrite E. simpl. lia. }
  assert (Z0 : zeros (upd rv (Z.to_nat x) [0]) = 0); [| lia].
  assert (N : forall i, 0 <= i < alen rv -> lst (upd rv (Z.to_nat x) [0]) i <> []).
  { intros i Hi. rewrite nth_upd_lst by lia. destruct (i =? x) eqn:E; [discriminate |].
    intros C. apply H in C; auto. lia. }
  assert (AL : alen (upd rv (Z.to_nat x) [0]) = alen rv) by (unfold alen; rewrite upd_length; reflexivity).
  rewrite <- AL in N. revert N. generalize (upd rv (Z.to_nat x) [0]) as l. clear. intros l N.
  unfold zeros. assert (filter isnil l = []) as ->; [| reflexivity].
  assert (F : forall w, In w l -> w <> []).
  { intros w Hw. apply (In_nth _ _ []) in Hw. destruct Hw as (k & K1 & <-).
    specialize (N (Z.of_nat k)). rewrite Nat2Z.id in N. apply N. unfold alen. lia. }
  clear N. induction l as [| w l IH]; [reflexivity |]. cbn [filter].
  destruct w; [exfalso; apply (F []); [left |]; reflexivity |]. cbn [isnil]. apply IH. intros w' Hw. apply F. right. exact Hw.
Qed.

Lemma advanceRoot_ok : forall fuel rv n r, alen rv = n -> 0 <= r <= n -> n - r <= Z.of_nat fuel ->
  exists s, advanceRoot fuel rv n r = Ok s /\ r <= s <= n /\ (forall i, r <= i < s -> lst rv i <> []) /\
    (s < n -> lst rv s = []).
Proof.
  induction fuel; intros rv n r HL Hr Hf.
  - exists r. cbn [advanceRoot]. replace (r <? n) with false by lia. repeat split; try lia.
  - cbn [advanceRoot]. destruct (r <? n) eqn:E.
    + rewrite (aget_Ok _ rv r []) by lia. cbn [bind]. destruct (lst rv r) as [| w l] eqn:El.
      * exists r. repeat split; try lia. auto.
      * destruct (IHfuel rv n (r + 1) HL) as (s & S1 & S2 & S3 & S4); [lia | lia |].
        exists s. split; [exact S1 |]. split; [lia |]. split; [| exact S4].
        intros i Hi. destruct (Z.eq_dec i r) as [-> | N]; [rewrite El; discriminate | apply S3; lia].
    + exists r. repeat split; try lia.
Qed.

Record diInv (o n : Z) (g : diGraph) (E : list (Z * Z)) : Prop := {
  di_base : baseInv eq arc o n (dbase g) E;
  di_rev : alen (rev_ g) = n;
  di_in : forall i, 0 <= i < n -> NoDup (lst (rev_ g) i) /\ forall y, In y (lst (rev_ g) i) <-> In (y, i + o) E;
  di_uf : ufInv (duf g) (shiftE o E);
  di_n : alen (duf g) = n;
  di_rc : rootCount g = zeros (rev_ g);
  di_root : 0 <= root g <= n /\
    exists f : bool, (f = true <-> acyclic E) /\
      (if f then nroots (duf g) = n - Z.of_nat (length E) /\ (forall i, 0 <= i < root g -> lst (rev_ g) i <> []) /\
                 (root g < n -> lst (rev_ g) (root g) = [])
       else n - Z.of_nat (length E) < nroots (duf g) /\ root g = n);
  di_rng : edgesIn o (o + n) E
}.

Lemma arc_same : forall E x y, arc E x y <-> exists d, In d E /\ d = (x, y).
Proof. intros. unfold arc. split; [eauto | intros (d & H & ->); exact H]. Qed.

Lemma addArc_inv : forall o n g E a b, diInv o n g E -> is_i64 o -> is_i64 (o + n) -> is_i64 n ->
  node o (o + n) a -> node o (o + n) b -> Z.of_nat (length E) + 1 <= I64_MAX ->
  exists g', addArc g a b = Ok g' /\ diInv o n g' (E ++ [(a, b)]).
Proof.
  intros o n g E a b I Ho Hon Hn Ha Hb HL. destruct I as [IB IR II IU IN IC IRt IE].
  unfold node in Ha, Hb. unfold addArc.
  destruct (addEdge__ok _ _ _ _ _ _ a b IB) as (sl & me & A1 & A2 & A3); auto; try (mach; lia); [apply arc_same |].
  rewrite A1. cbn [bind offset adj edges selfloop multiedge]. clear A1.
  pose proof (bi_n _ _ _ _ _ _ IB) as BN.
  rewrite chk_Ok by (mach; lia). cbn [bind]. rewrite (aget_Ok _ _ (b - o) []) by lia. cbn [bind].
  set (s := lst (rev_ g) (b - o)) in *.
  destruct (II (b - o) ltac:(lia)) as [S1 S2]. fold s in S1, S2.
  destruct (sinsert_spec a s S1) as [T1 T2].
  set (rv := upd (rev_ g) (Z.to_nat (b - o)) (sinsert a s)).
  assert (RL : alen rv = n) by (unfold rv, alen in *; rewrite upd_length; auto).
  assert (ZR := zeros_range (rev_ g)).
  assert (NS : isnil (sinsert a s) = false).
  { assert (In a (sinsert a s)) by (apply T2; auto). destruct (sinsert a s); [contradiction | reflexivity]. }
  assert (EC : match s with [] => chk (rootCount g - 1) | _ :: _ => Ok (rootCount g) end = Ok (zeros rv)).
  { unfold rv. rewrite zeros_upd by lia. fold s. rewrite NS, IC. destruct s eqn:Es; cbn [isnil].
    - assert (1 <= zeros (rev_ g)).
      { pose proof (zeros_upd (rev_ g) (b - o) [0] ltac:(lia)) as ZU. fold s in ZU. rewrite Es in ZU. simpl in ZU.
        pose proof (zeros_range (upd (rev_ g) (Z.to_nat (b - o)) [0])). lia. }
      rewrite chk_Ok by (mach; lia). f_equal. lia.
    - f_equal. lia. }
  rewrite EC. cbn [bind]. rewrite aset_Ok by lia. cbn [bind]. fold rv.
  rewrite chk_Ok by (mach; lia). cbn [bind].
  destruct (union_inv (duf g) _ (a - o) (b - o) IU ltac:(lia) ltac:(lia)) as (j & u & U1 & U2 & U3 & U4 & U5).
  rewrite U1. cbn [bind]. clear U1. rewrite conn_shift' in U2.
  unfold nodeCount. cbn [adj].
  set (adj' := upd (adj (dbase g)) (Z.to_nat (a - o)) (sinsert b (lst (adj (dbase g)) (a - o)))).
  assert (AL : alen adj' = n) by (unfold adj', alen in *; rewrite upd_length; auto).
  rewrite AL. destruct IRt as [R0 (f & F1 & F2)].
  destruct (advanceRoot_ok (length rv) rv n (if j then root g else n) RL) as (r & V1 & V2 & V3 & V4).
  { destruct j; lia. } { unfold alen in RL. destruct j; lia. }
  rewrite V1. cbn [bind]. eexists. split; [reflexivity |].
  assert (LE : Z.of_nat (length (E ++ [(a, b)])) = Z.of_nat (length E) + 1) by (rewrite app_length; simpl; lia).
  assert (mono : forall i, 0 <= i < n -> lst (rev_ g) i <> [] -> lst rv i <> []).
  { intros i Hi Hne. unfold rv. rewrite nth_upd_lst by lia. destruct (i =? b - o); auto.
    intros C. rewrite C in NS. discriminate. }
  constructor; cbn [dbase rev_ duf root rootCount]; auto.
  - constructor; cbn [offset adj edges selfloop multiedge]; auto.
    intros i Hi. unfold adj'. rewrite nth_upd_lst by lia. destruct (bi_adj _ _ _ _ _ _ IB i Hi) as [K1 K2].
    destruct (bi_adj _ _ _ _ _ _ IB (a - o) ltac:(lia)) as [Ka1 Ka2].
    destruct (sinsert_spec b _ Ka1) as [W1 W2].
    assert (NE : forall x y, arc (E ++ [(a, b)]) x y <-> arc E x y \/ (x = a /\ y = b)).
    { intros x y. unfold arc. rewrite in_app_iff. simpl. split; [intros [H | [H | []]]; auto; inv H; auto | intros [H | [-> ->]]; auto]. }
    destruct (i =? a - o) eqn:Ei.
    + split; auto. intros y. rewrite W2, Ka2, NE. replace (a - o + o) with a by lia. replace (i + o) with a by lia. tauto.
    + split; auto. intros y. rewrite K2, NE. split; auto. intros [H | [H _]]; auto. lia.
  - intros i Hi. unfold rv. rewrite nth_upd_lst by lia. destruct (i =? b - o) eqn:Ei.
    + split; auto. intros y. rewrite T2, S2, in_app_iff. replace (b - o + o) with b by lia. replace (i + o) with b by lia. simpl.
      split; [intros [-> | H]; auto | intros [H | [H | []]]; auto; inv H; auto].
    + destruct (II i Hi) as [K1 K2]. split; auto. intros y. rewrite K2, in_app_iff. simpl. split; auto.
      intros [H | [H | []]]; auto. inv H. lia.
  - rewrite shiftE_app. exact U3.
  - lia.
  - split; [destruct j; lia |]. exists (f && j). rewrite acyclic_snoc. split.
    + rewrite andb_true_iff, F1, U2. tauto.
    + rewrite LE. destruct j; [| rewrite andb_false_r; split; [destruct f; lia | lia]].
      rewrite andb_true_r. destruct f.
      * destruct F2 as (G1 & G2 & G3). split; [lia |]. split; [| exact V4].
        intros i Hi. destruct (Z.lt_ge_cases i (root g)); [| apply V3; lia].
        apply mono; [lia |]. apply G2. lia.
      * split; lia.
  - apply Forall_app. split; [exact IE |]. constructor; [| constructor]. unfold node. simpl. lia.
Qed.

Lemma newDiGraph_inv : forall l r, is_i64 l -> is_i64 r -> l <= r -> is_i64 (r - l) ->
  exists g, newDiGraph l r = Ok g /\ diInv l (r - l) g [].
Proof.
  intros l r Hl Hr Hlr H2. unfold newDiGraph, mkBaseGraph. rewrite !chk_Ok by (mach; lia). cbn [bind].
  replace (r - l <? 0) with false by lia. cbn [bind].
  destruct (ufInit_inv (r - l)) as (u & U1 & U2 & U3 & U4); [mach; lia |]. rewrite U1. cbn [bind].
  eexists. split; [reflexivity |].
  assert (RL : alen (repeat ([] : list Z) (Z.to_nat (r - l))) = r - l) by (unfold alen; rewrite repeat_length; lia).
  constructor; cbn [dbase rev_ duf root rootCount]; auto.
  - constructor; cbn [offset adj edges selfloop multiedge]; auto.
    + intros f (i & j & e & _ & H & _). destruct i; discriminate.
    + intros i Hi. rewrite nth_repeat_eq by lia. split; [constructor |]. intros y. unfold arc. simpl. tauto.
  - intros i Hi. rewrite nth_repeat_eq by lia. split; [constructor |]. intros y. simpl. tauto.
  - unfold zeros. replace (filter isnil (repeat [] (Z.to_nat (r - l)))) with (repeat ([] : list Z) (Z.to_nat (r - l))).
    + rewrite repeat_length. lia.
    + generalize (Z.to_nat (r - l)) as k. induction k; simpl; congruence.
  - split; [lia |]. exists true. split; [split; auto; intros _; apply acyclic_nil |]. split; [simpl; lia |].
    split; [lia |]. intros H. rewrite nth_repeat_eq by lia. reflexivity.
  - constructor.
Qed.

Lemma arcsRun_inv : forall es o n g E, diInv o n g E -> is_i64 o -> is_i64 (o + n) -> is_i64 n ->
  edgesIn o (o + n) es -> Z.of_nat (length (E ++ es)) <= I64_MAX ->
  exists g', arcsRun g es = Ok g' /\ diInv o n g' (E ++ es).
Proof.
  induction es as [| [a b] es IH]; intros o n g E I Ho Hon Hn HF HL.
  - exists g. rewrite app_nil_r. auto.
  - inversion_clear HF as [| ? ? [Ha Hb] HF']. cbn [arcsRun].
    destruct (addArc_inv o n g E a b I) as (g1 & G1 & G2); auto.
    { rewrite !app_length in HL. simpl in HL. lia. }
    rewrite G1. cbn [bind]. replace (E ++ (a, b) :: es) with ((E ++ [(a, b)]) ++ es) in * by (rewrite <- app_assoc; reflexivity).
    apply IH; auto.
Qed.

Lemma diGraph_program : forall l r es, is_i64 l -> is_i64 r -> l <= r -> is_i64 (r - l) ->
  edgesIn l r es -> Z.of_nat (length es) <= I64_MAX ->
  exists g, (let! g := newDiGraph l r in arcsRun g es) = Ok g /\ diInv l (r - l) g es.
Proof.
  intros l r es Hl Hr Hlr H2 HF HL. destruct (newDiGraph_inv l r) as (g & G1 & G2); auto.
  rewrite G1. cbn [bind]. replace r with (l + (r - l)) in HF by lia.
  destruct (arcsRun_inv es l (r - l) g [] G2) as (g' & R1 & R2); auto.
  { replace (l + (r - l)) with r by lia. exact Hr. }
  exists g'. auto.
Qed.

(* ---- isTree ---- *)
Lemma heads_count : forall (E : list (Z * Z)) x, length (filter (fun e => snd e =? x) E) = count_occ Z.eq_dec (map snd E) x.
Proof.
  induction E as [| [a b] E IH]; intros x; [reflexivity |]. cbn [filter map count_occ snd].
  destruct (Z.eq_dec b x), (b =? x) eqn:Eb; try lia; cbn [length]; rewrite IH; reflexivity.
Qed.

Definition others (o : Z) (k : nat) (x : Z) : list Z := filter (fun y => negb (y =? x)) (zseq o k).
Lemma others_In : forall o k x y, In y (others o k x) <-> (o <= y < o + Z.of_nat k) /\ y <> x.
Proof. intros. unfold others. rewrite filter_In, in_zseq. lia. Qed.
Lemma others_NoDup : forall o k x, NoDup (others o k x).
Proof. intros. apply NoDup_filter. apply zseq_NoDup. Qed.
Lemma others_length : forall o k x, (o <= x < o + Z.of_nat k) -> length (others o k x) = (k - 1)%nat.
Proof.
  intros o k x Hx. assert (P : Permutation (zseq o k) (x :: others o k x)).
  { apply NoDup_Permutation; [apply zseq_NoDup | |].
    - constructor; [rewrite others_In; lia | apply others_NoDup].
    - intros y. rewrite in_zseq. simpl. rewrite others_In. lia. }
  apply Permutation_length in P. rewrite zseq_length in P. simpl in P. lia.
Qed.

Lemma tree_sound : forall o n g E x, diInv o n g E -> diIsTree g = Some x ->
  x = o + n \/ arborescence o (o + n) E x.
Proof.
  intros o n g E x I H. unfold diIsTree in H. pose proof (di_base _ _ _ _ I) as IB.
  unfold edgeCount, nodeCount in H. rewrite (bi_edges _ _ _ _ _ _ IB), (bi_n _ _ _ _ _ _ IB), (bi_off _ _ _ _ _ _ IB), (di_rc _ _ _ _ I) in H.
  destruct ((zeros (rev_ g) =? 1) && (Z.of_nat (length E) + 1 =? n)) eqn:C; [| discriminate]. inv H.
  apply andb_true_iff in C. destruct C as [C1 C2].
  destruct (di_root _ _ _ _ I) as (R0 & f & F1 & F2).
  destruct (Z.eq_dec (root g) n) as [-> | Nr]; [left; lia |]. right.
  destruct f; [| lia]. destruct F2 as (NR & R1 & R2). specialize (R2 ltac:(lia)).
  assert (CON : connectedGraph o (o + n) E).
  { apply connected_shift. rewrite <- (di_n _ _ _ _ I). apply nroots_conn; [apply I | lia]. }
  pose proof (di_rev _ _ _ _ I) as RL. pose proof (di_in _ _ _ _ I) as IN. pose proof (di_rng _ _ _ _ I) as IE.
  assert (IE' : forall a b, In (a, b) E -> o <= a < o + n /\ o <= b < o + n).
  { intros a b Hab. unfold edgesIn in IE. rewrite Forall_forall in IE. apply (IE _ Hab). }
  assert (NoIn : forall y, ~ In (y, root g + o) E).
  { intros y Hy. apply (IN (root g) ltac:(lia)) in Hy. rewrite R2 in Hy. destruct Hy. }
  assert (Has : forall y, In y (others o (Z.to_nat n) (root g + o)) -> In y (map snd E)).
  { intros y Hy. apply others_In in Hy. destruct (lst (rev_ g) (y - o)) as [| z l] eqn:El.
    - exfalso. assert (2 <= zeros (rev_ g)); [| lia]. destruct (Z.lt_ge_cases (root g) (y - o)).
      + apply (zeros_two _ (root g) (y - o)); auto; lia.
      + apply (zeros_two _ (y - o) (root g)); auto; lia.
    - assert (Hz : In (z, y - o + o) E) by (apply (IN (y - o) ltac:(lia)); rewrite El; left; reflexivity).
      replace (y - o + o) with y in Hz by lia. apply in_map_iff. exists (z, y). auto. }
  assert (ND : NoDup (map snd E)).
  { eapply NoDup_incl_NoDup.
    - apply (others_NoDup o (Z.to_nat n) (root g + o)).
    - rewrite map_length, others_length by lia. lia.
    - exact Has. }
  split; [unfold node; lia |]. split.
  - assert (UNI : forall a b y, In (a, y) E -> In (b, y) E -> a = b).
    { intros a b y Ha Hb. clear - ND Ha Hb. induction E as [| [p q] E IH]; [destruct Ha |].
      cbn [map snd] in ND. inversion_clear ND as [| ? ? N1 N2]. destruct Ha as [Ha | Ha], Hb as [Hb | Hb].
      - congruence.
      - inv Ha. exfalso. apply N1. apply in_map_iff. exists (b, y). auto.
      - inv Hb. exfalso. apply N1. apply in_map_iff. exists (a, y). auto.
      - auto. }
    assert (RE : forall u v, conn E u v -> (reaches E (root g + o) u <-> reaches E (root g + o) v)).
    { intros u v H. induction H; try tauto. split; intros R.
      - eapply reaches_step; eauto.
      - inversion R as [| ? a' ? Ra Hin]; subst.
        + exfalso. eapply NoIn; eauto.
        + rewrite (UNI a a' b); auto. }
    intros y Hy. apply (RE (root g + o) y); [| constructor]. apply CON; auto. unfold node. lia.
  - intros y Hy. rewrite heads_count. destruct (y =? root g + o) eqn:Ey.
    + apply count_occ_not_In. intros Hin. apply in_map_iff in Hin. destruct Hin as ([a b] & Hb & Hab). simpl in Hb. subst b.
      replace y with (root g + o) in Hab by lia. eapply NoIn; eauto.
    + assert (Hin : In y (map snd E)) by (apply Has; apply others_In; unfold node in Hy; lia).
      apply (count_occ_In Z.eq_dec) in Hin. pose proof (proj1 (NoDup_count_occ Z.eq_dec (map snd E)) ND y). lia.
Qed.

Lemma tree_complete : forall o n g E x, diInv o n g E -> arborescence o (o + n) E x -> diIsTree g = Some x.
Proof.
  intros o n g E x I (Hx & HR & HD). unfold diIsTree. pose proof (di_base _ _ _ _ I) as IB. unfold node in Hx.
  pose proof (di_rev _ _ _ _ I) as RL. pose proof (di_in _ _ _ _ I) as IN. pose proof (di_rng _ _ _ _ I) as IE.
  assert (EM : forall i, 0 <= i < n -> (lst (rev_ g) i = [] <-> i = x - o)).
  { intros i Hi. specialize (HD (i + o) ltac:(unfold node; lia)). rewrite heads_count in HD.
    assert (Q : lst (rev_ g) i = [] <-> ~ In (i + o) (map snd E)).
    { split.
      - intros El Hin. apply in_map_iff in Hin. destruct Hin as ([a b] & Hb & Hab). simpl in Hb. subst b.
        apply (IN i Hi) in Hab. rewrite El in Hab. destruct Hab.
      - intros N. destruct (lst (rev_ g) i) as [| z l] eqn:El; auto. exfalso. apply N.
        assert (Hz : In (z, i + o) E) by (apply (IN i Hi); rewrite El; left; reflexivity).
        apply in_map_iff. exists (z, i + o). auto. }
    rewrite Q, (count_occ_not_In Z.eq_dec), HD. destruct (i + o =? x) eqn:Ei; lia. }
  assert (ZO : zeros (rev_ g) = 1).
  { apply (zeros_one _ (x - o)); rewrite RL; [lia |]. exact EM. }
  assert (LEN : Z.of_nat (length E) + 1 = n).
  { assert (P : Permutation (map snd E) (others o (Z.to_nat n) x)).
    { apply NoDup_Permutation; [| apply others_NoDup |].
      - apply (NoDup_count_occ Z.eq_dec). intros y.
        destruct (in_dec Z.eq_dec y (map snd E)) as [Hin | Hni].
        + assert (Hy : node o (o + n) y).
          { apply in_map_iff in Hin. destruct Hin as ([a b] & Hb & Hab). simpl in Hb. subst b.
            unfold edgesIn in IE. rewrite Forall_forall in IE. apply (IE _ Hab). }
          specialize (HD y Hy). rewrite heads_count in HD. destruct (y =? x); lia.
        + apply (count_occ_not_In Z.eq_dec) in Hni. lia.
      - intros y. rewrite others_In. split.
        + intros Hin. pose proof Hin as Hin'. apply in_map_iff in Hin'. destruct Hin' as ([a b] & Hb & Hab). simpl in Hb. subst b.
          assert (Hy : node o (o + n) y) by (unfold edgesIn in IE; rewrite Forall_forall in IE; apply (IE _ Hab)).
          specialize (HD y Hy). rewrite heads_count in HD. apply (count_occ_In Z.eq_dec) in Hin.
          unfold node in Hy. destruct (y =? x) eqn:Ey; lia.
        + intros [Hy1 Hy2]. specialize (HD y ltac:(unfold node; lia)). rewrite heads_count in HD.
          replace (y =? x) with false in HD by lia. apply (count_occ_In Z.eq_dec). lia. }
    apply Permutation_length in P. rewrite map_length, others_length in P by lia. lia. }
  unfold edgeCount, nodeCount. rewrite (bi_edges _ _ _ _ _ _ IB), (bi_n _ _ _ _ _ _ IB), (bi_off _ _ _ _ _ _ IB), (di_rc _ _ _ _ I).
  rewrite ZO, LEN. replace (n =? n) with true by lia. cbn [andb Z.eqb Pos.eqb]. f_equal.
  destruct (di_root _ _ _ _ I) as (R0 & f & F1 & F2).
  assert (RC : forall u v, reaches E u v -> conn E u v).
  { intros u v H. induction H; [constructor |]. eapply conn_trans; [exact IHreaches | apply conn_edge; exact H0]. }
  assert (NRO : nroots (duf g) <= 1).
  { apply (nroots_conn _ _ (di_uf _ _ _ _ I)). rewrite (di_n _ _ _ _ I). apply connected_shift.
    intros u v Hu Hv. eapply conn_trans; [apply conn_sym; apply RC; apply HR; exact Hu | apply RC; apply HR; exact Hv]. }
  destruct f.
  - destruct F2 as (NR & R1 & R2).
    assert (root g <= x - o).
    { destruct (Z.le_gt_cases (root g) (x - o)); auto. exfalso. apply (R1 (x - o)); [lia |]. apply EM; lia. }
    assert (E1 : lst (rev_ g) (root g) = []) by (apply R2; lia). apply EM in E1; lia.
  - exfalso. lia.
Qed.

(* ---- isDAG ---- *)
Lemma dagLoop_sinks : forall g deg todo fuel order, (length todo <= fuel)%nat ->
  (forall x, In x todo -> 0 <= x < alen (adj (dbase g)) /\ lst (adj (dbase g)) x = []) ->
  dagLoop fuel g deg order todo = Ok (rev order ++ todo).
Proof.
  intros g deg. induction todo as [| x todo IH]; intros fuel order HL HS.
  - destruct fuel; cbn [dagLoop]; rewrite app_nil_r; reflexivity.
  - destruct fuel as [| fuel]; [simpl in HL; lia |]. cbn [dagLoop]. destruct (HS x) as [Hx El]; [left; reflexivity |].
    rewrite (aget_Ok _ _ x []) by exact Hx. cbn [bind]. rewrite El. cbn [relax bind]. rewrite IH.
    + cbn [rev]. rewrite <- app_assoc. reflexivity.
    + simpl in HL. lia.
    + intros y Hy. apply HS. right. exact Hy.
Qed.

Lemma isDAG_ok : forall o n g E, diInv o n g E ->
  isDAG g = Ok (match E with [] => Some (rev (zseq o (Z.to_nat n))) | _ => None end).
Proof.
  intros o n g E I. unfold isDAG. pose proof (di_base _ _ _ _ I) as IB. pose proof (bi_n _ _ _ _ _ _ IB) as BN.
  assert (AL : alen (map alen (adj (dbase g))) = n) by (unfold alen at 1; rewrite map_length; exact BN).
  assert (DL : length (map alen (adj (dbase g))) = Z.to_nat n) by (rewrite map_length; unfold alen in BN; lia).
  set (p := fun i => nth (Z.to_nat i) (map alen (adj (dbase g))) 0 =? 0).
  assert (HP : forall i, 0 <= i < n -> (p i = true <-> lst (adj (dbase g)) i = [])).
  { intros i Hi. unfold p. change 0 with (alen ([] : list Z)) at 1. rewrite map_nth.
    destruct (lst (adj (dbase g)) i) as [| y l]; [simpl; tauto |]. split; [| discriminate].
    unfold alen. cbn [length]. lia. }
  rewrite DL. set (sinks := filter p (zseq 0 (Z.to_nat n))).
  assert (HS : forall x, In x sinks -> 0 <= x < n /\ lst (adj (dbase g)) x = []).
  { intros x Hx. unfold sinks in Hx. apply filter_In in Hx. rewrite in_zseq in Hx. destruct Hx as [Hx1 Hx2].
    split; [lia |]. apply HP; auto. lia. }
  assert (SL : (length sinks <= Z.to_nat n)%nat).
  { unfold sinks. rewrite <- (zseq_length (Z.to_nat n) 0) at 2. generalize (zseq 0 (Z.to_nat n)) as l. clear.
    induction l as [| y l IH]; simpl; auto. destruct (p y); simpl; lia. }
  rewrite dagLoop_sinks; [| rewrite rev_length; exact SL | intros x Hx; apply in_rev in Hx; rewrite BN; auto].
  cbn [bind rev app]. rewrite AL. destruct E as [| [a b] E].
  - assert (SA : sinks = zseq 0 (Z.to_nat n)).
    { unfold sinks. assert (G : forall l, (forall x, In x l -> p x = true) -> filter p l = l).
      { induction l as [| y l IH]; intros Hl; [reflexivity |]. cbn [filter]. rewrite Hl by (left; reflexivity).
        f_equal. apply IH. intros; apply Hl; right; assumption. }
      apply G. intros x Hx. apply in_zseq in Hx. apply HP; [lia |].
      destruct (bi_adj _ _ _ _ _ _ IB x ltac:(lia)) as [_ K]. destruct (lst (adj (dbase g)) x) as [| y l]; auto.
      exfalso. apply (K y). left. reflexivity. }
    rewrite SA. unfold alen. rewrite rev_length, zseq_length.
    assert (0 <= n) by (rewrite <- BN; unfold alen; lia).
    replace (Z.of_nat (Z.to_nat n) =? n) with true by lia. do 2 f_equal. rewrite (bi_off _ _ _ _ _ _ IB), map_rev. f_equal.
    generalize (Z.to_nat n) as k. intros k.
    assert (G : forall k c, map (fun x => x + o) (zseq c k) = zseq (c + o) k).
    { induction k0; intros c; cbn [zseq map]; [reflexivity |]. f_equal. rewrite IHk0. f_equal. lia. }
    rewrite G. reflexivity.
  - assert (LT : (length sinks < Z.to_nat n)%nat).
    { pose proof (di_rng _ _ _ _ I) as IE. inversion_clear IE as [| ? ? [Ha Hb] _]. unfold node in Ha. cbn [fst] in Ha.
      rewrite <- (zseq_length (Z.to_nat n) 0). unfold sinks.
      assert (EQ : zseq 0 (Z.to_nat n) = filter (fun _ => true) (zseq 0 (Z.to_nat n))).
      { generalize (zseq 0 (Z.to_nat n)) as l. induction l; simpl; congruence. }
      rewrite EQ at 2. apply filter_strict with (a - o); auto.
      - apply in_zseq. lia.
      - destruct (p (a - o)) eqn:Ep; auto. exfalso. apply HP in Ep; [| lia].
        destruct (bi_adj _ _ _ _ _ _ IB (a - o) ltac:(lia)) as [_ K]. rewrite Ep in K. apply (K b).
        unfold arc. left. f_equal. lia. }
    unfold alen. rewrite rev_length. replace (Z.of_nat (length sinks) =? n) with false by lia. reflexivity.
Qed.

Record diSays (l r : Z) (g : diGraph) (E : list (Z * Z)) : Prop := {
  ds_nodes : nodeCount (dbase g) = r - l;
  ds_edges : edgeCount (dbase g) = Z.of_nat (length E);
  ds_loop : match hasSelfloop (dbase g) with Some x => In (x, x) E | None => forall x, ~ In (x, x) E end;
  ds_multi : match hasMultiedge (dbase g) with Some f => repeated eq E f | None => forall f, ~ repeated eq E f end;
  ds_hasEdge : forall a b, node l r a -> exists h, hasEdge (dbase g) a b = Ok h /\ (h = true <-> In (a, b) E);
  ds_hasReverse : forall a b, node l r a -> exists h, hasReverse g a b = Ok h /\ (h = true <-> In (b, a) E);
  ds_outDegree : forall a, node l r a -> exists d, degree (dbase g) a = Ok d /\ cardinality (fun b => In (a, b) E) d;
  ds_inDegree : forall a, node l r a -> exists d, inDegree g a = Ok d /\ cardinality (fun b => In (b, a) E) d
}.

Lemma di_says : forall l r g E, is_i64 l -> is_i64 r -> l <= r -> is_i64 (r - l) -> diInv l (r - l) g E -> diSays l r g E.
Proof.
  intros l r g E Hl Hr Hlr H2 I. destruct I as [IB IR II IU IN IC IRt IE].
  pose proof (bi_n _ _ _ _ _ _ IB) as BN. pose proof (bi_off _ _ _ _ _ _ IB) as BO.
  constructor.
  - exact BN.
  - exact (bi_edges _ _ _ _ _ _ IB).
  - exact (bi_loop _ _ _ _ _ _ IB).
  - exact (bi_multi _ _ _ _ _ _ IB).
  - intros a b Ha. unfold node in Ha. unfold hasEdge. rewrite BO.
    rewrite chk_Ok by (mach; lia). cbn [bind]. rewrite (aget_Ok _ _ (a - l) []) by lia. cbn [bind].
    eexists. split; [reflexivity |]. rewrite smem_In. destruct (bi_adj _ _ _ _ _ _ IB (a - l) ltac:(lia)) as [_ K].
    rewrite K. unfold arc. replace (a - l + l) with a by lia. tauto.
  - intros a b Ha. unfold node in Ha. unfold hasReverse. rewrite BO.
    rewrite chk_Ok by (mach; lia). cbn [bind]. rewrite (aget_Ok _ _ (a - l) []) by lia. cbn [bind].
    eexists. split; [reflexivity |]. rewrite smem_In. destruct (II (a - l) ltac:(lia)) as [_ K].
    rewrite K. replace (a - l + l) with a by lia. tauto.
  - intros a Ha. unfold node in Ha. unfold degree, neighboursOf. rewrite BO.
    rewrite chk_Ok by (mach; lia). cbn [bind]. rewrite (aget_Ok _ _ (a - l) []) by lia. cbn [bind].
    eexists. split; [reflexivity |]. destruct (bi_adj _ _ _ _ _ _ IB (a - l) ltac:(lia)) as [K1 K2].
    eexists. split; [exact K1 |]. split; [| reflexivity]. intros y. rewrite K2. unfold arc. replace (a - l + l) with a by lia. tauto.
  - intros a Ha. unfold node in Ha. unfold inDegree. rewrite BO.
    rewrite chk_Ok by (mach; lia). cbn [bind]. rewrite (aget_Ok _ _ (a - l) []) by lia. cbn [bind].
    eexists. split; [reflexivity |]. destruct (II (a - l) ltac:(lia)) as [K1 K2].
    eexists. split; [exact K1 |]. split; [| reflexivity]. intros y. rewrite K2. replace (a - l + l) with a by lia. tauto.
Qed.

Lemma di_spec : forall l r es, is_i64 l -> is_i64 r -> l <= r -> is_i64 (r - l) ->
  edgesIn l r es -> Z.of_nat (length es) <= I64_MAX ->
  exists g, (let! g := newDiGraph l r in arcsRun g es) = Ok g /\ diSays l r g es.
Proof.
  intros l r es Hl Hr Hlr H2 HE HL. destruct (diGraph_program l r es) as (g & G1 & G2); auto.
  exists g. split; auto. apply di_says; auto.
Qed.
Lemma di_tree : forall l r es, is_i64 l -> is_i64 r -> l <= r -> is_i64 (r - l) ->
  edgesIn l r es -> Z.of_nat (length es) <= I64_MAX ->
  exists g, (let! g := newDiGraph l r in arcsRun g es) = Ok g /\
    (forall x, node l r x -> (diIsTree g = Some x <-> arborescence l r es x)) /\
    (forall x, diIsTree g = Some x -> node l r x \/ x = r).
Proof.
  intros l r es Hl Hr Hlr H2 HE HL. destruct (diGraph_program l r es) as (g & G1 & G2); auto.
  exists g. split; auto. replace r with (l + (r - l)) by lia. split.
  - intros x Hx. unfold node in Hx. split; intros H.
    + destruct (tree_sound _ _ _ _ _ G2 H); auto. lia.
    + eapply tree_complete; eauto.
  - intros x H. destruct (tree_sound _ _ _ _ _ G2 H) as [| [K _]]; auto.
Qed.
Lemma di_dag : forall l r es, is_i64 l -> is_i64 r -> l <= r -> is_i64 (r - l) ->
  edgesIn l r es -> Z.of_nat (length es) <= I64_MAX ->
  exists g res, (let! g := newDiGraph l r in arcsRun g es) = Ok g /\ isDAG g = Ok res /\ (res <> None <-> es = []).
Proof.
  intros l r es Hl Hr Hlr H2 HE HL. destruct (diGraph_program l r es) as (g & G1 & G2); auto.
  eexists. eexists. split; [exact G1 |]. split; [eapply isDAG_ok; eauto |].
  destruct es; split; intros; congruence.
Qed.
