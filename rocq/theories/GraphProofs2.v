From Verif Require Import Tac RndModel RandSeqModel RndLemmas SortLemmas GraphModel GraphSpec GraphClientSpec UnionFindProofs GraphProofs.
From Coq Require Import Permutation.

Definition arc (E : list (Z * Z)) (x y : Z) : Prop := In (x, y) E.

Record baseInv (R : Z * Z -> Z * Z -> Prop) (A : list (Z * Z) -> Z -> Z -> Prop) (o n : Z)
  (b : baseGraph) (E : list (Z * Z)) : Prop := {
  bi_off : offset b = o;
  bi_n : alen (adj b) = n;
  bi_edges : edges b = Z.of_nat (length E);
  bi_loop : match selfloop b with Some x => In (x, x) E | None => forall x, ~ In (x, x) E end;
  bi_multi : match multiedge b with Some f => repeated R E f | None => forall f, ~ repeated R E f end;
  bi_adj : forall i, 0 <= i < n -> NoDup (nth (Z.to_nat i) (adj b) []) /\
             forall y, In y (nth (Z.to_nat i) (adj b) []) <-> A E (i + o) y
}.

Lemma nth_error_snoc : forall A (l : list A) x i y, nth_error (l ++ [x]) i = Some y <->
  (nth_error l i = Some y \/ (i = length l /\ y = x)).
Proof.
  intros A l x i y. destruct (Nat.lt_ge_cases i (length l)) as [H | H].
  - rewrite nth_error_app1 by exact H. split; auto. intros [G | [G _]]; auto. lia.
  - rewrite nth_error_app2 by exact H. destruct (nth_error_None l i) as [_ N]. rewrite (N H).
    destruct (i - length l)%nat eqn:D.
    + simpl. split; [intros G; inv G; right; split; auto; lia | intros [G | [_ ->]]; [discriminate | reflexivity]].
    + simpl. split; [destruct n; discriminate | intros [G | [G _]]; [discriminate | lia]].
Qed.

Lemma repeated_snoc : forall R E e f, repeated R (E ++ [e]) f <-> repeated R E f \/ (f = e /\ exists d, In d E /\ R d e).
Proof.
  intros R E e f. split.
  - intros (i & j & d & Hij & Hi & Hj & HR). apply nth_error_snoc in Hi. apply nth_error_snoc in Hj.
    destruct Hj as [Hj | [-> ->]].
    + destruct Hi as [Hi | [-> _]].
      * left. exists i, j, d. auto.
      * assert (nth_error E j <> None) by congruence. apply nth_error_Some in H. lia.
    + right. split; auto. destruct Hi as [Hi | [-> _]]; [| lia]. exists d. split; auto. eapply nth_error_In; eauto.
  - intros [(i & j & d & Hij & Hi & Hj & HR) | [-> (d & Hd & HR)]].
    + exists i, j, d. split; [exact Hij |]. split; [apply nth_error_snoc; auto |]. split; [apply nth_error_snoc; auto | exact HR].
    + apply In_nth_error in Hd. destruct Hd as [i Hi]. exists i, (length E), d.
      assert (i < length E)%nat by (apply nth_error_Some; congruence).
      split; auto. split; [apply nth_error_snoc; auto |]. split; [apply nth_error_snoc; auto | exact HR].
Qed.

Lemma addEdge__ok : forall R A o n b E x y, baseInv R A o n b E -> node o (o + n) x ->
  is_i64 o -> is_i64 n -> is_i64 x -> Z.of_nat (length E) + 1 <= I64_MAX ->
  (A E x y <-> exists d, In d E /\ R d (x, y)) ->
  exists sl me, addEdge_ b x y =
    Ok (mkBase o (Z.of_nat (length (E ++ [(x, y)])))
         (upd (adj b) (Z.to_nat (x - o)) (sinsert y (nth (Z.to_nat (x - o)) (adj b) []))) sl me) /\
    match sl with Some v => In (v, v) (E ++ [(x, y)]) | None => forall v, ~ In (v, v) (E ++ [(x, y)]) end /\
    match me with Some f => repeated R (E ++ [(x, y)]) f | None => forall f, ~ repeated R (E ++ [(x, y)]) f end.
Proof.
  intros R A o n b E x y I Hx Ho Hn Hxi HL HA. destruct I as [I1 I2 I3 I4 I5 I6]. unfold node in Hx.
  unfold addEdge_. rewrite I1. rewrite chk_Ok by (mach; lia). cbn [bind].
  rewrite (aget_Ok _ (adj b) (x - o) []) by lia. cbn [bind]. rewrite aset_Ok by lia. cbn [bind].
  rewrite I3. rewrite chk_Ok by (mach; lia). cbn [bind].
  replace (Z.of_nat (length (E ++ [(x, y)]))) with (Z.of_nat (length E) + 1) by (rewrite app_length; simpl; lia).
  eexists. eexists. split; [reflexivity |]. split.
  - destruct (x =? y) eqn:Exy.
    + apply in_app_iff. right. left. f_equal. lia.
    + destruct (selfloop b) as [v |]; [apply in_app_iff; auto |].
      intros v Hv. apply in_app_iff in Hv. destruct Hv as [Hv | [Hv | []]]; [exact (I4 v Hv) |]. inv Hv. lia.
  - destruct (I6 (x - o) ltac:(lia)) as [_ J]. specialize (J y). replace (x - o + o) with x in J by lia.
    destruct (smem y (nth (Z.to_nat (x - o)) (adj b) [])) eqn:Em.
    + apply repeated_snoc. right. split; auto. apply HA. apply J. apply smem_In. exact Em.
    + assert (Nr : ~ exists d, In d E /\ R d (x, y)).
      { intros H. apply HA, J, smem_In in H. congruence. }
      destruct (multiedge b) as [f |]; [apply repeated_snoc; auto |].
      intros f Hf. apply repeated_snoc in Hf. destruct Hf as [Hf | [_ Hf]]; [exact (I5 f Hf) | contradiction].
Qed.

Lemma near_same : forall E x y, near E x y <-> exists d, In d E /\ sameEdge d (x, y).
Proof.
  intros E x y. unfold near, sameEdge. cbn [fst snd]. split.
  - intros [H | H]; eauto.
  - intros (d & H & [-> | ->]); auto.
Qed.

Lemma nth_upd_lst : forall (l : list (list Z)) i j v, 0 <= i < alen l -> 0 <= j ->
  nth (Z.to_nat j) (upd l (Z.to_nat i) v) [] = if j =? i then v else nth (Z.to_nat j) l [].
Proof.
  intros l i j v Hi Hj. unfold alen in Hi. destruct (j =? i) eqn:E.
  - replace j with i by lia. apply nth_upd_same. lia.
  - apply nth_upd_other. lia.
Qed.

Record graphInv (o n : Z) (g : graph) (E : list (Z * Z)) : Prop := {
  gi_base : baseInv sameEdge near o n (base g) E;
  gi_uf : ufInv (uf g) (shiftE o E);
  gi_n : alen (uf g) = n;
  gi_buf : ufInv (buf g) (dbl (shiftE o E));
  gi_n2 : alen (buf g) = 2 * n;
  gi_comp : components g = nroots (uf g);
  gi_forest : forest g = true <-> acyclic E;
  gi_clash : bipartite g = true <-> forall x, ~ clash (shiftE o E) x;
  gi_rng : edgesIn o (o + n) E
}.

Lemma conn_shift' : forall o E x y, conn (shiftE o E) (x - o) (y - o) <-> conn E x y.
Proof. intros. rewrite conn_shift. replace (x - o + o) with x by lia. replace (y - o + o) with y by lia. tauto. Qed.

Lemma bool_iff : forall (b : bool) (P : Prop), (b = true -> P) -> (b = false -> ~ P) -> (b = true <-> P).
Proof. intros [|] P H1 H2; split; auto. intros HP. exfalso. exact (H2 eq_refl HP). Qed.

Lemma addEdge_inv : forall o n g E a b, graphInv o n g E -> is_i64 o -> is_i64 (o + n) -> is_i64 (2 * n) ->
  node o (o + n) a -> node o (o + n) b -> Z.of_nat (length E) + 1 <= I64_MAX ->
  exists g', addEdge g a b = Ok g' /\ graphInv o n g' (E ++ [(a, b)]).
Proof.
  intros o n g E a b I Ho Hon Hn Ha Hb HL. destruct I as [IB IU IN IBU IN2 IC IF IX IR].
  unfold node in Ha, Hb. unfold addEdge.
  destruct (addEdge__ok _ _ _ _ _ _ a b IB) as (sl & me & A1 & A2 & A3); auto; try (mach; lia); [apply near_same |].
  rewrite A1. cbn [bind offset adj edges selfloop multiedge]. clear A1.
  pose proof (bi_n _ _ _ _ _ _ IB) as BN.
  rewrite chk_Ok by (mach; lia). cbn [bind].
  set (s := sinsert b (nth (Z.to_nat (a - o)) (adj (base g)) [])).
  assert (AL : alen (upd (adj (base g)) (Z.to_nat (a - o)) s) = n) by (unfold alen in *; rewrite upd_length; auto).
  rewrite (aget_Ok _ _ (b - o) []) by lia. cbn [bind]. rewrite aset_Ok by lia. cbn [bind offset].
  rewrite chk_Ok by (mach; lia). cbn [bind].
  destruct (union_inv (uf g) _ (a - o) (b - o) IU ltac:(lia) ltac:(lia)) as (j & u & U1 & U2 & U3 & U4 & U5).
  rewrite U1. cbn [bind]. clear U1.
  assert (NR : 0 <= nroots u) by (unfold nroots; lia).
  assert (NU : nroots (uf g) <= n).
  { unfold nroots. rewrite <- IN. unfold alen. apply Nat2Z.inj_le. clear.
    induction (uf g) as [| v l IH]; simpl; auto. destruct (v <? 0); simpl; lia. }
  assert (EC : (if j then chk (components g - 1) else Ok (components g)) = Ok (nroots u)).
  { rewrite IC. destruct j; [rewrite chk_Ok by (mach; lia) |]; f_equal; lia. }
  rewrite EC. cbn [bind]. rewrite !chk_Ok by (mach; lia). cbn [bind]. rewrite !lxor_even.
  replace ((a - o) * 2) with (2 * (a - o)) by lia. replace ((b - o) * 2) with (2 * (b - o)) by lia.
  destruct (union_inv (buf g) _ (2 * (a - o)) (2 * (b - o) + 1) IBU ltac:(lia) ltac:(lia)) as (j1 & b1 & B1 & _ & B3 & B4 & _).
  rewrite B1. cbn [bind]. clear B1.
  destruct (union_inv b1 _ (2 * (a - o) + 1) (2 * (b - o)) B3 ltac:(lia) ltac:(lia)) as (j2 & b2 & C1 & _ & C3 & C4 & _).
  rewrite C1. cbn [bind]. clear C1.
  assert (DB : dbl (shiftE o (E ++ [(a, b)])) =
    (dbl (shiftE o E) ++ [(2 * (a - o), 2 * (b - o) + 1)]) ++ [(2 * (a - o) + 1, 2 * (b - o))]).
  { rewrite shiftE_app, dbl_app, <- app_assoc. reflexivity. }
  rewrite <- DB in C3.
  destruct (connected_inv b2 _ (2 * (a - o)) (2 * (a - o) + 1) C3 ltac:(lia) ltac:(lia)) as (con & b3 & D1 & D2 & D3 & D4 & _).
  rewrite D1. cbn [bind]. clear D1.
  eexists. split; [reflexivity |]. constructor; cbn [base uf buf components forest bipartite].
  - constructor; cbn [offset adj edges selfloop multiedge]; auto.
    + unfold alen in *. rewrite upd_length. exact AL.
    + intros i Hi. rewrite nth_upd_lst by lia.
      destruct (bi_adj _ _ _ _ _ _ IB i Hi) as [K1 K2].
      destruct (bi_adj _ _ _ _ _ _ IB (a - o) ltac:(lia)) as [Ka1 Ka2].
      destruct (sinsert_spec b _ Ka1) as [S1 S2]. fold s in S1, S2.
      assert (T : NoDup (nth (Z.to_nat i) (upd (adj (base g)) (Z.to_nat (a - o)) s) []) /\
        forall y, In y (nth (Z.to_nat i) (upd (adj (base g)) (Z.to_nat (a - o)) s) []) <-> near E (i + o) y \/ (i + o = a /\ y = b)).
      { rewrite nth_upd_lst by lia. destruct (i =? a - o) eqn:Ei.
        - assert (i = a - o) by lia. subst i. split; auto. intros y. rewrite S2, Ka2.
          replace (a - o + o) with a by lia. tauto.
        - split; auto. intros y. rewrite K2. split; auto. intros [H | [H _]]; auto. lia. }
      assert (NE : forall x y, near (E ++ [(a, b)]) x y <-> near E x y \/ (x = a /\ y = b) \/ (x = b /\ y = a)).
      { intros x y. unfold near. rewrite !in_app_iff. simpl.
        split; [intros [[? | [H | []]] | [? | [H | []]]]; auto; inv H; auto | intros [[? | ?] | [[-> ->] | [-> ->]]]; auto]. }
      destruct (i =? b - o) eqn:Ei.
      * replace i with (b - o) in * by lia. destruct T as [T1 T2].
        destruct (sinsert_spec a _ T1) as [V1 V2]. split; auto. intros y. rewrite V2, T2, NE.
        replace (b - o + o) with b by lia. split; [intros [-> | [H | [H1 H2]]] | intros [H | [[H1 H2] | [H1 H2]]]]; auto.
      * destruct T as [T1 T2]. split; auto. intros y. rewrite T2, NE. split; [tauto |].
        intros [H | [H | [H _]]]; auto. lia.
  - rewrite shiftE_app. exact U3.
  - lia.
  - exact D3.
  - lia.
  - reflexivity.
  - rewrite acyclic_snoc. rewrite conn_shift' in U2. destruct j.
    + rewrite IF. tauto.
    + split; [discriminate |]. intros [_ N]. apply U2 in N. exact N.
  - assert (CA : con = true <-> clash (shiftE o (E ++ [(a, b)])) (a - o)) by exact D2.
    destruct (bipartite g) eqn:Eb; cbn [andb].
    + assert (IX' : forall x, ~ clash (shiftE o E) x) by (apply IX; reflexivity).
      apply bool_iff.
      * intros H x. rewrite shiftE_app in *. apply clash_snoc; auto. intros C. apply CA in C. subst con. discriminate.
      * intros H. destruct con; [| discriminate]. intros K. apply (K (a - o)). apply CA. reflexivity.
    + split; [discriminate |]. intros H. apply IX. intros x C. apply (H x).
      unfold clash in *. rewrite shiftE_app, dbl_app. eapply conn_mono; [| exact C]. intros e. apply in_app_iff || (rewrite in_app_iff; auto).
  - apply Forall_app. split; [exact IR |]. constructor; [| constructor]. unfold node. simpl. lia.
Qed.

Lemma edges_shift : forall o n E, edgesIn o (o + n) E -> edgesIn 0 n (shiftE o E).
Proof.
  intros o n E H. unfold edgesIn, shiftE in *. rewrite Forall_map. eapply Forall_impl; [| exact H].
  intros [a b] [H1 H2]. unfold node in *. simpl in *. lia.
Qed.
Lemma colour_shift : forall o E, twoColourable (shiftE o E) <-> twoColourable E.
Proof.
  intros o E. split; intros [c H].
  - exists (fun x => c (x - o)). intros a b Hab. apply H. apply in_shiftE.
    replace (a - o + o) with a by lia. replace (b - o + o) with b by lia. exact Hab.
  - exists (fun x => c (x + o)). intros a b Hab. apply in_shiftE in Hab. auto.
Qed.
Lemma connected_shift : forall o n E, connectedGraph 0 n (shiftE o E) <-> connectedGraph o (o + n) E.
Proof.
  intros o n E. unfold connectedGraph, node. split; intros H x y Hx Hy.
  - apply (conn_shift' o). apply H; lia.
  - apply conn_shift. apply H; lia.
Qed.

Lemma graphRun_inv : forall cs o n g E, graphInv o n g E -> is_i64 o -> is_i64 (o + n) -> is_i64 (2 * n) ->
  Forall (gcallIn o (o + n)) cs -> Z.of_nat (length (E ++ edgesOf cs)) <= I64_MAX ->
  exists r g', graphRun g cs = Ok (r, g') /\ graphInv o n g' (E ++ edgesOf cs) /\ queryAnswers E cs r.
Proof.
  induction cs as [| c cs IH]; intros o n g E I Ho Hon Hn HF HL.
  - exists [], g. simpl. rewrite app_nil_r. auto.
  - inversion_clear HF as [| ? ? Hc HF']. destruct c as [a b | a b]; destruct Hc as [Ha Hb].
    + cbn [graphRun]. destruct (addEdge_inv o n g E a b I) as (g1 & G1 & G2); auto.
      { cbn [edgesOf flat_map] in HL. rewrite !app_length in HL. simpl in HL. lia. }
      rewrite G1. cbn [bind].
      assert (EQ : E ++ edgesOf (CallEdge a b :: cs) = (E ++ [(a, b)]) ++ edgesOf cs) by (rewrite <- app_assoc; reflexivity).
      rewrite EQ in *. destruct (IH o n g1 _ G2) as (r & g' & R1 & R2 & R3); auto. exists r, g'. auto.
    + cbn [graphRun]. unfold areConnected. rewrite (bi_off _ _ _ _ _ _ (gi_base _ _ _ _ I)). unfold node in Ha, Hb.
      pose proof (gi_n _ _ _ _ I) as GN.
      rewrite !chk_Ok by (mach; lia). cbn [bind].
      destruct (connected_inv (uf g) _ (a - o) (b - o) (gi_uf _ _ _ _ I) ltac:(lia) ltac:(lia)) as (c & u & C1 & C2 & C3 & C4 & C5).
      rewrite C1. cbn [bind].
      set (g1 := mkGraph (base g) u (buf g) (components g) (forest g) (bipartite g)).
      assert (I1 : graphInv o n g1 E).
      { destruct I. constructor; cbn [g1 base uf buf components forest bipartite]; auto; lia. }
      destruct (IH o n g1 E I1) as (r & g' & R1 & R2 & R3); auto. rewrite R1. cbn [bind].
      exists (c :: r), g'. split; [reflexivity |]. split; [exact R2 |]. cbn [queryAnswers]. split; auto.
      rewrite C2. apply conn_shift'.
Qed.

Lemma newGraph_inv : forall l r, is_i64 l -> is_i64 r -> l <= r -> is_i64 (2 * (r - l)) ->
  exists g, newGraph l r = Ok g /\ graphInv l (r - l) g [].
Proof.
  intros l r Hl Hr Hlr H2. unfold newGraph, mkBaseGraph. rewrite !chk_Ok by (mach; lia). cbn [bind].
  replace (r - l <? 0) with false by lia. cbn [bind].
  destruct (ufInit_inv (r - l)) as (u & U1 & U2 & U3 & U4); [mach; lia |]. rewrite U1. cbn [bind].
  rewrite chk_Ok by (mach; lia). cbn [bind].
  destruct (ufInit_inv (2 * (r - l))) as (v & V1 & V2 & V3 & V4); [mach; lia |]. rewrite V1. cbn [bind].
  eexists. split; [reflexivity |]. constructor; cbn [base uf buf components forest bipartite]; auto.
  - constructor; cbn [offset adj edges selfloop multiedge]; auto.
    + unfold alen. rewrite repeat_length. lia.
    + intros f (i & j & e & _ & H & _). destruct i; discriminate.
    + intros i Hi. rewrite nth_repeat_eq by lia. split; [constructor |]. intros y. unfold near. simpl. tauto.
  - split; auto. intros _. apply acyclic_nil.
  - split; auto. intros _ x C. unfold clash in C. simpl in C.
    assert (G : forall u v, conn [] u v -> u = v) by (intros p q H; induction H; try congruence; destruct H).
    apply G in C. lia.
  - constructor.
Qed.

Theorem graph_program : forall l r cs, is_i64 l -> is_i64 r -> l <= r -> is_i64 (2 * (r - l)) ->
  Forall (gcallIn l r) cs -> Z.of_nat (length (edgesOf cs)) <= I64_MAX ->
  exists ans g, (let! g := newGraph l r in graphRun g cs) = Ok (ans, g) /\
    graphInv l (r - l) g (edgesOf cs) /\ queryAnswers [] cs ans.
Proof.
  intros l r cs Hl Hr Hlr H2 HF HL. destruct (newGraph_inv l r) as (g & G1 & G2); auto.
  rewrite G1. cbn [bind]. replace r with (l + (r - l)) in HF by lia.
  destruct (graphRun_inv cs l (r - l) g [] G2) as (a & g' & R1 & R2 & R3); auto.
  { replace (l + (r - l)) with r by lia. exact Hr. }
  exists a, g'. auto.
Qed.

(* what the members of a graph object say about its edges *)
Record graphSays (l r : Z) (g : graph) (E : list (Z * Z)) : Prop := {
  gs_connected : isConnected g = true <-> connectedGraph l r E;
  gs_forest : isForest g = true <-> acyclic E;
  gs_tree : isTree g = true <-> connectedGraph l r E /\ acyclic E;
  gs_bipartite : isBipartite g = true <-> twoColourable E;
  gs_nodes : nodeCount (base g) = r - l;
  gs_edges : edgeCount (base g) = Z.of_nat (length E);
  gs_loop : match hasSelfloop (base g) with Some x => In (x, x) E | None => forall x, ~ In (x, x) E end;
  gs_multi : match hasMultiedge (base g) with Some f => repeated sameEdge E f | None => forall f, ~ repeated sameEdge E f end;
  gs_hasEdge : forall a b, node l r a -> exists h, hasEdge (base g) a b = Ok h /\ (h = true <-> near E a b);
  gs_degree : forall a, node l r a -> exists d, degree (base g) a = Ok d /\ cardinality (near E a) d
}.

Lemma graph_says : forall l r g E, is_i64 l -> is_i64 r -> l <= r -> is_i64 (2 * (r - l)) -> graphInv l (r - l) g E -> graphSays l r g E.
Proof.
  intros l r g E Hl Hr Hlr H2 I. destruct I as [IB IU IN IBU IN2 IC IF IX IR].
  assert (EC : isConnected g = true <-> connectedGraph l r E).
  { unfold isConnected. rewrite IC. replace r with (l + (r - l)) by lia. rewrite <- connected_shift, <- IN.
    rewrite <- nroots_conn by exact IU. lia. }
  constructor; auto.
  - unfold isTree. rewrite andb_true_iff. unfold isConnected in EC. rewrite EC, IF. tauto.
  - unfold isBipartite. rewrite IX. split.
    + intros H. apply (colour_shift l). eapply no_clash_colour; eauto. apply edges_shift. exact IR.
    + intros H x. apply colour_no_clash. apply colour_shift. exact H.
  - exact (bi_n _ _ _ _ _ _ IB).
  - exact (bi_edges _ _ _ _ _ _ IB).
  - exact (bi_loop _ _ _ _ _ _ IB).
  - exact (bi_multi _ _ _ _ _ _ IB).
  - intros a b Ha. unfold node in Ha. pose proof (bi_n _ _ _ _ _ _ IB) as BN.
    unfold hasEdge. rewrite (bi_off _ _ _ _ _ _ IB).
    rewrite chk_Ok by (mach; lia). cbn [bind]. rewrite (aget_Ok _ _ (a - l) []) by lia. cbn [bind].
    eexists. split; [reflexivity |]. rewrite smem_In. destruct (bi_adj _ _ _ _ _ _ IB (a - l) ltac:(lia)) as [_ K].
    rewrite K. replace (a - l + l) with a by lia. tauto.
  - intros a Ha. unfold node in Ha. pose proof (bi_n _ _ _ _ _ _ IB) as BN.
    unfold degree, neighboursOf. rewrite (bi_off _ _ _ _ _ _ IB).
    rewrite chk_Ok by (mach; lia). cbn [bind]. rewrite (aget_Ok _ _ (a - l) []) by lia. cbn [bind].
    eexists. split; [reflexivity |]. destruct (bi_adj _ _ _ _ _ _ IB (a - l) ltac:(lia)) as [K1 K2].
    eexists. split; [exact K1 |]. split; [| reflexivity]. intros y. rewrite K2. replace (a - l + l) with a by lia. tauto.
Qed.

Lemma graph_spec : forall l r cs, is_i64 l -> is_i64 r -> l <= r -> is_i64 (2 * (r - l)) ->
  Forall (gcallIn l r) cs -> Z.of_nat (length (edgesOf cs)) <= I64_MAX ->
  exists ans g, (let! g := newGraph l r in graphRun g cs) = Ok (ans, g) /\ queryAnswers [] cs ans /\
    graphSays l r g (edgesOf cs).
Proof.
  intros l r cs Hl Hr Hlr H2 HF HL. destruct (graph_program l r cs Hl Hr Hlr H2 HF HL) as (ans & g & G1 & G2 & G3).
  exists ans, g. split; [exact G1 |]. split; [exact G3 |]. apply graph_says; auto.
Qed.
