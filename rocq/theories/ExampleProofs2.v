(* The example programs: answers, graphs, multipass. *)
From Coq Require Import String.
From Verif Require Import Base Tac SeqModel RegexModel RegexProofs FloatModel InputSpec InputModel InputClient InputProofs InputProofs2 InputProofs3 InputProofs4 ArgsModel InitModel InitSpec InitProofs ExampleModel ExampleSpec ExampleProofs GraphSpec OutProofs OutSpec PipeSpec PipeProofs PipeProofs2.
From Verif Require PassModel PassProofs GraphModel OutModel.
Open Scope Z_scope.

(* ---- answerValidator.cpp ---- *)
Lemma on_file : forall c t s, on (integersIn c 0 100 t 10) s (fun _ r => on (newline c) r (fun _ r => on (eof c) r (fun _ _ => Code AC))) =
  match integerFile c 0 100 t 10 s with Ret _ _ => Code 42 | Exit x => Code x | Raise => Thrown end.
Proof.
  intros c t s. unfold on, integerFile, rbind. destruct (integersIn c 0 100 t 10 s); auto. destruct (newline c rest); auto. destruct (eof c rest0); auto.
Qed.
Lemma answer_cases : forall ct bt ca ba, spaceSensitive ct = false -> spaceSensitive ca = true -> onFail ct = 1 -> onFail ca = 43 ->
  let x := answerBody (ct, bt) (ca, ba) in
  (exists t, firstInteger false bt t /\
     ((t < 0 /\ x = Thrown) \/ (0 <= t /\ answerAccepts t ba /\ x = Code 42) \/ (0 <= t /\ ~ answerAccepts t ba /\ x = Code 43))) \/
  ((forall t, ~ firstInteger false bt t) /\ x = Code 1).
Proof.
  intros ct bt ca ba HT HA FT FA x. unfold x, answerBody. clear x. set (K := fun (t : Z) (_ : list Z) => _). destruct (on_integer ct bt K) as [(w & t & r & N & D & I & ->)|(N & ->)]; rewrite HT in N.
  2: { right. rewrite FT. auto. }
  left. exists t. split; [exists w; split; [exists r; auto|auto]|]. unfold K. rewrite on_file. destruct (Z_lt_dec t 0) as [T|T].
  - left. split; auto. unfold integerFile, rbind, integersIn, many. change (checkSeparator ca 10) with (Some (newline ca)). replace (t <? 0) with true by lia. reflexivity.
  - right. assert (SP : forall vs, integerFile ca 0 100 t 10 ba = Ret vs [] -> answerAccepts t ba).
    { intros vs X. apply integerFile_spec in X as (L & F & ts & D2 & E); auto; [|lia]. exists vs, ts. split; auto. split; [|auto]. eapply Forall_impl; [|exact F]. cbn. tauto. }
    destruct (integerFile_else ca 0 100 t 10 ba) as [(vs & E)|E]; auto; [lia|rewrite E..].
    + left. split; [lia|]. split; auto. eapply SP; eauto.
    + right. split; [lia|]. rewrite FA. split; auto. intros (vs & ts & L & F & D2 & EQ). assert (X : integerFile ca 0 100 t 10 ba = Ret vs []); [|congruence].
      apply integerFile_spec; auto; [lia|]. split; auto. split; [|eauto]. eapply Forall_impl; [|exact F]. cbn. intros v V. split; auto. mach. lia.
Qed.
Lemma answerMain_Ok : forall parse files args stdin c,
  answerMain parse files args stdin = Code c <->
  exists tb, ready parse args start /\ constraintsOk args /\ fileAt files args 1 tb /\
    ((c = 1 /\ forall t, ~ firstInteger false tb t) \/
     exists t, firstInteger false tb t /\ 0 <= t /\ ((c = 42 /\ answerAccepts t stdin) \/ (c = 43 /\ ~ answerAccepts t stdin))).
Proof.
  intros parse files args stdin c. unfold answerMain.
  assert (RS : ready parse args (strictWorld start) <-> ready parse args start) by (unfold ready; cbn; tauto).
  destruct (initAnswer_cases parse files args stdin start) as [(tb & R & K & F1 & s & E & CF & _ & ST & _ & SM)|(N & E)].
  - rewrite E. cbn [started]. rewrite SM, ST. apply RS in R.
    pose proof (answer_cases (mkCfg false true 1 DEFAULT_EPS DEFAULT_EPS) tb (mkCfg true true 43 DEFAULT_EPS DEFAULT_EPS) stdin eq_refl eq_refl eq_refl eq_refl) as O. cbv zeta in O.
    assert (U : forall tb', fileAt files args 1 tb' -> tb' = tb) by (intros tb' (p & P & Q); destruct F1 as (p1 & P1 & Q1); congruence).
    split.
    + intro X. exists tb. repeat (split; [assumption|]). destruct O as [(t & F & [(T & O)|[(T & A & O)|(T & A & O)]])|(NF & O)]; rewrite O in X; try discriminate; injection X as <-; [right|right|left]; eauto 10.
    + intros (tb' & _ & _ & F' & X). rewrite (U _ F') in X. destruct O as [(t & F & O)|(NF & O)].
      * destruct X as [(-> & X)|(t' & F2 & T & X)]; [exfalso; eapply X; eauto|]. rewrite (firstInteger_unique _ _ _ _ F2 F) in *. destruct O as [(? & O)|[(? & A & O)|(? & A & O)]]; [lia|rewrite O..]; destruct X as [(-> & X)|(-> & X)]; tauto.
      * destruct X as [(-> & X)|(t' & F2 & _)]; [auto|exfalso; eapply NF; eauto].
  - rewrite E. cbn [started]. split; [discriminate|]. intros (tb & H). exfalso. apply (N tb). rewrite RS. tauto.
Qed.

(* ---- trees are bipartite ---- *)
Lemma conn_mono : forall E F x y, (forall e, In e E -> In e F) -> conn E x y -> conn F x y.
Proof. intros E F x y H C. induction C; [apply conn_refl|apply conn_edge; auto|apply conn_sym; auto|eapply conn_trans; eauto]. Qed.
Lemma components : forall E, exists f : Z -> Z, forall x y, conn E x y <-> f x = f y.
Proof.
  induction E as [|(a, b) E (f & IH)].
  - exists (fun x => x). intros x y. split; [|intros ->; apply conn_refl]. induction 1; auto; [contradiction|congruence].
  - exists (fun x => if f x =? f a then f b else f x). intros x y. split.
    + induction 1 as [x|u v I|x y _ C|x y z _ C _ D]; auto; [|congruence]. destruct I as [I|I].
      * inversion I; subst. rewrite Z.eqb_refl. destruct (f v =? f u); reflexivity.
      * assert (X : f u = f v) by (apply IH; apply conn_edge; auto). rewrite X. reflexivity.
    + assert (M : forall u v, f u = f v -> conn ((a, b) :: E) u v) by (intros u v X; apply IH in X; eapply conn_mono; [|exact X]; right; auto).
      assert (AB : conn ((a, b) :: E) a b) by (apply conn_edge; left; auto).
      destruct (f x =? f a) eqn:EX, (f y =? f a) eqn:EY; intro X.
      * apply M. lia.
      * eapply conn_trans; [apply M; apply Z.eqb_eq; exact EX|]. eapply conn_trans; [exact AB|]. apply M. auto.
      * eapply conn_trans; [apply M; exact X|]. apply conn_sym. eapply conn_trans; [apply M; apply Z.eqb_eq; exact EY|exact AB].
      * apply M. auto.
Qed.
Lemma acyclic_colour : forall E, acyclic E -> twoColourable E.
Proof.
  induction E as [|(a, b) E IH]; intro A.
  - exists (fun _ => true). intros ? ? [].
  - assert (A' : acyclic E).
    { intros E1 u v E2 -> C. apply (A ((a, b) :: E1) u v E2 eq_refl). eapply conn_mono; [|exact C]. intros e I. cbn. auto. }
    assert (N : ~ conn E a b) by (apply (A [] a b E eq_refl)). destruct (IH A') as (c & C). destruct (components E) as (f & F).
    destruct (Bool.bool_dec (c a) (c b)) as [Q|Q].
    + exists (fun x => if f x =? f a then negb (c x) else c x). intros u v [I|I].
      * inversion I; subst. rewrite Z.eqb_refl. replace (f v =? f u) with false by (symmetry; apply Z.eqb_neq; intro X; apply N, F; auto). rewrite Q. destruct (c v); discriminate.
      * pose proof (C u v I) as X. assert (Y : f u = f v) by (apply F, conn_edge; auto). rewrite Y. destruct (f v =? f a); auto. destruct (c u), (c v); auto.
    + exists c. intros u v [I|I]; [inversion I; subst; auto|auto].
Qed.

(* one component less for every edge of a forest *)
Lemma forest_count : forall lo n E, 0 <= n -> edgesIn lo (lo + n) E -> acyclic E ->
  exists (f : Z -> Z) (L : list Z), (forall x y, conn E x y <-> f x = f y) /\ NoDup L /\ (forall v, In v L <-> exists x, node lo (lo + n) x /\ f x = v) /\ alen L + alen E = n.
Proof.
  intros lo n E N. induction E as [|(a, b) E IH]; intros EI A.
  - exists (fun x => x), (map (fun k => lo + Z.of_nat k) (seq 0 (Z.to_nat n))). split; [|split; [|split]].
    + intros x y. split; [|intros ->; apply conn_refl]. induction 1; auto; [contradiction|congruence].
    + apply FinFun.Injective_map_NoDup; [intros u v; lia|apply seq_NoDup].
    + intro v. rewrite in_map_iff. unfold node. split.
      * intros (k & <- & I). apply in_seq in I. exists (lo + Z.of_nat k). split; lia.
      * intros (x & B & <-). exists (Z.to_nat (x - lo)). split; [lia|]. apply in_seq. lia.
    + unfold alen. rewrite map_length, seq_length. cbn. lia.
  - inversion EI as [|? ? (NA & NB) EI']; subst. cbn [fst snd] in NA, NB.
    assert (A' : acyclic E).
    { intros E1 u v E2 -> C. apply (A ((a, b) :: E1) u v E2 eq_refl). eapply conn_mono; [|exact C]. intros e I. cbn. auto. }
    assert (NC : ~ conn E a b) by (apply (A [] a b E eq_refl)). destruct (IH EI' A') as (f & L & F & ND & IL & LN).
    assert (FN : f a <> f b) by (intro X; apply NC, F; auto).
    exists (fun x => if f x =? f a then f b else f x), (remove Z.eq_dec (f a) L). split; [|split; [|split]].
    + intros x y. split.
      * induction 1 as [x|u v I|x y _ C|x y z _ C _ D]; auto; [|congruence]. destruct I as [I|I].
        { inversion I; subst. rewrite Z.eqb_refl. destruct (f v =? f u); reflexivity. }
        assert (X : f u = f v) by (apply F; apply conn_edge; auto). rewrite X. reflexivity.
      * assert (M : forall u v, f u = f v -> conn ((a, b) :: E) u v) by (intros u v X; apply F in X; eapply conn_mono; [|exact X]; right; auto).
        assert (AB : conn ((a, b) :: E) a b) by (apply conn_edge; left; auto).
        destruct (f x =? f a) eqn:EX, (f y =? f a) eqn:EY; intro X.
        { apply M. lia. }
        { eapply conn_trans; [apply M; apply Z.eqb_eq; exact EX|]. eapply conn_trans; [exact AB|]. apply M. auto. }
        { eapply conn_trans; [apply M; exact X|]. apply conn_sym. eapply conn_trans; [apply M; apply Z.eqb_eq; exact EY|exact AB]. }
        { apply M. auto. }
    + clear - ND. induction ND as [|x l H ND IH]; [constructor|]. cbn. destruct (Z.eq_dec (f a) x); auto. constructor; auto. intro I. apply in_remove in I. tauto.
    + intro v. split.
      * intro I. apply in_remove in I as (I & NE). apply IL in I as (x & NX & <-). exists x. split; auto. replace (f x =? f a) with false by lia. auto.
      * intros (x & NX & <-). destruct (f x =? f a) eqn:EX; apply in_in_remove; auto; try lia; apply IL; eauto.
    + assert (IA : In (f a) L) by (apply IL; eauto).
      assert (R : alen (remove Z.eq_dec (f a) L) + 1 = alen L).
      { clear - ND IA. induction ND as [|x l H ND IH]; [contradiction|]. cbn. destruct (Z.eq_dec (f a) x) as [<-|NE].
        - rewrite notin_remove by auto. unfold alen. cbn. lia.
        - destruct IA as [IA|IA]; [congruence|]. specialize (IH IA). unfold alen in *. cbn. lia. }
      unfold alen in *. cbn [length]. lia.
Qed.
Lemma tree_count : forall lo n E, 1 <= n -> edgesIn lo (lo + n) E -> connectedGraph lo (lo + n) E -> acyclic E -> alen E = n - 1.
Proof.
  intros lo n E N EI C A. destruct (forest_count lo n E) as (f & L & F & ND & IL & LN); auto; [lia|].
  assert (I0 : In (f lo) L) by (apply IL; exists lo; split; auto; unfold node; lia).
  assert (U : forall v, In v L -> v = f lo) by (intros v I; apply IL in I as (x & NX & <-); apply F, C; auto; unfold node; lia).
  destruct L as [|u [|v L]]; [contradiction|unfold alen in *; cbn [length] in LN; lia|]. exfalso. inversion ND as [|? ? NI]; subst. apply NI. left. rewrite (U u), (U v); auto; [right; left; auto|left; auto].
Qed.

Lemma acyclic_loop : forall E, acyclic E -> forall x, ~ In (x, x) E.
Proof. intros E A x I. apply in_split in I as (E1 & E2 & ->). apply (A E1 x x E2 eq_refl). apply conn_refl. Qed.
Lemma acyclic_multi : forall E, acyclic E -> forall f, ~ repeated sameEdge E f.
Proof.
  intros E A (x, y) (i & j & (u, v) & L & E1 & E2 & R). apply nth_error_split in E2 as (L1 & L2 & -> & LN). apply (A L1 x y L2 eq_refl).
  assert (I : In (u, v) (L1 ++ L2)) by (apply in_or_app; left; rewrite nth_error_app1 in E1 by lia; eapply nth_error_In; eauto).
  destruct R as [R|R]; cbn in R; inversion R; subst; [apply conn_edge; auto|apply conn_sym, conn_edge; auto].
Qed.

(* ---- inputValidator.graph.cpp ---- *)
Lemma graphLoop_edges : forall c n k g s, readEdges GraphModel.graph GraphModel.addEdge c 1 [] n k g s =
  match graphLoop c n k g s with Ret v r => Ret (v, repeat [] k) r | Exit x => Exit x | Raise => Raise end.
Proof.
  intros c n. induction k as [|k IH]; intros g s; [reflexivity|]. cbn [readEdges graphLoop]. unfold rbind. replace (n + 1) with (1 + n) by lia.
  destruct (integerIn c 1 (1 + n) s) as [a s1| |]; auto. destruct (space c s1) as [u s2| |]; auto. destruct (integerIn c 1 (1 + n) s2) as [b s3| |]; auto. cbn [readData]. unfold rret at 1. destruct (newline c s3) as [v s4| |]; auto.
  destruct (rlift (GraphModel.addEdge g a b) s4) as [g' s5| |]; auto. rewrite IH. replace (1 + n) with (n + 1) by lia. destruct (graphLoop c n k g' s5); auto.
Qed.
Lemma narrow : forall c up s v r, integerIn c 1 up s = Ret v r <-> integerIn c 0 up s = Ret v r /\ 1 <= v.
Proof. intros. rewrite !integerIn_spec. split; [intros (t & A & B & C & D); split; [exists t; repeat (split; auto); lia|lia]|intros ((t & A & B & C & D) & E); exists t; repeat (split; auto); lia]. Qed.
Lemma graphRead_iff : forall c s v r, graphRead c s = Ret v r <-> exists ds, ds <> [] /\ readUndirected c 1 100000 200000 1 [] s = Ret (v, ds) r.
Proof.
  intros c s v r. unfold graphRead, readGraph, rbind. destruct (integerIn c 1 100000 s) as [n s1| |]; [|split; [discriminate|intros (? & _ & ?); discriminate]..].
  destruct (space c s1) as [u s2| |]; [|split; [discriminate|intros (? & _ & ?); discriminate]..].
  destruct (integerIn c 0 200000 s2) as [m s3| |] eqn:E0.
  2,3: destruct (integerIn c 1 200000 s2) as [m s3| |] eqn:E1; [apply narrow in E1 as (E1 & _); congruence|split; [discriminate|intros (? & _ & ?); discriminate]..].
  destruct (Z_le_dec 1 m) as [M|M].
  - rewrite (proj2 (narrow c 200000 s2 m s3)) by auto. destruct (newline c s3) as [u4 s4| |]; [|split; [discriminate|intros (? & _ & ?); discriminate]..].
    replace (n + 1) with (1 + n) by lia. destruct (rlift (GraphModel.newGraph 1 (1 + n)) s4) as [g s5| |]; [|split; [discriminate|intros (? & _ & ?); discriminate]..].
    rewrite graphLoop_edges. destruct (graphLoop c n (Z.to_nat m) g s5) as [g' s6| |]; [|split; [discriminate|intros (? & _ & ?); discriminate]..].
    destruct (eof c s6) as [u7 s7| |]; [|split; [discriminate|intros (? & _ & ?); discriminate]..]. unfold rret. split.
    + intro H. inv H. exists (repeat [] (Z.to_nat m)). split; [destruct (Z.to_nat m) eqn:Q; [lia|discriminate]|auto].
    + intros (ds & _ & H). inv H. reflexivity.
  - destruct (integerIn c 1 200000 s2) as [m' s3'| |] eqn:E1; [apply narrow in E1 as (E1 & X); exfalso; rewrite E0 in E1; inv E1; lia|..]; (split; [discriminate|]); intros (ds & ND & H); exfalso;
      (assert (MZ : Z.to_nat m = O) by (apply integerIn_spec in E0 as (t & _ & _ & _ & B); lia)); rewrite MZ in H; cbn [readEdges] in H;
      (destruct (newline c s3) as [u4 s4| |]; [|discriminate..]); (destruct (rlift (GraphModel.newGraph 1 (1 + n)) s4) as [g s5| |]; [|discriminate..]); unfold rret in H; (destruct (eof c s5) as [u7 s7| |]; [|discriminate..]); inv H; congruence.
Qed.
Lemma addAll_snoc : forall es (g : GraphModel.graph) a b, addAll GraphModel.addEdge g (es ++ [(a, b)]) = let! g := addAll GraphModel.addEdge g es in GraphModel.addEdge g a b.
Proof. induction es as [|(x, y) es IH]; intros g a b; cbn. - destruct (GraphModel.addEdge g a b); reflexivity. - destruct (GraphModel.addEdge g x y); cbn; auto. Qed.
Lemma graphLoop_safe : forall c n k es g0 g s, 1 <= n < 100000 -> GraphModel.newGraph 1 (1 + n) = Ok g0 -> edgesIn 1 (1 + n) es -> alen es + Z.of_nat k <= 200000 -> addAll GraphModel.addEdge g0 es = Ok g ->
  (exists v r, graphLoop c n k g s = Ret v r) \/ graphLoop c n k g s = Exit (onFail c).
Proof.
  intros c n. induction k as [|k IH]; intros es g0 g s B NG EI L AD; cbn [graphLoop].
  - left. unfold rret. eauto.
  - unfold rbind. destruct (safe_integerIn c 1 (n + 1) s) as [(a & s1 & E1)|E1]; rewrite E1; [|auto].
    destruct (safe_space c s1) as [(u & s2 & E2)|E2]; rewrite E2; [|auto].
    destruct (safe_integerIn c 1 (n + 1) s2) as [(b & s3 & E3)|E3]; rewrite E3; [|auto].
    destruct (safe_newline c s3) as [(u' & s4 & E4)|E4]; rewrite E4; [|auto].
    apply integerIn_spec in E1 as (_ & _ & _ & _ & BA). apply integerIn_spec in E3 as (_ & _ & _ & _ & BB).
    assert (EI' : edgesIn 1 (1 + n) (es ++ [(a, b)])) by (apply Forall_app; split; auto; constructor; auto; cbn [fst snd]; unfold node; lia).
    assert (AL : alen (es ++ [(a, b)]) = alen es + 1) by (unfold alen; rewrite app_length; cbn; lia).
    destruct (graph_built 1 (1 + n) (es ++ [(a, b)])) as (v & BD & _); auto; try (mach; lia).
    rewrite NG in BD. cbn [bind] in BD. pose proof (addAll_snoc es g0 a b) as SN. rewrite AD in SN. cbn [bind] in SN. rewrite SN in BD. unfold rlift. rewrite BD.
    apply (IH (es ++ [(a, b)]) g0 v s4); auto; [lia|]. rewrite SN. auto.
Qed.
Lemma graphRead_safe : forall c s, (exists v r, graphRead c s = Ret v r) \/ graphRead c s = Exit (onFail c).
Proof.
  intros c s. unfold graphRead, rbind. destruct (safe_integerIn c 1 100000 s) as [(n & s1 & E1)|E1]; rewrite E1; [|auto].
  destruct (safe_space c s1) as [(u & s2 & E2)|E2]; rewrite E2; [|auto].
  destruct (safe_integerIn c 1 200000 s2) as [(m & s3 & E3)|E3]; rewrite E3; [|auto].
  destruct (safe_newline c s3) as [(u' & s4 & E4)|E4]; rewrite E4; [|auto].
  apply integerIn_spec in E1 as (_ & _ & _ & _ & BN). apply integerIn_spec in E3 as (_ & _ & _ & _ & BM).
  destruct (graph_built 1 (1 + n) []) as (v & BD & _); try (mach; lia); [constructor|unfold alen; cbn; mach; lia|]. replace (n + 1) with (1 + n) by lia.
  destruct (GraphModel.newGraph 1 (1 + n)) as [g0| | |] eqn:NG; try discriminate. unfold rlift.
  destruct (graphLoop_safe c n (Z.to_nat m) [] g0 g0 s4) as [(w & r & E)|E]; auto; [constructor|unfold alen; cbn; lia|rewrite E..]; auto.
  destruct (safe_eof c r) as [(u7 & s7 & E7)|E7]; rewrite E7; [|auto]. left. unfold rret. eauto.
Qed.
Lemma line_pair : forall a b, is_i64 a -> is_i64 b -> decimalPair (PassModel.showInteger a ++ 32 :: PassModel.showInteger b) a b.
Proof. intros a b A B. exists (PassModel.showInteger a), (PassModel.showInteger b). split; [apply show_decimal; auto|]. split; [apply show_decimal; auto|auto]. Qed.
Lemma pair_line : forall l a b, is_i64 a -> is_i64 b -> decimalPair l a b -> l = PassModel.showInteger a ++ 32 :: PassModel.showInteger b.
Proof. intros l a b A B (s & t & D & D' & ->). rewrite (decimal_unique _ _ _ D (show_decimal a A)), (decimal_unique _ _ _ D' (show_decimal b B)). reflexivity. Qed.
Definition lineOf (e : Z * Z) : list Z := PassModel.showInteger (fst e) ++ 32 :: PassModel.showInteger (snd e).
Lemma joined_cons : forall sep t ts, joined sep (t :: ts) ++ [sep] = t ++ sep :: (match ts with [] => [] | _ => joined sep ts ++ [sep] end).
Proof. intros sep t [|u ts]; cbn [joined]; [reflexivity|]. rewrite <- app_assoc. reflexivity. Qed.
Lemma writeLines_pair : forall e ls, writeLines ((fst e :: snd e :: []) :: ls) = lineOf e ++ 10 :: writeLines ls.
Proof. intros (a, b) ls. rewrite writeLines_cons, tail2. unfold lineOf. cbn [tailOf flat_map fst snd]. rewrite app_nil_r, <- app_assoc. reflexivity. Qed.
Lemma writeLines_flat : forall es, writeLines (map (fun p => fst (fst p) :: snd (fst p) :: snd p) (combine es (repeat [] (length es)))) = flat_map (fun e => lineOf e ++ [10]) es.
Proof.
  induction es as [|e es IH]; [reflexivity|]. cbn [length repeat combine map flat_map]. change (fst (e, @nil Z)) with e. change (snd (e, @nil Z)) with (@nil Z).
  etransitivity; [apply writeLines_pair|]. rewrite IH. rewrite <- app_assoc. reflexivity.
Qed.
Lemma joined_flat : forall es e, joined 10 (map lineOf (e :: es)) ++ [10] = flat_map (fun e => lineOf e ++ [10]) (e :: es).
Proof.
  induction es as [|e' es IH]; intro e; rewrite map_cons, (joined_cons 10 (lineOf e)).
  - cbn [flat_map map]. rewrite app_nil_r. reflexivity.
  - change (flat_map (fun e => lineOf e ++ [10]) (e :: e' :: es)) with ((lineOf e ++ [10]) ++ flat_map (fun e => lineOf e ++ [10]) (e' :: es)). rewrite <- IH, <- app_assoc. reflexivity.
Qed.
Lemma graphFile_joined : forall n es ds, Forall (within []) ds -> alen ds = alen es -> graphFile n es ds = joined 10 (map lineOf ((n, alen es) :: es)) ++ [10].
Proof.
  intros n es ds W L. assert (DS : ds = repeat [] (length es)).
  { assert (LL : length ds = length es) by (unfold alen in L; lia). clear L. revert es LL. induction W as [|d ds H W IH]; intros [|e es] LL; try discriminate; auto. cbn. inversion H; subst. f_equal. apply IH. cbn in LL. lia. }
  rewrite DS. unfold graphFile. rewrite joined_flat. rewrite <- writeLines_flat. reflexivity.
Qed.

Lemma graph_cases : forall c b, spaceSensitive c = true -> onFail c = 43 ->
  (treeFile b /\ graphBody (c, b) = Code 42) \/ (~ treeFile b /\ graphBody (c, b) = Code 43).
Proof.
  intros c b SS OF.
  assert (TF : treeFile b <-> exists n es, 1 <= n < 100000 /\ 1 <= alen es < 200000 /\ edgesIn 1 (1 + n) es /\ connectedGraph 1 (1 + n) es /\ acyclic es /\ b = joined 10 (map lineOf ((n, alen es) :: es)) ++ [10]).
  { split.
    - intros (n & es & B & L & EI & C & A & h & ls & DH & F & ->). exists n, es. replace (1 + n) with (n + 1) by lia. repeat (split; [auto; lia|]).
      f_equal. rewrite map_cons. f_equal. rewrite L. rewrite (pair_line h n (n - 1)) by (auto; mach; lia). unfold lineOf at 1. cbn [fst snd]. f_equal.
      clear - F EI B. induction F as [|l e ls es D F IH]; auto. inversion EI as [|? ? (NA & NB)]; subst. unfold node in *. rewrite map_cons. f_equal; auto. apply pair_line; auto; mach; lia.
    - intros (n & es & B & L & EI & C & A & ->). pose proof (tree_count 1 n es ltac:(lia) EI C A) as T. exists n, es. replace (n + 1) with (1 + n) by lia. split; [lia|]. repeat (split; [auto; fail|]).
      exists (lineOf (n, alen es)), (map lineOf es). rewrite T. split; [apply line_pair; mach; lia|]. split; [|reflexivity].
      clear - EI B. induction EI as [|e es (NA & NB) EI IH]; constructor; auto. unfold node in *. apply line_pair; mach; lia. }
  unfold graphBody, on. destruct (graphRead_safe c b) as [(v & r & E)|E]; rewrite E.
  - pose proof E as E'. apply graphRead_iff in E' as (ds & ND & R). pose proof R as R'.
    apply graph_meaning in R' as (-> & n & es & FB & EI & NC & EC & SL & ME & IC & IF & IT & IB); auto; try (mach; lia).
    apply readGraph_iff in R as (n' & es' & A1 & A2 & A3 & A4 & A5 & A6 & A7 & A8 & A9 & A10); auto; try (mach; lia).
    assert (LD : 1 <= alen ds) by (destruct ds; [congruence|unfold alen; cbn [length]; lia]).
    assert (TI : treeFile b <-> GraphModel.isTree v = true).
    { rewrite TF. split.
      - intros (n2 & es2 & B & L & EI2 & C & A & EQ). destruct (graph_built 1 (1 + n2) es2) as (v2 & BD & SY); auto; try (mach; lia).
        assert (X : graphRead c b = Ret v2 []); [|assert (v2 = v) by congruence; subst v2; apply SY; auto].
        apply graphRead_iff. exists (repeat [] (length es2)). split; [destruct es2; [unfold alen in L; cbn [length] in L; lia|discriminate]|].
        assert (W : Forall (within []) (repeat [] (length es2))) by (apply Forall_forall; intros d I; apply repeat_spec in I; subst; constructor).
        assert (LR : alen (repeat (@nil Z) (length es2)) = alen es2) by (unfold alen; rewrite repeat_length; auto).
        apply readGraph_iff; auto; try (mach; lia). exists n2, es2. rewrite graphFile_joined by auto. repeat (split; [auto; mach; lia|]). auto.
      - intro T. destruct (graph_built 1 (1 + n') es') as (v2 & BD & SY); auto; try (mach; lia). rewrite BD in A10. inversion A10; subst v2. apply SY in T as (C & A).
        exists n', es'. rewrite <- graphFile_joined with (ds := ds) by auto. repeat (split; [auto; lia|]). auto. }
    rewrite TI. destruct (GraphModel.isTree v) eqn:T.
    + left. split; auto. destruct IT as (IT & _). destruct (IT eq_refl) as (C & A).
      rewrite (proj2 SL), (proj2 ME), (proj2 IC), (proj2 IB); auto using acyclic_colour, acyclic_loop, acyclic_multi.
    + right. split; [discriminate|]. destruct (GraphModel.hasSelfloop (GraphModel.base v)); auto. destruct (GraphModel.hasMultiedge (GraphModel.base v)); auto. destruct (GraphModel.isConnected v); auto.
  - right. rewrite OF. split; auto. rewrite TF. intros (n & es & B & L & EI & C & A & EQ).
    destruct (graph_built 1 (1 + n) es) as (v & BD & _); auto; try (mach; lia).
    assert (X : graphRead c b = Ret v []); [|congruence]. apply graphRead_iff. exists (repeat [] (length es)). split; [destruct es; [unfold alen in *; cbn in *; lia|discriminate]|].
    assert (W : Forall (within []) (repeat [] (length es))) by (apply Forall_forall; intros d I; apply repeat_spec in I; subst; constructor).
    assert (LR : alen (repeat (@nil Z) (length es)) = alen es) by (unfold alen; rewrite repeat_length; auto).
    apply readGraph_iff; auto; try (mach; lia). exists n, es. rewrite graphFile_joined by auto. repeat (split; [auto; mach; lia|]). auto.
Qed.
