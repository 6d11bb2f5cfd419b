(* The example generators. *)
From Coq Require Import String Permutation QArith.
From Verif Require Import Base Tac RndModel RndLemmas RandSpec RandSeqModel DistinctProofs FloatModel InputSpec InputModel InputClient InputProofs InputProofs2 InputProofs3 InputProofs4 ArgsModel ArgsSpec ArgsClient ArgsProofs InitModel InitSpec InitProofs
  GraphSpec OutModel OutProofs OutSpec PipeModel PipeSpec PipeProofs PipeProofs2 GenModel GenSpec GenOpsModel GenMakeModel GenProofs3 GenOpsProofs GenOpsProofs2 GenMakeProofs GenMakeProofs2 GenMakeProofs3 ExampleProofs2 GenExModel GenExSpec.
From Verif Require PassModel.
Open Scope Z_scope.

(* ---- generator.cpp ---- *)
Lemma n_command : forall args p, commandParser args = Ok p -> exists c, getCommand p (chars "--n") = Ok c /\
  ((exists n, argumentN args n /\ (forall n', argumentN args n' -> n' = n) /\ asInteger (ctoken c) = Ok n) \/ ((forall n, ~ argumentN args n) /\ asInteger (ctoken c) = Throw)).
Proof.
  intros args p P. assert (T : token (chars "--n")) by (apply token_literal; [reflexivity|discriminate]). assert (C : isCmd (chars "--n")) by (exists 110, []; reflexivity).
  destruct (str_in_dec (chars "--n") args) as [I|I].
  - destruct (group_exists args _ I C) as (ps & G). destruct (getCommand_found args p _ ps P T G) as (c & GC & F & (_ & _ & S & A & _)). exists c. split; auto.
    assert (U : forall ps', groupOf args (text "--n") ps' -> ps' = ps).
    { intros ps' G'. destruct (getCommand_found args p _ ps' P T G') as (c' & GC' & F' & (_ & _ & S' & A' & _)). rewrite GC in GC'. injection GC' as <-. rewrite A in A'. congruence. }
    rewrite S. destruct ps as [|s ps]; cbn [hd_error].
    + right. split; [|reflexivity]. intros n (s & ps & G' & _). apply U in G'. discriminate.
    + destruct (asInteger (Some s)) as [n| | |] eqn:E.
      * left. exists n. split; [exists s, ps; split; auto; apply asInteger_iff; auto|]. split; auto. intros n' (s' & ps' & G' & IA). apply U in G'. inversion G'; subst. apply asInteger_iff in IA. congruence.
      * right. split; auto. intros n (s' & ps' & G' & IA). apply U in G'. inversion G'; subst. apply asInteger_iff in IA. congruence.
      * exfalso. clear - E. unfold asInteger, asString, parseArg in E. cbn [bind] in E. destruct (_ s) in E; discriminate.
      * exfalso. clear - E. unfold asInteger, asString, parseArg in E. cbn [bind] in E. destruct (_ s) in E; discriminate.
  - destruct (getCommand_absent args p _ P T) as (c & GC & F & (_ & _ & S & _)); [tauto|]. exists c. split; auto. right. split.
    + intros n (s & ps & (pre & post & -> & _) & _). apply I. apply in_or_app. right. left. reflexivity.
    + rewrite S. reflexivity.
Qed.

Lemma distinct_bounds : forall n, is_i64 n -> ~ (0 <= n <= 10) -> distinct n 0 10 = RRet Throw.
Proof. intros n I N. apply distinct_throws; auto; mach; lia. Qed.
Lemma file_joined : forall xs, join (map IInt xs) DEFAULT_SEPARATOR = joined 32 (map PassModel.showInteger xs).
Proof. intro xs. rewrite join_joined by discriminate. rewrite map_map. reflexivity. Qed.
Lemma numbers_text : forall n xs, alen xs = n -> PassModel.showInteger n ++ [10] ++ join (map IInt xs) DEFAULT_SEPARATOR ++ [10] = numbersText xs.
Proof. intros n xs <-. rewrite file_joined. reflexivity. Qed.
Lemma arg_i64 : forall args n, argumentN args n -> is_i64 n.
Proof. intros args n (s & ps & _ & (? & ? & ? & _ & _ & _ & _ & I)). auto. Qed.

Lemma text_inj : forall n xs ys, digits n xs -> digits n ys -> numbersText xs = numbersText ys -> xs = ys.
Proof.
  intros n xs ys (L & _ & F) (L' & _ & F') E. unfold numbersText in E. rewrite L, L' in E. apply app_inv_head in E. injection E as E.
  set (c := mkCfg true true 0 S754_nan S754_nan).
  assert (R : forall zs, alen zs = n -> Forall (fun x => 0 <= x < 10) zs -> integerFile c 0 10 n 32 (joined 32 (map PassModel.showInteger zs) ++ [10]) = Ret zs []).
  { intros zs LZ FZ. apply integerFile_spec; auto; [unfold alen in LZ; lia|]. split; auto. assert (FZ' : Forall (fun x => is_i64 x /\ 0 <= x < 10) zs) by (eapply Forall_impl; [|exact FZ]; cbn; intros x X; split; auto; mach; lia).
    split; auto. exists (map PassModel.showInteger zs). split; auto. clear - FZ'. induction FZ' as [|x zs (I & _) FZ IH]; constructor; auto. apply show_decimal; auto. }
  pose proof (R xs L F) as A. pose proof (R ys L' F') as B. rewrite E in A. rewrite A in B. inversion B. auto.
Qed.
Lemma Pr_ret : forall A B (dA : forall x y : A, {x = y} + {x <> y}) (dB : forall x y : B, {x = y} + {x <> y}) (m : rnd A) (f : A -> B) (P : A -> Prop) a,
  always m (returns P) -> P a -> (forall x, P x -> f x = f a -> x = a) ->
  (Pr (let? x := m in ret (f x)) (resultIs dB (f a)) == Pr m (resultIs dA a))%Q.
Proof.
  intros A B dA dB m f P a AL PA INJ. unfold Pr. rewrite expect_bind. apply expect_ext_always. eapply always_mono; [|exact AL].
  intros [x| | |] R; cbn [returns] in R; try contradiction. cbn [expect ret resultIs]. destruct (dB (f x) (f a)) as [E|E], (dA x a) as [E'|E']; try reflexivity; [exfalso; auto|exfalso; congruence].
Qed.
Lemma numbers_cases : forall parse args,
  (exists n, ready parse args start /\ argumentN args n /\ 0 <= n <= 10 /\
     always (numbersMain parse args) (returns (fun out => exists xs, digits n xs /\ out = numbersText xs)) /\
     forall xs, digits n xs -> (Pr (numbersMain parse args) (resultIs (list_eq_dec Z.eq_dec) (numbersText xs)) == inject_Z (zfact (Z.to_nat (10 - n))) / inject_Z (zfact 10))%Q) \/
  ((forall n, ~ (ready parse args start /\ argumentN args n /\ 0 <= n <= 10)) /\ numbersMain parse args = RRet Throw).
Proof.
  intros parse args. unfold numbersMain. destruct (init_two parse args start) as [(R & p & w & E & P & _)|(N & E)]; rewrite E; cbn [lift RndModel.rbind].
  2: { right. split; auto. intros n (R & _). auto. }
  destruct (n_command args p P) as (c & -> & [(n & A & U & ->)|(U & ->)]); cbn [RndModel.rbind].
  2: { right. split; auto. intros n (_ & A & _). eapply U; eauto. }
  destruct (Z_le_dec 0 n) as [B|B].
  2: { right. rewrite distinct_bounds by (try lia; eapply arg_i64; eauto). split; auto. intros n' (_ & A' & B'). rewrite (U n' A') in B'. lia. }
  destruct (Z_le_dec n 10) as [B'|B'].
  2: { right. rewrite distinct_bounds by (try lia; eapply arg_i64; eauto). split; auto. intros n' (_ & A' & B''). rewrite (U n' A') in B''. lia. }
  left. exists n. split; auto. split; auto. split; auto.
  assert (D : always (distinct n 0 10) (returns (digits n))).
  { eapply returns_mono; [|apply distinct_always; auto; try (mach; lia); lia]. intros l (L & ND & F). split; auto. }
  split.
  - eapply returns_bind; [exact D|]. intros xs DX. apply returns_ret. exists xs. split; auto. apply numbers_text. apply DX.
  - intros xs DX. rewrite <- (numbers_text n xs) by apply DX.
    rewrite (Pr_ret _ _ (list_eq_dec Z.eq_dec) _ _ (fun xs => PassModel.showInteger n ++ [10] ++ join (map IInt xs) DEFAULT_SEPARATOR ++ [10]) (digits n)); auto.
    + destruct DX as (L & ND & F). rewrite distinct_uniform; auto; try (mach; lia); try lia. reflexivity.
    + intros ys DY Q. rewrite !numbers_text in Q by (apply DX || apply DY). eapply text_inj; eauto.
Qed.

(* ---- generator.graph.cpp ---- *)
Definition cubeList : list (Z * Z) :=
  [(0, 4); (1, 5); (2, 6); (3, 7); (0, 2); (4, 6); (1, 3); (5, 7); (0, 1); (4, 5); (2, 3); (6, 7); (8, 12); (9, 13); (10, 14); (11, 15); (8, 10); (12, 14); (9, 11); (13, 15);
    (8, 9); (12, 13); (10, 11); (14, 15); (16, 17); (17, 18); (18, 16); (16, 0); (17, 1); (18, 2); (16, 8); (17, 9); (18, 10)].
Lemma cubes_list : (let! g := cubes in Ok (arcsOf g)) = Ok cubeList.
Proof. vm_compute. reflexivity. Qed.
Lemma cubes_rep : exists g M, cubes = Ok g /\ represents false g 0 19 M /\ forall u v, isEdge M u v = true <-> adjacent blueprint u v.
Proof.
  destruct (hypercube_rep unit tt 3) as (a & M1 & E1 & R1 & _); [lia|]. destruct (cycle_rep unit tt 3) as (c & E2 & R2); [lia|].
  destruct (append_rep unit false a M1 0 _ a M1 0 _ R1 R1) as (g1 & E3 & R3). destruct (append_rep unit false g1 _ _ _ c _ _ _ R3 R2) as (g2 & E4 & R4).
  destruct (addEdges_rep unit false [(16, 0, tt); (17, 1, tt); (18, 2, tt); (16, 8, tt); (17, 9, tt); (18, 10, tt)] g2 _ _ _ R4) as (g3 & E5 & R5); [repeat constructor; cbn; lia|].
  change (2 ^ 3) with 8 in R5. change (0 + 8 + (8 - 0) + (3 - 0)) with 19 in R5. change (8 + (8 - 0) + (3 - 0)) with 19 in R5.
  assert (C : cubes = Ok g3) by (unfold cubes; rewrite E1; cbn [bind]; rewrite E3; cbn [bind]; rewrite E2; cbn [bind]; rewrite E4; cbn [bind]; exact E5).
  eexists. eexists. split; [exact C|]. split; [exact R5|]. intros u v. rewrite <- (arcs_in false g3 _ 0 19 R5).
  assert (A : arcsOf g3 = cubeList).
  { pose proof cubes_list as X. rewrite C in X. cbn [bind] in X. inversion X. reflexivity. }
  rewrite A. clear. assert (P : forall e, In e cubeList <-> In e blueprint).
  { intro e. change blueprint with [(0, 1); (2, 3); (4, 5); (6, 7); (0, 2); (1, 3); (4, 6); (5, 7); (0, 4); (1, 5); (2, 6); (3, 7); (8, 9); (10, 11); (12, 13); (14, 15); (8, 10); (9, 11); (12, 14); (13, 15); (8, 12); (9, 13); (10, 14); (11, 15);
      (16, 17); (17, 18); (18, 16); (16, 0); (17, 1); (18, 2); (16, 8); (17, 9); (18, 10)]. unfold cubeList. cbn [In]. tauto. }
  unfold adjacent. split.
  - intros (x & y & I & [(<- & <-)|(_ & <- & <-)]); apply P in I; auto.
  - intros [I|I]; apply P in I; [exists u, v|exists v, u]; split; auto; [left|right]; auto.
Qed.

Fixpoint posn (l : list Z) (x : Z) : nat := match l with [] => O | y :: l => if x =? y then O else S (posn l x) end.
Lemma posn_nth : forall l i, NoDup l -> (i < length l)%nat -> posn l (nth i l 0) = i.
Proof.
  induction l as [|y l IH]; intros i ND L; [cbn in L; lia|]. inversion ND; subst. destruct i as [|i]; cbn [nth posn]; [rewrite Z.eqb_refl; auto|]. cbn [length] in L.
  replace (nth i l 0 =? y) with false; [rewrite IH by (auto; lia); auto|]. symmetry. apply Z.eqb_neq. intros <-. apply H1. apply nth_In. lia.
Qed.
Lemma arcs_NoDup : forall E dir (g : graph E) lo hi M, represents dir g lo hi M -> NoDup (arcsOf g).
Proof.
  intros E dir g lo hi M R. apply NoDup_nth_error. intros i j L Q. destruct (Nat.eq_dec i j) as [|NE]; auto. exfalso.
  assert (X : forall i j, (i < j)%nat -> (j < length (arcsOf g))%nat -> nth_error (arcsOf g) i = nth_error (arcsOf g) j -> False).
  { intros a b AB BL EQ. destruct (nth_error (arcsOf g) b) as [e|] eqn:EB; [|apply nth_error_None in EB; lia]. apply (arcs_distinct dir g M lo hi R eq) with (f := e).
    - intros x y z t H. inversion H; subst. left. auto.
    - exists a, b, e. auto. }
  destruct (Nat.lt_trichotomy i j) as [H|[H|H]]; [|congruence|].
  - apply (X i j); auto. apply nth_error_Some. rewrite <- Q. apply nth_error_Some. auto.
  - apply (X j i); auto.
Qed.
Lemma near_dir : forall E (g : graph E) lo hi M, represents true g lo hi M -> forall u v, In (u, v) (arcsOf g) <-> isEdge M u v = true.
Proof.
  intros E g lo hi M R u v. rewrite <- (arcs_in true g M lo hi R). split.
  - intros H. exists u, v. split; auto. left. auto.
  - intros (x & y & I & [(<- & <-)|(H & _)]); auto. discriminate.
Qed.
Lemma blueprint_ok : NoDup blueprint /\ Forall (fun e => node 0 19 (fst e) /\ node 0 19 (snd e) /\ fst e <> snd e) blueprint /\
  (forall u v, In (u, v) blueprint -> ~ In (v, u) blueprint).
Proof.
  assert (B : blueprint = [(0, 1); (2, 3); (4, 5); (6, 7); (0, 2); (1, 3); (4, 6); (5, 7); (0, 4); (1, 5); (2, 6); (3, 7); (8, 9); (10, 11); (12, 13); (14, 15); (8, 10); (9, 11); (12, 14); (13, 15); (8, 12); (9, 13); (10, 14); (11, 15);
      (16, 17); (17, 18); (18, 16); (16, 0); (17, 1); (18, 2); (16, 8); (17, 9); (18, 10)]) by reflexivity. rewrite B. clear B. split; [|split].
  - repeat constructor; cbn [In]; intuition congruence.
  - repeat constructor; cbn; unfold node; lia.
  - intros u v I J. cbn [In] in I. repeat destruct I as [I|I]; try contradiction; inversion I; subst; cbn [In] in J; intuition congruence.
Qed.

Lemma count_same : forall (pi : Z -> Z) (arcs : list (Z * Z)),
  NoDup arcs -> edgesIn 1 20 arcs -> (forall u v, node 0 19 u -> node 0 19 v -> pi u = pi v -> u = v) -> (forall x, node 1 20 x -> exists u, node 0 19 u /\ pi u = x) ->
  (forall u v, node 0 19 u -> node 0 19 v -> (adjacent arcs (pi u) (pi v) <-> adjacent blueprint u v)) -> (forall a b, In (a, b) arcs -> ~ In (b, a) arcs) ->
  alen arcs = alen blueprint.
Proof.
  intros pi arcs ND EI INJ SUR ADJ AS. destruct blueprint_ok as (BN & BF & BA). rewrite Forall_forall in BF.
  assert (deq : forall x y : Z * Z, {x = y} + {x <> y}) by (decide equality; apply Z.eq_dec). set (dec := fun e : Z * Z => in_dec deq e arcs).
  set (orient := fun e : Z * Z => if dec (pi (fst e), pi (snd e)) then (pi (fst e), pi (snd e)) else (pi (snd e), pi (fst e))).
  assert (O1 : forall e, In e blueprint -> In (orient e) arcs).
  { intros [u v] I. destruct (BF _ I) as (U & V & _). cbn [fst snd] in *. unfold orient. cbn [fst snd]. destruct (dec (pi u, pi v)) as [J|J]; auto.
    destruct (proj2 (ADJ u v U V)) as [K|K]; auto; [left; auto|contradiction]. }
  assert (O2 : forall e, In e arcs -> In e (map orient blueprint)).
  { intros [a b] I. unfold edgesIn in EI. rewrite Forall_forall in EI. destruct (EI _ I) as (A & B). cbn [fst snd] in *. destruct (SUR a A) as (u & U & <-). destruct (SUR b B) as (v & V & <-).
    apply in_map_iff. destruct (proj1 (ADJ u v U V)) as [K|K]; [left; auto| |].
    - exists (u, v). split; auto. unfold orient. cbn [fst snd]. destruct (dec (pi u, pi v)); auto; contradiction.
    - exists (v, u). split; auto. unfold orient. cbn [fst snd]. destruct (dec (pi v, pi u)) as [J|J]; auto. exfalso. eapply AS; eauto. }
  assert (O3 : NoDup (map orient blueprint)).
  { assert (X : forall l, NoDup l -> incl l blueprint -> NoDup (map orient l)).
    { induction l as [|[u v] l IH]; intros N1 IN; cbn [map]; constructor; inversion N1; subst.
      - intros J. apply in_map_iff in J as ([x y] & Q & J). assert (I1 : In (u, v) blueprint) by (apply IN; left; auto). assert (I2 : In (x, y) blueprint) by (apply IN; right; auto).
        destruct (BF _ I1) as (U & V & _), (BF _ I2) as (X & Y & _). cbn [fst snd] in *.
        assert (C : (pi x = pi u /\ pi y = pi v) \/ (pi x = pi v /\ pi y = pi u)) by (unfold orient in Q; cbn [fst snd] in Q; destruct (dec (pi x, pi y)), (dec (pi u, pi v)); inversion Q; auto).
        destruct C as [(C1 & C2)|(C1 & C2)]; apply INJ in C1, C2; auto; subst; [contradiction|]. eapply BA; eauto.
      - apply IH; auto. intros e I. apply IN. right. auto. }
    apply X; auto. apply incl_refl. }
  assert (L1 : (length (map orient blueprint) <= length arcs)%nat) by (apply NoDup_incl_length; auto; intros e I; apply in_map_iff in I as (x & <- & I); auto).
  assert (L2 : (length arcs <= length (map orient blueprint))%nat) by (apply NoDup_incl_length; auto).
  rewrite map_length in *. unfold alen. lia.
Qed.
Lemma perm_onto : forall perm lo n x, Permutation (zseq lo n) perm -> lo <= x < lo + Z.of_nat n -> exists a, 0 <= a < Z.of_nat n /\ getz perm a = x.
Proof.
  intros perm lo n x P X. assert (I : In x perm) by (eapply Permutation_in; [exact P|apply in_zseq; auto]). apply (In_nth _ _ 0) in I as (i & L & Q).
  pose proof (Permutation_length P) as LN. rewrite zseq_length in LN. exists (Z.of_nat i). split; [lia|]. unfold getz. rewrite Nat2Z.id. auto.
Qed.
Lemma noData_file : forall (g : graph unit), showGraph noData g ++ [10] = graphText (nodeCount g) (arcsOf g).
Proof.
  intro g. rewrite showGraph_file. rewrite graphFile_joined.
  - reflexivity.
  - apply Forall_forall. intros d I. apply in_map_iff in I as (e & <- & _). constructor.
  - unfold alen. rewrite !map_length. auto.
Qed.
Lemma dag_cases : forall parse args,
  (ready parse args start /\ always (dagMain parse args) (returns (fun out => exists es, dagOf 1 blueprint es 19 /\ out = graphText 19 es))) \/
  (~ ready parse args start /\ dagMain parse args = RRet Throw).
Proof.
  intros parse args. unfold dagMain. destruct (init_two parse args start) as [(R & p & w & E & P & _)|(N & E)]; rewrite E; cbn [lift RndModel.rbind]; [left|right; auto]. split; auto.
  destruct cubes_rep as (g & M & -> & RG & ME). cbn [RndModel.rbind].
  eapply returns_bind; [apply (permutate_rep unit false g M 0 19 RG); mach; lia|]. intros g1 (p1 & M1 & P1 & RG1 & MM1). cbv beta.
  destruct (directed_rep unit (fun from to _ => from <? to) g1 M1 0 19 RG1) as (g2 & -> & RG2). cbn [lift RndModel.rbind].
  destruct (setMinId_rep unit true g2 _ 0 19 1 RG2) as (g3 & -> & RG3). cbn [lift RndModel.rbind]. change (1 + (19 - 0)) with 20 in RG3.
  eapply returns_bind; [apply (permutate_rep unit true g3 _ 1 20 RG3); mach; lia|]. intros g4 (p2 & M4 & P2 & RG4 & MM4). cbv beta in MM4. apply returns_ret.
  rewrite noData_file. rewrite (rep_nodes true g4 M4 1 20 RG4). change (20 - 1) with 19. exists (arcsOf g4). split; auto.
  change (Z.to_nat (19 - 0)) with 19%nat in P1. change (Z.to_nat (20 - 1)) with 19%nat in P2.
  destruct (perm_array p1 0 19 P1) as (B1 & J1). destruct (perm_array p2 1 19 P2) as (B2 & J2). change (Z.of_nat 19) with 19 in *.
  set (q1 := fun u => getz p1 u). set (q2 := fun a => getz p2 a).
  assert (Q1 : forall u, node 0 19 u -> node 0 19 (q1 u)) by (intros u U; unfold node in *; destruct (B1 u) as (_ & X); [lia|]; rewrite Z.sub_0_r in X; unfold q1; lia).
  assert (I1 : forall u v, node 0 19 u -> node 0 19 v -> q1 u = q1 v -> u = v) by (intros u v U V X; unfold node in *; apply J1; try lia; rewrite !Z.sub_0_r; auto).
  assert (Q2 : forall u, node 0 19 u -> node 1 20 (q2 u)) by (intros u U; unfold node in *; destruct (B2 (u + 1)) as (_ & X); [lia|]; replace (u + 1 - 1) with u in X by lia; unfold q2; lia).
  assert (I2 : forall u v, node 0 19 u -> node 0 19 v -> q2 u = q2 v -> u = v).
  { intros u v U V X; unfold node in *. assert (u + 1 = v + 1); [|lia]. apply J2; try lia. replace (u + 1 - 1) with u by lia. replace (v + 1 - 1) with v by lia. auto. }
  assert (S1 : forall x, node 0 19 x -> exists u, node 0 19 u /\ q1 u = x) by (intros x X; unfold node in *; destruct (perm_onto p1 0 19 x P1) as (a & A & Q); [lia|]; exists a; split; auto; lia).
  assert (S2 : forall x, node 1 20 x -> exists u, node 0 19 u /\ q2 u = x) by (intros x X; unfold node in *; destruct (perm_onto p2 1 19 x P2) as (a & A & Q); [lia|]; exists a; split; auto; lia).
  assert (ARC : forall a b, node 0 19 a -> node 0 19 b -> (In (q2 a, q2 b) (arcsOf g4) <-> isEdge M1 a b = true /\ a < b)).
  { intros a b A B. rewrite (near_dir _ _ _ _ _ RG4). unfold isEdge. unfold q2. unfold node in *.
    replace a with (a + 1 - 1) at 1 by lia. replace b with (b + 1 - 1) at 1 by lia. rewrite MM4 by lia. replace (a + 1 - 1 + 0) with a by lia. replace (b + 1 - 1 + 0) with b by lia.
    destruct (M1 a b); [|intuition discriminate]. destruct (Z.ltb_spec a b); intuition (try discriminate; try lia). }
  assert (SYM : forall a b, isEdge M1 a b = isEdge M1 b a) by (intros a b; unfold isEdge; destruct RG1 as (_ & _ & X & _); rewrite X; auto).
  assert (IRR : forall a b, isEdge M1 a b = true -> a <> b) by (intros a b X; destruct RG1 as (_ & _ & _ & _ & Y & _); apply Y in X; tauto).
  assert (BP : forall u v, node 0 19 u -> node 0 19 v -> (isEdge M1 (q1 u) (q1 v) = true <-> adjacent blueprint u v)).
  { intros u v U V. rewrite <- ME. unfold isEdge, q1. unfold node in *. specialize (MM1 u v). rewrite !Z.sub_0_r in MM1. rewrite MM1 by lia. reflexivity. }
  assert (ADJ : forall u v, node 0 19 u -> node 0 19 v -> (adjacent (arcsOf g4) (q2 (q1 u)) (q2 (q1 v)) <-> adjacent blueprint u v)).
  { intros u v U V. unfold adjacent at 1. rewrite !ARC by auto. rewrite <- BP by auto. rewrite (SYM (q1 v) (q1 u)). split; [tauto|]. intros X. pose proof (IRR _ _ X). destruct (Z.lt_trichotomy (q1 u) (q1 v)) as [H0|[H0|H0]]; tauto. }
  assert (RK : forall x y, In (x, y) (arcsOf g4) -> exists a b, node 0 19 a /\ node 0 19 b /\ x = q2 a /\ y = q2 b /\ a < b).
  { intros x y I. pose proof (arcs_range true g4 M4 1 20 RG4) as F. unfold edgesIn in F. rewrite Forall_forall in F. destruct (F _ I) as (X & Y). cbn [fst snd] in *.
    destruct (S2 x X) as (a & A & <-). destruct (S2 y Y) as (b & B & <-). apply ARC in I; auto. exists a, b. tauto. }
  split; [|split; [|split]].
  - apply (count_same (fun u => q2 (q1 u))); auto.
    + apply (arcs_NoDup _ _ _ _ _ _ RG4).
    + apply (arcs_range true g4 M4 1 20 RG4).
    + intros x X. destruct (S2 x X) as (a & A & <-). destruct (S1 a A) as (u & U & <-). eauto.
    + intros x y I J. apply RK in I as (a & b & A & B & -> & -> & L). apply ARC in J; auto. lia.
  - apply (arcs_range true g4 M4 1 20 RG4).
  - exists (fun u => q2 (q1 u)). split; [|split]; auto.
  - exists (fun x => Z.of_nat (posn p2 x)). intros x y I. apply RK in I as (a & b & A & B & -> & -> & L). unfold node in *. pose proof (Permutation_length P2) as LN. rewrite zseq_length in LN.
    unfold q2, getz. rewrite !posn_nth; try lia; (eapply Permutation_NoDup; [exact P2|apply zseq_NoDup]).
Qed.
