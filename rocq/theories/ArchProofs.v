(* The programs of the archive. *)
From Coq Require Import String Permutation.
From Verif Require Import Base Tac RndModel RndLemmas RandSpec FloatModel InputSpec ArgsModel ArgsSpec ArgsClient ArgsProofs InitModel InitSpec InitProofs OutModel OutProofs PipeModel GeoSpec HackModel HackProofs HackProofs4
  HullModel HullSpec HullProofs4 PolyModel PolySpec PolyProofs3 PolyProofs4 GenExSpec GenExProofs ArchModel ArchSpec.
From Verif Require PassModel.
Open Scope Z_scope.

Lemma option_cases : forall args p name d, commandParser args = Ok p -> token name -> isCmd name -> exists c, getCommand p name = Ok c /\
  ((exists n, optionIs args name d n /\ (forall n', optionIs args name d n' -> n' = n) /\ asIntegerOr (ctoken c) d = Ok n) \/
   ((forall n, ~ optionIs args name d n) /\ asIntegerOr (ctoken c) d = Throw)).
Proof.
  intros args p name d P T C.
  destruct (str_in_dec name args) as [I|I].
  - destruct (group_exists args _ I C) as (ps & G). destruct (getCommand_found args p _ ps P T G) as (c & GC & F & SH). exists c. split; auto.
    assert (U : forall ps', groupOf args name ps' -> ps' = ps).
    { intros ps' G'. destruct (getCommand_found args p _ ps' P T G') as (c' & GC' & F' & (_ & _ & _ & A' & _)). rewrite GC in GC'. injection GC' as <-. destruct SH as (_ & _ & _ & A & _). rewrite A in A'. congruence. }
    assert (IFF : forall v, optionIs args name d v <-> asIntegerOr (ctoken c) d = Ok v).
    { intro v. rewrite (asIntegerOr_iff c ps d v SH). split.
      - intros [(s & ps' & G' & IA)|([G'|N] & E)]; [apply U in G'; subst ps; auto|apply U in G'; subst ps; auto|tauto].
      - destruct ps as [|s ps]; intro H; [right|left]; eauto 10. }
    destruct (asIntegerOr (ctoken c) d) as [n| | |] eqn:E.
    + left. exists n. split; [apply IFF; auto|]. split; auto. intros n' H. apply IFF in H. congruence.
    + right. split; auto. intros n H. apply IFF in H. discriminate.
    + exfalso. clear - E. unfold asIntegerOr, asInteger, asString, parseArg in E. destruct (ctoken c) as [l|]; [|discriminate]. cbn [bind] in E. destruct (_ l) in E; discriminate.
    + exfalso. clear - E. unfold asIntegerOr, asInteger, asString, parseArg in E. destruct (ctoken c) as [l|]; [|discriminate]. cbn [bind] in E. destruct (_ l) in E; discriminate.
  - destruct (getCommand_absent args p _ P T) as (c & GC & F & (_ & _ & S & _)); [tauto|]. exists c. split; auto. left. exists d. split; [right; auto|]. split.
    + intros n' [(s & ps & (pre & post & -> & _) & _)|(_ & E)]; auto. exfalso. apply I. apply in_or_app. right. left. reflexivity.
    + rewrite S. reflexivity.
Qed.
Lemma option_i64 : forall args name d n, is_i64 d -> optionIs args name d n -> is_i64 n.
Proof. intros args name d n D [(s & ps & _ & (? & ? & ? & _ & _ & _ & _ & I))|(_ & ->)]; auto. Qed.
Lemma tok : forall s, token (chars "--n") /\ isCmd (chars "--n") /\ token (chars "--min") /\ isCmd (chars "--min") /\ token (chars "--dim") /\ isCmd (chars "--dim") /\ s = s :> unit.
Proof. intro s. repeat split; try discriminate; try (apply token_literal; [reflexivity|discriminate]); eexists _, _; reflexivity. Qed.

(* the front part is the same for all of them *)
Lemma front : forall parse args other d A (k : Z -> Z -> rnd A), token other -> isCmd other ->
  let m := let? (p, _) := lift (init parse args start) in
    let? c := lift (getCommand p (chars "--n")) in
    let? n := lift (asIntegerOr (ctoken c) 100000) in
    let? c := lift (getCommand p other) in
    let? x := lift (asIntegerOr (ctoken c) d) in k n x in
  (exists n x, ready parse args start /\ optionIs args (chars "--n") 100000 n /\ optionIs args other d x /\
     (forall n', optionIs args (chars "--n") 100000 n' -> n' = n) /\ (forall x', optionIs args other d x' -> x' = x) /\ m = k n x) \/
  ((forall n x, ~ (ready parse args start /\ optionIs args (chars "--n") 100000 n /\ optionIs args other d x)) /\ m = RRet Throw).
Proof.
  intros parse args other d A k T C m. subst m. destruct (init_two parse args start) as [(R & p & w & E & P & _)|(N & E)]; rewrite E; cbn [lift RndModel.rbind].
  2: { right. split; auto. intros n x (R & _). auto. }
  destruct (tok tt) as (TN & CN & _).
  destruct (option_cases args p _ 100000 P TN CN) as (c & -> & [(n & O & U & ->)|(U & ->)]); cbn [lift RndModel.rbind].
  2: { right. split; auto. intros n x (_ & O & _). eapply U; eauto. }
  destruct (option_cases args p _ d P T C) as (c' & -> & [(x & O' & U' & ->)|(U' & ->)]); cbn [lift RndModel.rbind].
  2: { right. split; auto. intros n' x (_ & _ & O'). eapply U'; eauto. }
  left. exists n, x. auto 10.
Qed.
Lemma front_ok : forall parse args other d A (k : Z -> Z -> rnd A) n x, token other -> isCmd other ->
  ready parse args start -> optionIs args (chars "--n") 100000 n -> optionIs args other d x ->
  (let? (p, _) := lift (init parse args start) in
    let? c := lift (getCommand p (chars "--n")) in
    let? n := lift (asIntegerOr (ctoken c) 100000) in
    let? c := lift (getCommand p other) in
    let? x := lift (asIntegerOr (ctoken c) d) in k n x) = k n x.
Proof.
  intros parse args other d A k n x T C R O O'. destruct (front parse args other d A k T C) as [(n' & x' & _ & _ & _ & U & U' & E)|(N & _)].
  - rewrite (U n O), (U' x O'). exact E.
  - exfalso. eapply N; eauto.
Qed.
Lemma front_throws : forall parse args other d A (k : Z -> Z -> rnd A), token other -> isCmd other ->
  (forall n x, ~ (ready parse args start /\ optionIs args (chars "--n") 100000 n /\ optionIs args other d x)) ->
  (let? (p, _) := lift (init parse args start) in
    let? c := lift (getCommand p (chars "--n")) in
    let? n := lift (asIntegerOr (ctoken c) 100000) in
    let? c := lift (getCommand p other) in
    let? x := lift (asIntegerOr (ctoken c) d) in k n x) = RRet Throw.
Proof.
  intros parse args other d A k T C N. destruct (front parse args other d A k T C) as [(n' & x' & R & O & O' & _)|(_ & E)]; auto. exfalso. eapply N; eauto.
Qed.

Lemma values_length : forall n mi l, 0 <= n -> NoDup l -> (forall x, In x l <-> mi <= x <= mi + n /\ x <> mi + n - 2 * Z.max 0 ((n - 43) / 4)) -> alen l = n.
Proof.
  intros n mi l N ND H. set (v := mi + n - 2 * Z.max 0 ((n - 43) / 4)) in *.
  assert (V : mi <= v <= mi + n) by (subst v; lia).
  assert (P : Permutation (v :: l) (zseq mi (S (Z.to_nat n)))).
  { apply NoDup_Permutation; [constructor; auto; rewrite H; tauto|apply zs_nodup|]. intro x. rewrite zs_in. cbn [In]. rewrite H. clearbody v. lia. }
  apply Permutation_length in P. rewrite zs_len in P. cbn [length] in P. unfold alen. lia.
Qed.
Lemma hack_main : forall parse fuel args n mi, ready parse args start -> optionIs args (text "--n") 100000 n -> optionIs args (text "--min") 1 mi ->
  0 <= n < Z.of_nat fuel -> is_i64 (mi + n) -> ~ (mi <= -1 <= mi + n) ->
  always (hackMain parse fuel args) (returns (fun out => exists l, out = numbersText l /\ alen l = n /\ NoDup l /\
    forall x, In x l <-> mi <= x <= mi + n /\ x <> mi + n - 2 * Z.max 0 ((n - 43) / 4))).
Proof.
  intros parse fuel args n mi R O O' N I M. destruct (tok tt) as (_ & _ & T & C & _). unfold hackMain.
  rewrite (front_ok parse args (chars "--min") 1 _ (fun n mi => let? data := HackedSort fuel n mi in ret (PassModel.showInteger n ++ [10] ++ join (map IInt data) DEFAULT_SEPARATOR ++ [10])) n mi T C R O O').
  eapply returns_bind; [apply hack_values; auto; eapply option_i64; [|exact O']; mach; lia|].
  cbn beta. intros l (ND & H). apply returns_ret. assert (L : alen l = n) by (eapply values_length; eauto; lia). exists l. split; [apply numbers_text; auto|auto].
Qed.
Lemma hack_main_small : forall parse fuel args n mi, ready parse args start -> optionIs args (text "--n") 100000 n -> optionIs args (text "--min") 1 mi ->
  0 <= n < 47 -> is_i64 (mi + n) ->
  always (hackMain parse (S fuel) args) (returns (fun out => exists l, out = numbersText l /\ Permutation (zseq mi (Z.to_nat n)) l)).
Proof.
  intros parse fuel args n mi R O O' N I. destruct (tok tt) as (_ & _ & T & C & _). unfold hackMain.
  rewrite (front_ok parse args (chars "--min") 1 _ (fun n mi => let? data := HackedSort (S fuel) n mi in ret (PassModel.showInteger n ++ [10] ++ join (map IInt data) DEFAULT_SEPARATOR ++ [10])) n mi T C R O O').
  eapply returns_bind; [apply below_perm; auto; eapply option_i64; [|exact O']; mach; lia|].
  cbn beta. intros l P. apply returns_ret. exists l. split; auto. apply numbers_text. apply Permutation_length in P. rewrite zs_len in P. unfold alen. lia.
Qed.
Lemma hack_main_throws : forall parse fuel args,
  (forall n mi, ~ (ready parse args start /\ optionIs args (text "--n") 100000 n /\ optionIs args (text "--min") 1 mi)) -> hackMain parse fuel args = RRet Throw.
Proof.
  intros parse fuel args N. destruct (tok tt) as (_ & _ & T & C & _). unfold hackMain.
  apply (front_throws parse args (chars "--min") 1 _ (fun n mi => let? data := HackedSort fuel n mi in ret (PassModel.showInteger n ++ [10] ++ join (map IInt data) DEFAULT_SEPARATOR ++ [10])) T C N).
Qed.
Lemma points_text : forall l, PassModel.showInteger (alen l) ++ [10] ++ join (map (fun q => IPair (IInt (fst q)) (IInt (snd q))) l) 10 ++ [10] = pointsText l.
Proof. intro l. rewrite join_joined by discriminate. rewrite map_map. reflexivity. Qed.
Lemma points_main : forall parse sample args n dim (Q : outcome (list Z) -> Prop), ready parse args start -> optionIs args (text "--n") 100000 n -> optionIs args (text "--dim") 1000000000 dim ->
  always (sample n dim) (fun o => match o with Ok l => Q (Ok (pointsText l)) | Throw => Q Throw | UB => Q UB | Fuel => Q Fuel end) -> always (pointsMain parse sample args) Q.
Proof.
  intros parse sample args n dim Q R O O' H. destruct (tok tt) as (_ & _ & _ & _ & T & C & _). unfold pointsMain.
  rewrite (front_ok parse args (chars "--dim") 1000000000 _ (fun n dim => let? points := sample n dim in
    ret (PassModel.showInteger (alen points) ++ [10] ++ join (map (fun q => IPair (IInt (fst q)) (IInt (snd q))) points) 10 ++ [10])) n dim T C R O O').
  apply always_bind. eapply always_mono; [|exact H]. intros [l| | |] X; auto. rewrite points_text. exact X.
Qed.
Lemma points_main_throws : forall parse sample args,
  (forall n dim, ~ (ready parse args start /\ optionIs args (text "--n") 100000 n /\ optionIs args (text "--dim") 1000000000 dim)) -> pointsMain parse sample args = RRet Throw.
Proof.
  intros parse sample args N. destruct (tok tt) as (_ & _ & _ & _ & T & C & _). unfold pointsMain.
  apply (front_throws parse args (chars "--dim") 1000000000 _ (fun n dim => let? points := sample n dim in
    ret (PassModel.showInteger (alen points) ++ [10] ++ join (map (fun q => IPair (IInt (fst q)) (IInt (snd q))) points) 10 ++ [10])) T C N).
Qed.
Lemma polygon_main : forall parse srt prt fits, sortsBy srt -> splits prt -> forall fuel args n dim,
  ready parse args start -> optionIs args (text "--n") 100000 n -> optionIs args (text "--dim") 1000000000 dim ->
  0 < dim -> dim <= 0x3FFFFFFF -> fits n dim = true -> 3 <= n ->
  always (polygonMain parse srt prt fits fuel args) (okOrEndless (fun out => exists l, out = pointsText l /\ alen l = n /\ Forall (fun p => Z.abs (fst p) < dim /\ Z.abs (snd p) < dim) l)).
Proof.
  intros parse srt prt fits S P fuel args n dim R O O' D D' F N. eapply (points_main _ _ _ n dim); eauto.
  eapply always_mono; [|apply polygon_ok; eauto]. intros [l| | |] X; cbn in *; auto. exists l. auto.
Qed.
Lemma polygon_main_throws : forall parse srt prt fits fuel args,
  (forall n dim, ~ (ready parse args start /\ optionIs args (text "--n") 100000 n /\ optionIs args (text "--dim") 1000000000 dim /\
    0 < dim /\ dim <= 0x3FFFFFFF /\ fits n dim = true /\ 3 <= n)) ->
  always (polygonMain parse srt prt fits fuel args) (fun o => o = Throw).
Proof.
  intros parse srt prt fits fuel args N. unfold polygonMain. destruct (tok tt) as (_ & _ & _ & _ & T & C & _).
  destruct (front parse args (chars "--dim") 1000000000 _ (fun n dim => ret tt) T C) as [(n & dim & R & O & O' & _)|(NN & _)].
  - eapply (points_main _ _ _ n dim); eauto. rewrite polygon_throws; [reflexivity|]. specialize (N n dim).
    destruct (Z_lt_dec 0x3FFFFFFF dim); auto. destruct (Z_le_dec dim 0); auto. destruct (fits n dim); auto. destruct (Z_lt_dec n 3); auto. exfalso. apply N. split; [exact R|]. split; [exact O|]. split; [exact O'|]. split; [lia|]. split; [lia|]. split; [auto|lia].
  - rewrite points_main_throws; [reflexivity|auto].
Qed.
Lemma convex_main : forall parse sqrt sin cos llround rounds fuel fuel' args n dim,
  ready parse args start -> optionIs args (text "--n") 100000 n -> optionIs args (text "--dim") 1000000000 dim -> 0 < dim -> 0 < n ->
  always (convexMain parse sqrt sin cos llround rounds fuel fuel' args) (fun o => forall out, o = Ok out -> exists h, out = pointsText h /\
    Forall (inDisk dim) h /\ (~ onOneLine h -> alen h = n + 1 /\ NoDup (removelast h) /\ isHull h h)).
Proof.
  intros parse sqrt sin cos llround rounds fuel fuel' args n dim R O O' D N. eapply (points_main _ _ _ n dim); eauto.
  eapply always_mono; [|apply (disk_correct sqrt sin cos llround rounds fuel fuel' n dim D N); eapply option_i64; [|exact O]; mach; lia].
  intros [h| | |] X; try discriminate. intros out E. injection E as <-. exists h. split; auto.
Qed.
Lemma convex_main_throws : forall parse sqrt sin cos llround rounds fuel fuel' args,
  (forall n dim, ~ (ready parse args start /\ optionIs args (text "--n") 100000 n /\ optionIs args (text "--dim") 1000000000 dim)) ->
  convexMain parse sqrt sin cos llround rounds fuel fuel' args = RRet Throw.
Proof. intros. apply points_main_throws. auto. Qed.
Lemma hack_main_negative : forall parse fuel args n mi, ready parse args start -> optionIs args (text "--n") 100000 n -> optionIs args (text "--min") 1 mi -> n < 0 ->
  always (hackMain parse fuel args) (fun o => o = Throw).
Proof.
  intros parse fuel args n mi R O O' N. destruct (tok tt) as (_ & _ & T & C & _). unfold hackMain.
  rewrite (front_ok parse args (chars "--min") 1 _ (fun n mi => let? data := HackedSort fuel n mi in ret (PassModel.showInteger n ++ [10] ++ join (map IInt data) DEFAULT_SEPARATOR ++ [10])) n mi T C R O O').
  apply always_bind. eapply always_mono; [|apply hack_throws; exact N]. intros o ->. reflexivity.
Qed.
Lemma convex_main_refuses : forall parse sqrt sin cos llround rounds fuel fuel' args n dim,
  ready parse args start -> optionIs args (text "--n") 100000 n -> optionIs args (text "--dim") 1000000000 dim ->
  is_i64 (n * n) -> 0x3FFFFFFF < dim \/ dim < n * n / 1000 ->
  always (convexMain parse sqrt sin cos llround rounds fuel fuel' args) (fun o => o = Throw).
Proof.
  intros parse sqrt sin cos llround rounds fuel fuel' args n dim R O O' I D. eapply (points_main _ _ _ n dim); eauto.
  rewrite disk_throws by auto. reflexivity.
Qed.
