(* The settings and the init functions against InitSpec. *)
From Coq Require Import String.
From Verif Require Import Base Tac SeqModel FloatModel InputModel InputSpec ArgsModel ArgsSpec ArgsClient ArgsProofs InitModel InitSpec.
Open Scope Z_scope.

Lemma afterFirst_unique : forall args t a b, afterFirst args t a -> afterFirst args t b -> a = b.
Proof.
  intros args t a b (p & H & N) (q & H' & N'). subst args. revert q N' H'. induction p as [|x p IH]; intros [|y q] N' H'; cbn in H'.
  - injection H'. auto.
  - injection H' as -> _. exfalso. apply N'. left. reflexivity.
  - injection H' as -> _. exfalso. apply N. left. reflexivity.
  - injection H' as -> H'. apply (IH (fun I => N (or_intror I)) q (fun I => N' (or_intror I)) H').
Qed.
Lemma str_in_dec : forall (t : str) l, In t l \/ ~ In t l.
Proof. intros. destruct (in_dec (list_eq_dec Z.eq_dec) t l); auto. Qed.
Lemma flag_cases : forall args name, (exists s, flagged args name s) \/ unflagged args name.
Proof.
  intros args name. destruct (str_in_dec name args) as [I|I]; [|right; left; auto]. destruct (afterFirst_exists args name I) as ([|s ps] & A); [right; right; auto|left; exists s, ps; auto].
Qed.
Lemma flag_unique : forall args name s t, flagged args name s -> flagged args name t -> s = t.
Proof. intros args name s t (a & A) (b & B). pose proof (afterFirst_unique _ _ _ _ A B). congruence. Qed.
Lemma afterFirst_in : forall args t ps, afterFirst args t ps -> In t args.
Proof. intros args t ps (pre & -> & _). apply in_or_app. right. left. reflexivity. Qed.
Lemma flag_not_unflagged : forall args name s, flagged args name s -> ~ unflagged args name.
Proof. intros args name s (ps & A) [N|B]; [apply N; eapply afterFirst_in; eauto|]. pose proof (afterFirst_unique _ _ _ _ A B). discriminate. Qed.

Lemma raw_flag : forall args p name, commandParser args = Ok p -> token name -> exists c, getRaw p name = Ok c /\
  (cfound c = true <-> In name args) /\ (forall s, flagged args name s -> ctoken c = Some s) /\ (unflagged args name -> ctoken c = None).
Proof.
  intros args p name P T. destruct (str_in_dec name args) as [I|I].
  - destruct (afterFirst_exists args name I) as (ps & A). destruct (getRaw_found args p name ps P T A) as (c & G & F & (_ & _ & S & _)). exists c. split; auto. split; [tauto|]. split.
    + intros s (ps' & B). rewrite (afterFirst_unique _ _ _ _ A B) in S. auto.
    + intros [N|B]; [tauto|]. rewrite (afterFirst_unique _ _ _ _ A B) in S. auto.
  - destruct (getRaw_absent args p name P T I) as (c & G & F & (_ & _ & S & _)). exists c. split; auto. split; [rewrite F; split; [discriminate|tauto]|]. split; auto. intros s (ps & B). exfalso. apply I. eapply afterFirst_in; eauto.
Qed.

Ltac tok := split; [discriminate|]; vm_compute; repeat constructor; intros [X|X]; try discriminate; repeat destruct X as [X|X]; discriminate.
Lemma token_literal : forall s, forallb (fun c => negb ((c =? 32) || ((9 <=? c) && (c <=? 13)))) s = true -> s <> [] -> token s.
Proof.
  intros s H N. split; auto. rewrite forallb_forall in H. apply Forall_forall. intros c I W. specialize (H c I). unfold whitespace in W. lia.
Qed.

Section Init.
  Variable parse : list Z -> option real.
  Notation init := (init parse).

  Definition readTol (name : str) (args : list str) (d : real) (o : outcome real) : Prop :=
    (forall s, flagged args name s -> o = match parse s with Some v => Ok v | None => Throw end) /\ (unflagged args name -> o = Ok d).
  Lemma asReal_flag : forall args p name (d : real), commandParser args = Ok p -> token name -> exists c, getRaw p name = Ok c /\ (cfound c = true <-> In name args) /\ forall d, readTol name args d (asRealOr parse (ctoken c) d).
  Proof.
    intros args p name d P T. destruct (raw_flag args p name P T) as (c & G & F & S & U). exists c. split; auto. split; auto. intro d'. split.
    - intros s H. rewrite (S s H). reflexivity.
    - intro H. rewrite (U H). reflexivity.
  Qed.
  (* one tolerance as a function of the command line *)
  Lemma tolerance_total : forall args name d, (exists v, (exists s, flagged args name s /\ parse s = Some v) \/ (unflagged args name /\ v = d)) \/ exists s, flagged args name s /\ parse s = None.
  Proof.
    intros args name d. destruct (flag_cases args name) as [(s & H)|H]; [|left; exists d; auto]. destruct (parse s) as [v|] eqn:E; [left; exists v; left; eauto|right; eauto].
  Qed.

  Lemma seed_cases : forall args p, commandParser args = Ok p -> exists c, getCommand p SEED_COMMAND = Ok c /\
    ((cfound c = false /\ (forall ps, ~ groupOf args (text "--seed") ps)) \/
     (cfound c = true /\ exists ps, groupOf args (text "--seed") ps /\ (forall ps', groupOf args (text "--seed") ps' -> ps' = ps) /\ ctoken c = hd_error ps)).
  Proof.
    intros args p P. change (text "--seed") with SEED_COMMAND. assert (T : token SEED_COMMAND) by (apply token_literal; [reflexivity|discriminate]). assert (C : isCmd SEED_COMMAND) by (exists 115, [101;101;100]; reflexivity).
    destruct (str_in_dec SEED_COMMAND args) as [I|I].
    - destruct (group_exists args _ I C) as (ps & G). destruct (getCommand_found args p _ ps P T G) as (c & GC & F & (_ & _ & S & A & _)). exists c. split; auto. right. split; auto. exists ps. split; auto. split; auto.
      intros ps' G'. destruct (getCommand_found args p _ ps' P T G') as (c' & GC' & F' & (_ & _ & S' & A' & _)). rewrite GC in GC'. injection GC' as <-. rewrite A in A'. congruence.
    - destruct (getCommand_absent args p _ P T) as (c & GC & F & _); [tauto|]. exists c. split; auto. left. split; auto. intros ps (pre & post & -> & _). apply I. apply in_or_app. right. left. reflexivity.
  Qed.
  Lemma asInteger_iff : forall s v, asInteger (Some s) = Ok v <-> integerArg s v.
  Proof. intros. apply parseArg_iff. Qed.

  Lemma In_bool : forall (b : bool) P, (b = true <-> P) -> forall w, (if b then true else w) = true <-> w = true \/ P.
  Proof. intros [] P H w; tauto || (rewrite <- H; split; auto; intros [?|?]; auto; discriminate). Qed.

  Lemma init_Ok : forall args w, wInit w = false -> ~ dupCommand args -> seedOk args -> tolerancesOk parse args ->
    exists p w', init args w = Ok (p, w') /\ commandParser args = Ok p /\
      toleranceOf parse args (text "float_absolute_tolerance") (wAbs w) (wAbs w') /\
      toleranceOf parse args (text "float_relative_tolerance") (wRel w) (wRel w') /\
      (wSpace w' = true <-> wSpace w = true \/ In (text "space_change_sensitive") args) /\
      (wCase w' = true <-> wCase w = true \/ In (text "case_sensitive") args) /\
      wInit w' = true /\ seedOf args (wSeed w) (wSeed w').
  Proof.
    intros args w WI D SO TO. destruct (parser_total args) as [(X & _)|(_ & p & P)]; [tauto|].
    unfold InitModel.init. rewrite WI, P. cbn [negb judgeAssert bind].
    destruct (seed_cases args p P) as (c0 & -> & SC). cbn [bind].
    set (w1 := if cfound c0 then _ else _). assert (W1 : exists w1', w1 = Ok w1' /\ wAbs w1' = wAbs w /\ wRel w1' = wRel w /\ wSpace w1' = wSpace w /\ wCase w1' = wCase w /\ wInit w1' = wInit w /\ seedOf args (wSeed w) (wSeed w1')).
    { unfold w1. destruct SC as [(F & N)|(F & ps & G & U & C)]; rewrite F.
      - exists w. repeat split; auto. right. auto.
      - destruct (SO ps G) as (s & ps' & v & -> & I). rewrite C. cbn [hd_error]. rewrite (proj2 (asInteger_iff s v) I). cbn [bind]. eexists. split; [reflexivity|]. cbn. repeat split; auto. left. exists s, ps', v. auto. }
    destruct W1 as (w1' & -> & A1 & R1 & S1 & C1 & I1 & SD). cbn [bind].
    assert (TT : forall n s, In n [text "float_tolerance"; text "float_absolute_tolerance"; text "float_relative_tolerance"] -> flagged args n s -> exists v, parse s = Some v) by exact TO.
    destruct (asReal_flag args p FLOAT_TOLERANCE (wAbs w) P) as (c1 & -> & _ & T1); [apply token_literal; [reflexivity|discriminate]|].
    destruct (asReal_flag args p FLOAT_ABSOLUTE_TOLERANCE (wAbs w) P) as (c2 & G2 & _ & T2); [apply token_literal; [reflexivity|discriminate]|].
    destruct (asReal_flag args p FLOAT_RELATIVE_TOLERANCE (wAbs w) P) as (c3 & G3 & _ & T3); [apply token_literal; [reflexivity|discriminate]|].
    destruct (asReal_flag args p SPACE_SENSITIVE (wAbs w) P) as (c4 & G4 & F4 & _); [apply token_literal; [reflexivity|discriminate]|].
    destruct (asReal_flag args p CASE_SENSITIVE (wAbs w) P) as (c5 & G5 & F5 & _); [apply token_literal; [reflexivity|discriminate]|].
    cbn [bind]. unfold setAbs, setRel, setSpace, setCase, assign.
    assert (STEP : forall n c, In n [text "float_tolerance"; text "float_absolute_tolerance"; text "float_relative_tolerance"] -> (forall d, readTol n args d (asRealOr parse (ctoken c) d)) -> forall d, exists v, asRealOr parse (ctoken c) d = Ok v /\ ((exists s, flagged args n s /\ parse s = Some v) \/ (unflagged args n /\ v = d))).
    { intros n c I R d. destruct (R d) as (RF & RU). destruct (flag_cases args n) as [(s & H)|H].
      - destruct (TT n s I H) as (v & V). exists v. rewrite (RF s H), V. split; auto. left. eauto.
      - exists d. rewrite (RU H). auto. }
    destruct (STEP _ c1 ltac:(left; reflexivity) T1 (wAbs w1')) as (va & -> & VA). rewrite I1, WI. cbn [bind negb judgeAssert wAbs wRel wSpace wCase wInit wSeed].
    destruct (STEP _ c1 ltac:(left; reflexivity) T1 (wRel w1')) as (vr & -> & VR). cbn [bind negb judgeAssert wAbs wRel wSpace wCase wInit wSeed].
    rewrite G2. cbn [bind]. destruct (STEP _ c2 ltac:(right; left; reflexivity) T2 va) as (va' & -> & VA'). cbn [bind negb judgeAssert wAbs wRel wSpace wCase wInit wSeed].
    rewrite G3. cbn [bind]. destruct (STEP _ c3 ltac:(right; right; left; reflexivity) T3 vr) as (vr' & -> & VR'). cbn [bind negb judgeAssert wAbs wRel wSpace wCase wInit wSeed].
    rewrite G4. cbn [bind].
    assert (TOL : forall n d v v', (exists s, flagged args (text "float_tolerance") s /\ parse s = Some v) \/ (unflagged args (text "float_tolerance") /\ v = d) ->
      (exists s, flagged args n s /\ parse s = Some v') \/ (unflagged args n /\ v' = v) -> toleranceOf parse args n d v').
    { intros n d v v' X [Y|(Y & ->)]; [left; auto|]. destruct X as [X|(X & ->)]; [right; left|right; right]; auto. }
    destruct (cfound c4) eqn:E4, (cfound c5) eqn:E5; cbn [bind negb judgeAssert wAbs wRel wSpace wCase wInit wSeed]; rewrite G5; cbn [bind]; rewrite E5; cbn [bind negb judgeAssert wAbs wRel wSpace wCase wInit wSeed];
      (eexists; eexists; split; [reflexivity|]; split; [reflexivity|]; cbn [setInit wAbs wRel wSpace wCase wInit wSeed];
       split; [eapply TOL; [|exact VA']; rewrite <- A1; exact VA|]; split; [eapply TOL; [|exact VR']; rewrite <- R1; exact VR|];
       split; [|split; [|split; [reflexivity|auto]]]; rewrite ?S1, ?C1; change (text "space_change_sensitive") with SPACE_SENSITIVE; change (text "case_sensitive") with CASE_SENSITIVE; rewrite <- ?F4, <- ?F5; (split; [tauto|intros [?|?]; auto; discriminate])).
  Qed.
  Lemma seedOk_dec : forall args p, commandParser args = Ok p -> seedOk args \/ (exists c, getCommand p SEED_COMMAND = Ok c /\ cfound c = true /\ asInteger (ctoken c) = Throw).
  Proof.
    intros args p P. destruct (seed_cases args p P) as (c & G & [(F & N)|(F & ps & GR & U & C)]).
    - left. intros ps GP. exfalso. eapply N; eauto.
    - destruct ps as [|s ps].
      + right. exists c. split; auto. split; auto. rewrite C. reflexivity.
      + destruct (asInteger (Some s)) as [v| | |] eqn:E.
        * left. intros ps' GP. rewrite (U _ GP). exists s, ps, v. split; auto. apply asInteger_iff. auto.
        * right. exists c. split; auto. split; auto. rewrite C. auto.
        * exfalso. cbn in E. unfold parseArg in E. destruct (parseInteger s); discriminate.
        * exfalso. cbn in E. unfold parseArg in E. destruct (parseInteger s); discriminate.
  Qed.
  Lemma init_Throw : forall args w, wInit w = true \/ dupCommand args \/ ~ seedOk args \/ ~ tolerancesOk parse args -> init args w = Throw.
  Proof.
    intros args w H. unfold InitModel.init. destruct (wInit w) eqn:WI; [reflexivity|]. cbn [negb judgeAssert bind].
    destruct (parser_total args) as [(_ & ->)|(ND & p & P)]; [reflexivity|]. rewrite P. cbn [bind].
    destruct (seedOk_dec args p P) as [SO|(c & -> & F & A)]; [|cbn [bind]; rewrite F, A; reflexivity].
    assert (NT : ~ tolerancesOk parse args) by (destruct H as [H|[H|[H|H]]]; [discriminate|tauto|tauto|auto]).
    destruct (seed_cases args p P) as (c0 & -> & SC). cbn [bind].
    assert (W1 : exists w1', (if cfound c0 then let! v := asInteger (ctoken c0) in Ok (seedRandom v w) else Ok w) = Ok w1' /\ wInit w1' = false).
    { destruct SC as [(F & N)|(F & ps & G & U & C)]; rewrite F; [eauto|]. destruct (SO ps G) as (s & ps' & v & -> & I). rewrite C. cbn [hd_error]. rewrite (proj2 (asInteger_iff s v) I). cbn [bind]. eexists. split; [reflexivity|]. auto. }
    destruct W1 as (w1' & -> & WI'). cbn [bind].
    destruct (asReal_flag args p FLOAT_TOLERANCE (wAbs w) P) as (c1 & -> & _ & T1); [apply token_literal; [reflexivity|discriminate]|].
    destruct (asReal_flag args p FLOAT_ABSOLUTE_TOLERANCE (wAbs w) P) as (c2 & G2 & _ & T2); [apply token_literal; [reflexivity|discriminate]|].
    destruct (asReal_flag args p FLOAT_RELATIVE_TOLERANCE (wAbs w) P) as (c3 & G3 & _ & T3); [apply token_literal; [reflexivity|discriminate]|].
    cbn [bind]. unfold setAbs, setRel, assign.
    assert (STEP : forall n c, (forall d, readTol n args d (asRealOr parse (ctoken c) d)) -> (exists s, flagged args n s /\ parse s = None /\ forall d, asRealOr parse (ctoken c) d = Throw) \/ ((forall d, exists v, asRealOr parse (ctoken c) d = Ok v) /\ forall s, flagged args n s -> exists v, parse s = Some v)).
    { intros n c R. destruct (flag_cases args n) as [(s & H')|H'].
      - destruct (parse s) as [v|] eqn:E.
        + right. split; [intro d; exists v; destruct (R d) as (RF & _); rewrite (RF s H'), E; auto|]. intros s' H2. rewrite (flag_unique _ _ _ _ H2 H'). eauto.
        + left. exists s. split; auto. split; auto. intro d. destruct (R d) as (RF & _). rewrite (RF s H'), E. auto.
      - right. split; [intro d; exists d; destruct (R d) as (_ & RU); auto|]. intros s X. exfalso. eapply flag_not_unflagged; eauto. }
    destruct (STEP _ c1 T1) as [(s & _ & _ & X)|(X1 & Y1)]; [rewrite X; reflexivity|]. destruct (X1 (wAbs w1')) as (va & ->). rewrite WI'. cbn [bind negb judgeAssert wAbs wRel wSpace wCase wInit wSeed].
    destruct (X1 (wRel w1')) as (vr & ->). cbn [bind negb judgeAssert wAbs wRel wSpace wCase wInit wSeed]. rewrite G2. cbn [bind].
    destruct (STEP _ c2 T2) as [(s & _ & _ & X)|(X2 & Y2)]; [rewrite X; reflexivity|]. destruct (X2 va) as (va' & ->). cbn [bind negb judgeAssert wAbs wRel wSpace wCase wInit wSeed]. rewrite G3. cbn [bind].
    destruct (STEP _ c3 T3) as [(s & _ & _ & X)|(X3 & Y3)]; [rewrite X; reflexivity|]. exfalso. apply NT. intros n s [<-|[<-|[<-|[]]]] FL; [apply Y1|apply Y2|apply Y3]; exact FL.
  Qed.
  Lemma tolerancesOk_dec : forall args, tolerancesOk parse args \/ ~ tolerancesOk parse args.
  Proof.
    intro args. assert (ONE : forall n, (forall s, flagged args n s -> exists v, parse s = Some v) \/ (exists s, flagged args n s /\ parse s = None)).
    { intro n. destruct (flag_cases args n) as [(s & H)|H]; [|left; intros s X; exfalso; eapply flag_not_unflagged; eauto]. destruct (parse s) as [v|] eqn:E; [|right; eauto].
      left. intros s' H'. rewrite (flag_unique _ _ _ _ H' H). eauto. }
    assert (BAD : forall n, In n [text "float_tolerance"; text "float_absolute_tolerance"; text "float_relative_tolerance"] -> (exists s, flagged args n s /\ parse s = None) -> ~ tolerancesOk parse args).
    { intros n I (s & F & E) T. destruct (T n s I F) as (v & V). congruence. }
    destruct (ONE (text "float_tolerance")) as [H1|H1]; [|right; eapply BAD; eauto; left; reflexivity].
    destruct (ONE (text "float_absolute_tolerance")) as [H2|H2]; [|right; eapply BAD; eauto; right; left; reflexivity].
    destruct (ONE (text "float_relative_tolerance")) as [H3|H3]; [|right; eapply BAD; eauto; right; right; left; reflexivity].
    left. intros n s [<-|[<-|[<-|[]]]] F; auto.
  Qed.
  Lemma init_cases : forall args w, (wInit w = false /\ ~ dupCommand args /\ seedOk args /\ tolerancesOk parse args) \/ init args w = Throw.
  Proof.
    intros args w. destruct (wInit w) eqn:WI; [right; apply init_Throw; auto|]. destruct (parser_total args) as [(D & _)|(ND & p & P)]; [right; apply init_Throw; auto|].
    destruct (seedOk_dec args p P) as [S|(c & G & F & A)].
    - destruct (tolerancesOk_dec args) as [T|T]; [left; auto|right; apply init_Throw; auto].
    - right. unfold InitModel.init. rewrite WI, P. cbn [negb judgeAssert bind]. rewrite G. cbn [bind]. rewrite F, A. reflexivity.
  Qed.
  Lemma init_spec : forall args w p w', init args w = Ok (p, w') -> commandParser args = Ok p /\
      toleranceOf parse args (text "float_absolute_tolerance") (wAbs w) (wAbs w') /\
      toleranceOf parse args (text "float_relative_tolerance") (wRel w) (wRel w') /\
      (wSpace w' = true <-> wSpace w = true \/ In (text "space_change_sensitive") args) /\
      (wCase w' = true <-> wCase w = true \/ In (text "case_sensitive") args) /\
      wInit w = false /\ wInit w' = true /\ seedOf args (wSeed w) (wSeed w').
  Proof.
    intros args w p w' H. destruct (init_cases args w) as [(A & B & C & D)|T]; [|congruence]. destruct (init_Ok args w A B C D) as (p1 & w1 & E & X). rewrite H in E. injection E as <- <-. intuition.
  Qed.

  (* files *)
  Lemma open_cases : forall files args p i c, commandParser args = Ok p ->
    (exists b, fileAt files args i b /\ (forall b', fileAt files args i b' -> b' = b) /\ (let! path := rawAt p (Z.of_nat i) in openFile files path c) = Ok (c, b)) \/
    ((forall b, ~ fileAt files args i b) /\ (let! path := rawAt p (Z.of_nat i) in openFile files path c) = Throw).
  Proof.
    intros files args p i c P. rewrite (rawAt_spec args p (Z.of_nat i) P). replace (0 <=? Z.of_nat i) with true by lia. rewrite Nat2Z.id. unfold fileAt. destruct (nth_error args i) as [path|] eqn:N; cbn [bind].
    - unfold openFile. destruct (files path) as [b|] eqn:F.
      + left. exists b. split; [eauto|]. split; [|reflexivity]. intros b' (q & Q & F'). congruence.
      + right. split; [|reflexivity]. intros b (q & Q & F'). congruence.
    - right. split; [|reflexivity]. intros b (q & Q & _). discriminate.
  Qed.
  Lemma message_cases : forall writable args p, commandParser args = Ok p ->
    exists o, (let! dir := rawAt p 3 in let! _ := openMessage writable dir JUDGE_MESSAGE in openMessage writable dir TEAM_MESSAGE) = o /\
    ((messagesOk writable args /\ o = Ok tt /\ exists dir, rawAt p 3 = Ok dir /\ writable dir JUDGE_MESSAGE = true /\ writable dir TEAM_MESSAGE = true) \/ (~ messagesOk writable args /\ o = Throw)).
  Proof.
    intros writable args p P. eexists. split; [reflexivity|]. rewrite (rawAt_spec args p 3 P). change (if 0 <=? 3 then nth_error args (Z.to_nat 3) else None) with (nth_error args 3). unfold messagesOk. destruct (nth_error args 3) as [dir|] eqn:N; cbn [bind].
    - unfold openMessage. change (text "judgemessage.txt") with JUDGE_MESSAGE. change (text "teammessage.txt") with TEAM_MESSAGE.
      destruct (writable dir JUDGE_MESSAGE) eqn:J, (writable dir TEAM_MESSAGE) eqn:T; cbn [judgeAssert bind]; [left|right|right|right]; (split; [|try reflexivity]).
      + eauto.
      + split; [reflexivity|]. exists dir. auto.
      + intros (d & D & X & Y). congruence.
      + intros (d & D & X & Y). congruence.
      + intros (d & D & X & Y). congruence.
    - right. split; [|reflexivity]. intros (d & D & _). discriminate.
  Qed.
  Lemma constraints_cases : forall args p, commandParser args = Ok p ->
    (constraintsOk args /\ exists o, initConstraints p = Ok o /\ constraintsOf args o) \/ (~ constraintsOk args /\ initConstraints p = Throw).
  Proof.
    intros args p P. unfold initConstraints, constraintsOk, constraintsOf. change (text "--constraints_file") with CONSTRAINT_COMMAND.
    assert (T : token CONSTRAINT_COMMAND) by (apply token_literal; [reflexivity|discriminate]). assert (C : isCmd CONSTRAINT_COMMAND) by (eexists; eexists; reflexivity).
    destruct (str_in_dec CONSTRAINT_COMMAND args) as [I|I].
    - destruct (group_exists args _ I C) as (ps & G). destruct (getCommand_found args p _ ps P T G) as (c & -> & F & (_ & _ & S & A & _)). cbn [bind]. rewrite F, S.
      assert (U : forall ps', groupOf args CONSTRAINT_COMMAND ps' -> ps' = ps).
      { intros ps' G'. destruct (getCommand_found args p _ ps P T G) as (c1 & GC & _ & (_ & _ & _ & A1 & _)). destruct (getCommand_found args p _ ps' P T G') as (c2 & GC' & _ & (_ & _ & _ & A2 & _)). rewrite GC in GC'. injection GC' as <-. congruence. }
      destruct ps as [|f ps]; cbn [hd_error asString bind].
      + right. split; [|reflexivity]. intro X. apply (X [] G). reflexivity.
      + left. split; [intros ps' G'; rewrite (U _ G'); discriminate|]. eexists. split; [reflexivity|]. left. eauto.
    - destruct (getCommand_absent args p _ P T) as (c & -> & F & _); [tauto|]. cbn [bind]. rewrite F.
      assert (N : forall ps, ~ groupOf args CONSTRAINT_COMMAND ps) by (intros ps (pre & post & -> & _); apply I; apply in_or_app; right; left; reflexivity).
      left. split; [intros ps G; exfalso; eapply N; eauto|]. eexists. split; [reflexivity|]. right. auto.
  Qed.
  Lemma init_two : forall args w, (ready parse args w /\ exists p w', init args w = Ok (p, w') /\ commandParser args = Ok p /\ configured parse args w w') \/ (~ ready parse args w /\ init args w = Throw).
  Proof.
    intros args w. destruct (init_cases args w) as [R|T].
    - left. split; [exact R|]. destruct R as (A & B & C & D). destruct (init_Ok args w A B C D) as (p & w' & X & Y & Z). exists p, w'. split; auto.
    - right. split; auto. intros (A & B & C & D). destruct (init_Ok args w A B C D) as (p & w' & X & _). congruence.
  Qed.

  Lemma initInput_cases : forall args stdin w, let w0 := strictWorld w in
    (ready parse args w0 /\ constraintsOk args /\ exists s, initInput parse args stdin w = Ok s /\ configured parse args w0 (sWorld s) /\ constraintsOf args (sConstraints s) /\
      sTest s = (mkCfg true true 43 (wAbs (sWorld s)) (wRel (sWorld s)), stdin) /\ sJury s = None /\ sTeam s = None) \/
    (~ (ready parse args w0 /\ constraintsOk args) /\ initInput parse args stdin w = Throw).
  Proof.
    intros args stdin w w0. unfold initInput, setSpace, setCase, assign. destruct (wInit w) eqn:WI.
    - right. split; [|reflexivity]. intros ((A & _) & _). cbn in A. congruence.
    - cbn [negb judgeAssert bind wAbs wRel wSpace wCase wInit wSeed]. assert (E : w0 = mkWorld (wAbs w) (wRel w) true true false (wSeed w)) by (unfold w0, strictWorld; rewrite WI; reflexivity). rewrite <- E.
      destruct (init_two args w0) as [(R & p & w' & -> & P & C)|(N & ->)]; [|right; split; [tauto|reflexivity]]. cbn [bind].
      destruct (constraints_cases args p P) as [(K & o & -> & KO)|(K & ->)]; [|right; split; [tauto|reflexivity]]. cbn [bind]. left. split; auto. split; auto.
      destruct C as (C1 & C2 & C3 & C4 & C5 & C6). assert (S1 : wSpace w' = true) by (apply C3; left; rewrite E; reflexivity). assert (S2 : wCase w' = true) by (apply C4; left; rewrite E; reflexivity).
      eexists. split; [reflexivity|]. cbn [sWorld sTest sJury sTeam sConstraints]. rewrite S1, S2. unfold configured. auto 10.
  Qed.
  Variable files : str -> option (list Z).
  Lemma initAnswer_cases : forall args stdin w, let w0 := strictWorld w in
    (exists tb, ready parse args w0 /\ constraintsOk args /\ fileAt files args 1 tb /\ exists s, initAnswer parse files args stdin w = Ok s /\ configured parse args w0 (sWorld s) /\ constraintsOf args (sConstraints s) /\
      sTest s = (mkCfg false true 1 DEFAULT_EPS DEFAULT_EPS, tb) /\ sJury s = None /\ sTeam s = Some (mkCfg true true 43 DEFAULT_EPS DEFAULT_EPS, stdin)) \/
    ((forall tb, ~ (ready parse args w0 /\ constraintsOk args /\ fileAt files args 1 tb)) /\ initAnswer parse files args stdin w = Throw).
  Proof.
    intros args stdin w w0. unfold initAnswer, setSpace, setCase, assign. destruct (wInit w) eqn:WI.
    - right. split; [|reflexivity]. intros tb ((A & _) & _). cbn in A. congruence.
    - cbn [negb judgeAssert bind wAbs wRel wSpace wCase wInit wSeed]. assert (E : w0 = mkWorld (wAbs w) (wRel w) true true false (wSeed w)) by (unfold w0, strictWorld; rewrite WI; reflexivity). rewrite <- E.
      destruct (init_two args w0) as [(R & p & w' & -> & P & C)|(N & ->)]; [|right; split; [tauto|reflexivity]]. cbn [bind].
      destruct C as (C1 & C2 & C3 & C4 & C5 & C6). assert (S1 : wSpace w' = true) by (apply C3; left; rewrite E; reflexivity). assert (S2 : wCase w' = true) by (apply C4; left; rewrite E; reflexivity).
      pose proof (open_cases files args p 1 (mkCfg false (wCase w') FAIL DEFAULT_EPS DEFAULT_EPS) P) as O. change (Z.of_nat 1) with 1 in O.
      destruct O as [(tb & TB & U & O)|(N & O)]; destruct (rawAt p 1) as [path| | |]; cbn [bind] in *; try discriminate; rewrite ?O; cbn [bind]; try (right; split; [intros tb'; specialize (N tb'); tauto|reflexivity]).
      destruct (constraints_cases args p P) as [(K & o & -> & KO)|(K & ->)]; [|right; split; [tauto|reflexivity]]. cbn [bind]. left. exists tb. split; auto. split; auto. split; auto.
      eexists. split; [reflexivity|]. cbn [sWorld sTest sJury sTeam sConstraints]. rewrite S1, S2. unfold configured. auto 10.
  Qed.
  Variable writable : str -> str -> bool.
  Lemma initOutput_cases : forall args stdin w,
    (exists tb jb, ready parse args w /\ constraintsOk args /\ messagesOk writable args /\ fileAt files args 1 tb /\ fileAt files args 2 jb /\
      exists s, initOutput parse files writable args stdin w = Ok s /\ configured parse args w (sWorld s) /\ constraintsOf args (sConstraints s) /\
      sTest s = (mkCfg false (wCase (sWorld s)) 1 DEFAULT_EPS DEFAULT_EPS, tb) /\ sJury s = Some (mkCfg false (wCase (sWorld s)) 1 DEFAULT_EPS DEFAULT_EPS, jb) /\
      sTeam s = Some (mkCfg (wSpace (sWorld s)) (wCase (sWorld s)) 43 DEFAULT_EPS DEFAULT_EPS, stdin)) \/
    ((forall tb jb, ~ (ready parse args w /\ constraintsOk args /\ messagesOk writable args /\ fileAt files args 1 tb /\ fileAt files args 2 jb)) /\ initOutput parse files writable args stdin w = Throw).
  Proof.
    intros args stdin w. unfold initOutput.
    destruct (init_two args w) as [(R & p & w' & -> & P & C)|(N & ->)]; [|right; split; [tauto|reflexivity]]. cbn [bind].
    destruct (message_cases writable args p P) as (o & M & [(MO & -> & dir & -> & J & T)|(MN & ->)]).
    2: { right. split; [tauto|]. destruct (rawAt p 3) as [dir| | |]; cbn [bind] in *; try discriminate; auto. destruct (openMessage writable dir JUDGE_MESSAGE); cbn [bind] in *; try discriminate; auto. rewrite M. reflexivity. }
    cbn [bind]. unfold openMessage. rewrite J, T. cbn [judgeAssert bind]. clear M.
    pose proof (open_cases files args p 1 (mkCfg false (wCase w') FAIL DEFAULT_EPS DEFAULT_EPS) P) as O. change (Z.of_nat 1) with 1 in O.
    destruct O as [(tb & TB & U & O)|(N & O)]; destruct (rawAt p 1) as [path| | |]; cbn [bind] in *; try discriminate; rewrite ?O; cbn [bind]; try (right; split; [intros tb' jb'; specialize (N tb'); tauto|reflexivity]). clear O.
    pose proof (open_cases files args p 2 (mkCfg false (wCase w') FAIL DEFAULT_EPS DEFAULT_EPS) P) as O. change (Z.of_nat 2) with 2 in O.
    destruct O as [(jb & JB & U' & O)|(N & O)]; destruct (rawAt p 2) as [path'| | |]; cbn [bind] in *; try discriminate; rewrite ?O; cbn [bind]; try (right; split; [intros tb' jb'; specialize (N jb'); tauto|reflexivity]). clear O.
    destruct (constraints_cases args p P) as [(K & o & -> & KO)|(K & ->)]; [|right; split; [tauto|reflexivity]]. cbn [bind]. left. exists tb, jb. repeat (split; [assumption|]).
    eexists. split; [reflexivity|]. cbn [sWorld sTest sJury sTeam sConstraints]. auto 10.
  Qed.
  Lemma initInteractor_cases : forall args stdin w,
    (exists tb, ready parse args w /\ messagesOk writable args /\ fileAt files args 1 tb /\
      exists s, initInteractor parse files writable args stdin w = Ok s /\ configured parse args w (sWorld s) /\ sConstraints s = None /\
      sTest s = (mkCfg false (wCase (sWorld s)) 1 DEFAULT_EPS DEFAULT_EPS, tb) /\ sJury s = None /\
      sTeam s = Some (mkCfg (wSpace (sWorld s)) (wCase (sWorld s)) 43 DEFAULT_EPS DEFAULT_EPS, stdin)) \/
    ((forall tb, ~ (ready parse args w /\ messagesOk writable args /\ fileAt files args 1 tb)) /\ initInteractor parse files writable args stdin w = Throw).
  Proof.
    intros args stdin w. unfold initInteractor.
    destruct (init_two args w) as [(R & p & w' & -> & P & C)|(N & ->)]; [|right; split; [tauto|reflexivity]]. cbn [bind].
    destruct (message_cases writable args p P) as (o & M & [(MO & -> & dir & -> & J & T)|(MN & ->)]).
    2: { right. split; [tauto|]. destruct (rawAt p 3) as [dir| | |]; cbn [bind] in *; try discriminate; auto. destruct (openMessage writable dir JUDGE_MESSAGE); cbn [bind] in *; try discriminate; auto. rewrite M. reflexivity. }
    cbn [bind]. unfold openMessage. rewrite J, T. cbn [judgeAssert bind]. clear M.
    pose proof (open_cases files args p 1 (mkCfg false (wCase w') FAIL DEFAULT_EPS DEFAULT_EPS) P) as O. change (Z.of_nat 1) with 1 in O.
    destruct O as [(tb & TB & U & O)|(N & O)]; destruct (rawAt p 1) as [path| | |]; cbn [bind] in *; try discriminate; rewrite ?O; cbn [bind]; try (right; split; [intros tb'; specialize (N tb'); tauto|reflexivity]). clear O.
    left. exists tb. repeat (split; [assumption|]).
    eexists. split; [reflexivity|]. cbn [sWorld sTest sJury sTeam sConstraints]. auto 10.
  Qed.
End Init.
Lemma frozen : forall w, wInit w = true -> (forall v, setAbs v w = Throw) /\ (forall v, setRel v w = Throw) /\ (forall b, setSpace b w = Throw) /\ (forall b, setCase b w = Throw) /\ forall parse args, init parse args w = Throw.
Proof. intros w H. unfold setAbs, setRel, setSpace, setCase, assign, init. rewrite H. repeat split. Qed.
Lemma thawed : forall w, wInit w = false ->
  (forall v, exists w', setAbs v w = Ok w' /\ wAbs w' = v /\ wRel w' = wRel w /\ wSpace w' = wSpace w /\ wCase w' = wCase w /\ wInit w' = false /\ wSeed w' = wSeed w) /\
  (forall v, exists w', setRel v w = Ok w' /\ wRel w' = v /\ wAbs w' = wAbs w /\ wSpace w' = wSpace w /\ wCase w' = wCase w /\ wInit w' = false /\ wSeed w' = wSeed w) /\
  (forall v, exists w', setSpace v w = Ok w' /\ wSpace w' = v /\ wAbs w' = wAbs w /\ wRel w' = wRel w /\ wCase w' = wCase w /\ wInit w' = false /\ wSeed w' = wSeed w) /\
  (forall v, exists w', setCase v w = Ok w' /\ wCase w' = v /\ wAbs w' = wAbs w /\ wRel w' = wRel w /\ wSpace w' = wSpace w /\ wInit w' = false /\ wSeed w' = wSeed w).
Proof. intros w H. unfold setAbs, setRel, setSpace, setCase, assign. rewrite H. cbn [negb judgeAssert bind]. repeat split; intros; eexists; (split; [reflexivity|]); cbn; auto 10. Qed.
Lemma toleranceOf_unique : forall parse args own d v v', toleranceOf parse args own d v -> toleranceOf parse args own d v' -> v = v'.
Proof.
  intros parse args own d v v' [(s & F & P)|[(N & s & F & P)|(N & M & ->)]] [(s' & F' & P')|[(N' & s' & F' & P')|(N' & M' & ->)]];
    try solve [exfalso; eapply flag_not_unflagged; [exact F|assumption]]; try solve [exfalso; eapply flag_not_unflagged; [exact F'|assumption]]; try (pose proof (flag_unique _ _ _ _ F F'); subst; congruence); reflexivity.
Qed.
