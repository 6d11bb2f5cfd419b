(* The example programs: two kinds of answers, multipass, the whole of the input validators. *)
From Coq Require Import String.
From Verif Require Import Base Tac SeqModel RegexModel RegexProofs FloatModel InputSpec InputModel InputClient InputProofs InputProofs2 InputProofs3 InputProofs4 ArgsModel InitModel InitSpec InitProofs ExampleModel ExampleSpec ExampleProofs ExampleProofs2 OutProofs OutSpec.
From Verif Require PassModel PassProofs.
Open Scope Z_scope.

(* ---- the input validators from the start ---- *)
Lemma inputMain_Ok : forall (P : list Z -> Prop) body parse args stdin c,
  (forall c b, spaceSensitive c = true -> onFail c = 43 -> (P b /\ body (c, b) = Code 42) \/ (~ P b /\ body (c, b) = Code 43)) ->
  (started (initInput parse args stdin start) (fun s => body (sTest s)) = Code c <->
   ready parse args start /\ constraintsOk args /\ ((c = 42 /\ P stdin) \/ (c = 43 /\ ~ P stdin))).
Proof.
  intros P body parse args stdin c B.
  assert (RS : ready parse args (strictWorld start) <-> ready parse args start) by (unfold ready; cbn; tauto).
  destruct (initInput_cases parse args stdin start) as [(R & K & s & E & _ & _ & ST & _)|(N & E)]; rewrite E; cbn [started].
  - rewrite ST. apply RS in R. destruct (B (mkCfg true true 43 (wAbs (sWorld s)) (wRel (sWorld s))) stdin) as [(A & X)|(A & X)]; auto; rewrite X.
    + split; [intro Y; inversion Y; subst; auto 6|]. intros (_ & _ & [(-> & _)|(_ & Q)]); [auto|tauto].
    + split; [intro Y; inversion Y; subst; auto 6|]. intros (_ & _ & [(_ & Q)|(-> & _)]); [tauto|auto].
  - split; [discriminate|]. intros (R & K & _). exfalso. apply N. rewrite RS. auto.
Qed.

Lemma inputMain_code : forall parse args stdin c, inputMain parse args stdin = Code c <->
  ready parse args start /\ constraintsOk args /\ ((c = 42 /\ inputAccepts stdin) \/ (c = 43 /\ ~ inputAccepts stdin)).
Proof. intros. apply inputMain_Ok. intros. apply input_cases; auto. Qed.
Lemma graphMain_code : forall parse args stdin c, graphMain parse args stdin = Code c <->
  ready parse args start /\ constraintsOk args /\ ((c = 42 /\ treeFile stdin) \/ (c = 43 /\ ~ treeFile stdin)).
Proof. intros. apply inputMain_Ok. intros. apply graph_cases; auto. Qed.
Lemma constraintsMain_code : forall parse args stdin c, constraintsMain parse args stdin = Code c <->
  ready parse args start /\ constraintsOk args /\ c = 43.
Proof.
  intros. unfold constraintsMain. rewrite (inputMain_Ok (fun _ => False)); [tauto|]. intros. right. split; [tauto|]. apply constraints_reject; auto.
Qed.

(* ---- outputValidator2.cpp ---- *)
Lemma lang_literal : forall l s, lang (literal l) s <-> s = l.
Proof.
  induction l as [|x l IH]; intro s; cbn [literal fold_right]; [apply lang_eps|]. rewrite lang_cat. split.
  - intros (s1 & s2 & -> & A & B). apply lang_lit in A. apply IH in B. subst. reflexivity.
  - intros ->. exists [x], l. split; auto. split; [apply lang_lit; auto|apply IH; auto].
Qed.
Lemma options_iff : forall cs w, regex_match (folded cs w) (options cs) = true <-> same cs w (text "Yes") \/ same cs w (text "No").
Proof. intros cs w. rewrite regex_match_lang. unfold same, options. destruct cs; rewrite lang_alt, !lang_literal; reflexivity. Qed.
Lemma on_options : forall c cs s k, caseSensitive c = cs ->
  (exists w r, nextToken (spaceSensitive c) s w r /\ (same cs w (text "Yes") \/ same cs w (text "No")) /\ on (stringRe c (options cs)) s k = k (folded cs w) r) \/
  ((forall w, firstWord (spaceSensitive c) s w -> ~ same cs w (text "Yes") /\ ~ same cs w (text "No")) /\ on (stringRe c (options cs)) s k = Code (onFail c)).
Proof.
  intros c cs s k <-. unfold on. destruct (stringRe c (options (caseSensitive c)) s) as [t r|x|] eqn:E.
  - apply stringRe_spec in E as (E & M). apply string_spec in E as (w & N & ->). apply options_iff in M. left. eauto 6.
  - right. assert (X : x = onFail c).
    { unfold stringRe, rbind, check, fail, rret in E. destruct (string_else c s) as [(t & r & Q)|Q]; rewrite Q in E; [|congruence]. destruct (regex_match t _); cbn in E; congruence. }
    subst x. split; auto. intros w (r & N). assert (X : ~ (same (caseSensitive c) w (text "Yes") \/ same (caseSensitive c) w (text "No"))); [|tauto].
    intro M. apply options_iff in M. assert (Y : stringRe c (options (caseSensitive c)) s = Ret (folded (caseSensitive c) w) r) by (apply stringRe_spec; split; auto; apply string_spec; eauto). congruence.
  - exfalso. unfold stringRe, rbind, check, fail, rret in E. destruct (string_else c s) as [(t & r & Q)|Q]; rewrite Q in E; [|congruence]. destruct (regex_match t _); cbn in E; congruence.
Qed.
Lemma yes_no : forall cs w, same cs w (text "Yes") -> same cs w (text "No") -> False.
Proof. intros cs w A B. unfold same in *. rewrite A in B. destruct cs; discriminate. Qed.
Lemma white_word : forall r w, Forall whitespace r -> ~ firstWord false r w.
Proof.
  intros r w F (r' & ws & -> & _ & T & _). apply Forall_app in F as (_ & F). apply Forall_app in F as (F & _). destruct T as (NN & T). destruct w as [|x w]; [congruence|]. inversion F; inversion T; subst. auto.
Qed.
Lemma words_step : forall s t ts, wordsOf s (t :: ts) -> exists r, nextToken false s t r /\ wordsOf r ts.
Proof. intros s t ts H. inversion H as [|ws t' s' ts' W T E R]; subst. exists s'. split; auto. exists ws. repeat (split; auto). all: discriminate. Qed.
Lemma words_none : forall r w, wordsOf r [] -> ~ firstWord false r w.
Proof. intros r w H. inversion H; subst. apply white_word. auto. Qed.

Section Output2.
Variables (cs : bool) (cj cm : cfg) (bj bm : list Z).
Hypotheses (SJ : spaceSensitive cj = false) (KJ : caseSensitive cj = cs) (KM : caseSensitive cm = cs) (FJ : onFail cj = 1) (FM : onFail cm = 43).
(* the jury answers Yes 6 *)
Lemma output2_yes : forall j s, wordsOf bj [j; s] -> same cs j (text "Yes") -> decimalOf s 6 ->
  let x := output2Body cs (cj, bj) (cm, bm) in (x = Code 1 \/ x = Code 43) /\
  (spaceSensitive cm = false -> (x = Code 1 <-> exists w, firstWord false bm w /\ same cs w (text "Yes"))).
Proof.
  intros j s WO SA DE. cbv zeta. apply words_step in WO as (rj & NJ & WO). apply words_step in WO as (rj2 & NS & WO).
  unfold output2Body. set (K := fun (j : list Z) (rj : list Z) => on (stringRe cm _) _ _).
  destruct (on_options cj cs bj K KJ) as [(w & r & N & _ & ->)|(N & _)]; rewrite SJ in N.
  2: { exfalso. destruct (N j) as (A & B); [exists rj; auto|tauto]. }
  destruct (nextToken_unique _ _ _ _ _ _ NJ N). subst w r. unfold K. clear K.
  match goal with |- context [on (stringRe cm (options cs)) bm ?k] => set (K := k) end. destruct (on_options cm cs bm K KM) as [(t & rt & NT & TY & ->)|(NT & ->)].
  2: { rewrite FM. split; [auto|]. intro SM. rewrite SM in NT. split; [discriminate|]. intros (w & F & Y). exfalso. destruct (NT w F). tauto. }
  unfold K. clear K. match goal with |- context [on (newline cm) rt ?k] => set (K := k) end. destruct (on_newline cm rt K) as [(rm & NR & ->)|(SM & _ & ->)].
  2: { rewrite FM. split; [auto|]. congruence. }
  unfold K. clear K. rewrite chars_text. rewrite (equal_true (folded cs j)) by (apply same_folded; auto).
  match goal with |- context [on (integer cj) rj ?k] => set (K := k) end. destruct (on_integer cj rj K) as [(w & v & r & N2 & D & I & ->)|(N2 & _)]; rewrite SJ in N2.
  2: { exfalso. apply (N2 6). exists s. split; [exists rj2; auto|]. split; auto. mach. lia. }
  destruct (nextToken_unique _ _ _ _ _ _ NS N2). subst w r. rewrite (decimal_val _ _ _ D DE). unfold K. clear K. cbn [verify Z.eqb negb].
  assert (FW : spaceSensitive cm = false -> forall w, firstWord false bm w -> w = t).
  { intros SM w F. rewrite SM in NT. eapply firstWord_unique; [exact F|]. exists rt. auto. }
  destruct TY as [TY|TY].
  - rewrite (equal_true (folded cs t)) by (apply same_folded; auto). match goal with |- context [on (integer cj) rj2 ?k] => set (K := k) end. destruct (on_integer cj rj2 K) as [(w & v2 & r & N3 & _)|(_ & ->)].
    + exfalso. rewrite SJ in N3. eapply words_none; eauto. exists r. eauto.
    + rewrite FJ. split; auto. intros SM. split; auto. intros _. exists t. split; auto. exists rt. rewrite SM in NT. auto.
  - assert (NY : ~ same cs t (text "Yes")) by (intro; eapply yes_no; eauto). rewrite (equal_false (folded cs t) (text "Yes")) by (rewrite same_folded; auto).
    assert (X : on (eof cm) rm (fun _ _ => if fst (stringEqual (folded cs j) (folded cs t) cs) then Code AC else Code WA) = Code 43).
    { match goal with |- on _ _ ?k = _ => destruct (on_eof cm rm k) as [(_ & ->)|(_ & ->)] end; auto.
      - rewrite equal_false; auto. intro Q. unfold same in *. rewrite !folded_idem in Q. congruence.
      - congruence. }
    rewrite X. split; auto. intro SM. split; [discriminate|]. intros (w & F & Y). rewrite (FW SM w F) in Y. tauto.
Qed.
(* the jury answers No *)
Lemma output2_no : forall j, wordsOf bj [j] -> same cs j (text "No") -> spaceSensitive cm = false ->
  let x := output2Body cs (cj, bj) (cm, bm) in
  (x = Code 42 <-> exists w, onlyWord false bm w /\ same cs w (text "No")) /\
  (x = Code 1 <-> exists w, firstWord false bm w /\ same cs w (text "Yes")) /\ (x = Code 42 \/ x = Code 1 \/ x = Code 43).
Proof.
  intros j WO SA SM. cbv zeta. apply words_step in WO as (rj & NJ & WO).
  unfold output2Body. set (K := fun (j : list Z) (rj : list Z) => on (stringRe cm _) _ _).
  destruct (on_options cj cs bj K KJ) as [(w & r & N & _ & ->)|(N & _)]; rewrite SJ in N.
  2: { exfalso. destruct (N j) as (A & B); [exists rj; auto|tauto]. }
  destruct (nextToken_unique _ _ _ _ _ _ NJ N). subst w r. unfold K. clear K.
  match goal with |- context [on (stringRe cm (options cs)) bm ?k] => set (K := k) end. destruct (on_options cm cs bm K KM) as [(t & rt & NT & TY & ->)|(NT & ->)].
  2: { rewrite FM, SM in *. split; [|split; [|auto]]; (split; [discriminate|]); intros (w & F & Y); exfalso; [apply onlyWord_first in F|]; destruct (NT w F); tauto. }
  unfold K. clear K. match goal with |- context [on (newline cm) rt ?k] => set (K := k) end. destruct (on_newline cm rt K) as [(rm & NR & ->)|(SM' & _ & ->)]; [|congruence].
  rewrite SM in NR, NT. subst rm. unfold K. clear K. rewrite chars_text. rewrite (equal_false (folded cs j)) by (rewrite same_folded; intro; eapply yes_no; eauto).
  assert (FW : forall w, firstWord false bm w -> w = t) by (intros w F; eapply firstWord_unique; [exact F|]; exists rt; auto).
  destruct TY as [TY|TY].
  - rewrite (equal_true (folded cs t)) by (apply same_folded; auto). match goal with |- context [on (integer cj) rj ?k] => set (K := k) end. destruct (on_integer cj rj K) as [(w & v2 & r & N3 & _)|(_ & ->)].
    + exfalso. rewrite SJ in N3. eapply words_none; eauto. exists r. eauto.
    + rewrite FJ. split; [|split; [|auto]].
      * split; [discriminate|]. intros (w & F & Y). apply onlyWord_first in F. rewrite (FW w F) in Y. exfalso. eapply yes_no; eauto.
      * split; auto. intros _. exists t. split; auto. exists rt. auto.
  - assert (NY : ~ same cs t (text "Yes")) by (intro; eapply yes_no; eauto). rewrite (equal_false (folded cs t) (text "Yes")) by (rewrite same_folded; auto).
    assert (EQ : fst (stringEqual (folded cs j) (folded cs t) cs) = true) by (apply equal_true; unfold same in *; rewrite !folded_idem; congruence). rewrite EQ.
    assert (Q1 : (exists w, firstWord false bm w /\ same cs w (text "Yes")) <-> False) by (split; [|tauto]; intros (w & F & Y); rewrite (FW w F) in Y; tauto).
    match goal with |- context [on (eof cm) rt ?k] => destruct (on_eof cm rt k) as [(E & ->)|(E & ->)] end; rewrite SM in E; cbn [endTail] in E.
    + split; [|split; [|auto]]; [|rewrite Q1; split; [discriminate|tauto]]. split; auto. intros _. exists t. split; auto. apply onlyWord_iff. exists rt. auto.
    + rewrite FM. split; [|split; [|auto]]; [|rewrite Q1; split; [discriminate|tauto]]. split; [discriminate|]. intros (w & F & Y). exfalso. eapply E. apply (onlyWord_unique _ _ _ _ _ F NT).
Qed.
End Output2.

(* ---- multipassInteractor.cpp ---- *)
Lemma read_integer : forall c b s v, spaceSensitive c = b -> (firstInteger b s v <-> exists r, integer c s = Ret v r).
Proof.
  intros c b s v <-. split.
  - intros (w & (r & N) & D & I). exists r. apply integer_spec. eauto.
  - intros (r & E). apply integer_spec in E as (w & N & D & I). exists w. split; [exists r; auto|auto].
Qed.
Lemma line_integer : forall b n, is_i64 n -> firstInteger b (PassModel.showInteger n ++ [10]) n.
Proof.
  intros b n I. exists (PassModel.showInteger n). pose proof (show_decimal n I) as D. split; [|auto]. exists [10]. exists [].
  pose proof (decimal_plain _ _ D) as P. split; auto. split; auto. split; [apply P|]. split; [cbn; unfold whitespace; lia|]. auto.
Qed.
Lemma first_pass : forall ct cm d test team n a, d ".pass"%string = None -> firstInteger (spaceSensitive ct) test n -> firstInteger (spaceSensitive cm) team a ->
  exists d1, multipassRun ct cm d test team = Ok (PassModel.showInteger n ++ [10], Code 42, d1) /\
    d1 "nextpass.in"%string = Some (PassModel.showInteger n ++ [10]) /\ d1 ".pass"%string = Some (PassModel.showInteger 0) /\ d1 ".state0"%string = Some (PassModel.showInteger a ++ [10]).
Proof.
  intros ct cm d test team n a P F G. unfold multipassRun, PassModel.initPass. rewrite P. cbn [bind].
  apply (read_integer ct _ _ _ eq_refl) in F as (r & ->). apply (read_integer cm _ _ _ eq_refl) in G as (r' & ->). cbn [Z.eqb]. change (PassModel.nextFile 0) with ".state0"%string.
  eexists. split; [reflexivity|]. unfold PassModel.NEXT. rewrite PassProofs.put_same. split; auto.
Qed.
Lemma second_pass : forall ct cm d test team n a, is_i64 a -> onFail cm = 43 -> d ".pass"%string = Some (PassModel.showInteger 0) -> d ".state0"%string = Some (PassModel.showInteger a ++ [10]) -> firstInteger (spaceSensitive ct) test n ->
  exists d2, (firstInteger (spaceSensitive cm) team a /\ multipassRun ct cm d test team = Ok (PassModel.showInteger n ++ [10], Code 42, d2)) \/
    (~ firstInteger (spaceSensitive cm) team a /\ multipassRun ct cm d test team = Ok (PassModel.showInteger n ++ [10], Code 43, d2)).
Proof.
  intros ct cm d test team n a IA FM P S F. unfold multipassRun, PassModel.initPass. rewrite P. change (PassModel.readInteger (PassModel.showInteger 0) + 1) with 1. change (chk 1) with (Ok 1). cbn [bind]. change (PassModel.prevFile 1) with ".state0"%string. rewrite S. cbn [bind].
  apply (read_integer ct _ _ _ eq_refl) in F as (r & ->). destruct (safe_integer cm team) as [(v & r' & E)|E]; rewrite E.
  - cbn [Z.eqb]. destruct (proj1 (read_integer prevCfg false _ _ eq_refl) (line_integer false a IA)) as (r2 & E2). unfold on. rewrite E2.
    assert (FV : firstInteger (spaceSensitive cm) team v) by (apply (read_integer cm _ _ _ eq_refl); eauto).
    eexists. destruct (v =? a) eqn:Q.
    + left. replace a with v by lia. split; auto.
    + right. split; [|reflexivity]. intro FA. pose proof (firstInteger_unique _ _ _ _ FV FA). lia.
  - eexists. right. rewrite FM. split; [|reflexivity]. intro FA. apply (read_integer cm _ _ _ eq_refl) in FA as (r2 & E2). congruence.
Qed.

Lemma two_passes : forall ct cm d test team n a, d ".pass"%string = None -> firstInteger (spaceSensitive ct) test n -> firstInteger (spaceSensitive cm) team a ->
  exists d1 next, multipassRun ct cm d test team = Ok (PassModel.showInteger n ++ [10], Code 42, d1) /\ d1 "nextpass.in"%string = Some next /\
    forall ct' cm' d1' team', (forall f, f <> "nextpass.in"%string -> d1' f = d1 f) -> onFail cm' = 43 ->
    exists d2, (firstInteger (spaceSensitive cm') team' a /\ multipassRun ct' cm' d1' next team' = Ok (PassModel.showInteger n ++ [10], Code 42, d2)) \/
      (~ firstInteger (spaceSensitive cm') team' a /\ multipassRun ct' cm' d1' next team' = Ok (PassModel.showInteger n ++ [10], Code 43, d2)).
Proof.
  intros ct cm d test team n a P F G. destruct (first_pass ct cm d test team n a P F G) as (d1 & E & N & P1 & S1). exists d1, (PassModel.showInteger n ++ [10]). split; auto. split; auto.
  intros ct' cm' d1' team' D FM. assert (IN : is_i64 n) by (destruct F as (? & _ & _ & ?); auto). assert (IA : is_i64 a) by (destruct G as (? & _ & _ & ?); auto).
  apply second_pass; auto; [rewrite D by discriminate; auto|rewrite D by discriminate; auto|apply line_integer; auto].
Qed.
Lemma interactor_odd : exists n, Z.odd n = true /\ forall ct cm bm, spaceSensitive ct = false -> onFail ct = 1 -> onFail cm = 43 ->
  snd (interactorBody (ct, PassModel.showInteger n) (cm, bm)) <> Code 42.
Proof.
  exists 3. split; auto. intros ct cm bm HT FT FM. assert (F3 : firstInteger false (PassModel.showInteger 3) 3).
  { exists (PassModel.showInteger 3). assert (I : is_i64 3) by (mach; lia). pose proof (show_decimal 3 I) as D. split; [|auto]. exists [], []. rewrite app_nil_r. split; auto. split; auto. split; [apply (decimal_plain _ _ D)|]. split; [exact Logic.I|discriminate]. }
  destruct (interactor_cases ct (PassModel.showInteger 3) cm bm HT FT FM) as [(n & F & _ & _ & O)|(N & _)]; [|exfalso; apply (N 3); auto].
  rewrite (firstInteger_unique _ _ _ _ F F3) in O. destruct (O eq_refl) as ([X|X] & _); rewrite X; discriminate.
Qed.
