From Coq Require Import String.
From Verif Require Import Base Tac SeqModel SeqSpec RegexModel RegexProofs FloatModel FloatSpec InitSpec PassModel PrintModel InputModel InputSpec InputProofs InputProofs2 InputProofs3 InputProofs4
  OutProofs SeqProofs ReportModel ReportSpec ReportProofs MsgModel MsgSpec.
From Coq Require Import ZArith List Lia.
Import ListNotations.
Open Scope Z_scope.
Open Scope list_scope.

(* ---- the parts of a text in pieces ---- *)
Lemma wordStart_tail : forall a b, b <> [] -> wordStart (a ++ b) -> wordStart b.
Proof.
  intros a b N [H|(p & c & H & W)].
  - apply app_eq_nil in H as [_ H]. congruence.
  - right. destruct (exists_last N) as (b' & x & ->). exists b', x. split; [reflexivity|].
    rewrite app_assoc in H. apply app_inj_tail in H as [_ ->]. exact W.
Qed.
Lemma parts_app : forall a ps, parts a ps -> forall b qs, parts b qs -> wordStart a \/ endsToken b -> parts (a ++ b) (ps ++ qs).
Proof.
  intros a ps H. induction H as [|c w s ps G W T P IH|c s ps G P IH]; intros b qs Q S.
  - exact Q.
  - rewrite <- app_assoc. cbn [app]. destruct s as [|x s].
    + cbn [app]. inv P. cbn [app]. apply (parts_word c w b qs G W); [|exact Q].
      destruct S as [S|S]; [|exact S]. exfalso. rewrite app_nil_r in S. destruct S as [S|(p & y & E & Y)]; [discriminate|].
      assert (F : Forall (fun x => ~ whitespace x) (c :: w)) by (constructor; [apply graphic_space; exact G|exact W]).
      rewrite Forall_forall in F. apply (F y); [|exact Y]. rewrite E. apply in_or_app. right. left. reflexivity.
    + apply (parts_word c w ((x :: s) ++ b) (ps ++ qs) G W); [exact T|]. apply IH; [exact Q|].
      destruct S as [S|S]; [left|right; exact S]. apply (wordStart_tail (c :: w)); [discriminate|exact S].
  - cbn [app]. apply parts_char; [exact G|]. apply IH; [exact Q|].
    destruct S as [S|S]; [|right; exact S]. destruct s as [|x s].
    + left. left. reflexivity.
    + left. apply (wordStart_tail [c]); [discriminate|exact S].
Qed.
(* a part x between two texts *)
Definition splits (before x after : list Z) : Prop :=
  exists xs ys, parts (before ++ x ++ after) (xs ++ x :: ys) /\ concat xs = before /\ concat ys = after.
Lemma splits_word : forall before raw after, wordStart before -> plainToken raw -> endsToken after -> splits before raw after.
Proof.
  intros before raw after S [[N W] G] T. destruct raw as [|c w]; [destruct G|].
  destruct (parts_total before) as [xs X]. destruct (parts_total after) as [ys Y]. exists xs, ys.
  split; [|split; symmetry; apply parts_concat; assumption].
  apply parts_app; [exact X| |left; exact S]. apply (parts_word c w after ys); [exact G|inv W; assumption|exact T|exact Y].
Qed.
Lemma splits_char : forall before c after, whitespace c -> splits before [c] after.
Proof.
  intros before c after W. destruct (parts_total before) as [xs X]. destruct (parts_total after) as [ys Y]. exists xs, ys.
  split; [|split; symmetry; apply parts_concat; assumption].
  apply parts_app; [exact X| |right; exact W]. apply parts_char; [|exact Y]. intro G. apply graphic_space in G. exact (G W).
Qed.
Lemma concat_nil : forall s xs x ys, parts s (xs ++ x :: ys) -> (ys = [] <-> concat ys = []).
Proof.
  intros s xs x ys P. split; [intros ->; reflexivity|]. destruct ys as [|y ys]; [reflexivity|]. intro E. exfalso.
  assert (0 < alen y) by (apply (part_pos s _ y P), in_or_app; right; right; left; reflexivity).
  cbn in E. apply app_eq_nil in E as [-> _]. cbn in H. lia.
Qed.
Lemma report_located : forall (seekable : bool) before x after pos, splits before x after -> alen before < pos <= alen before + alen x ->
  exists loc, report (before ++ x ++ after) (if seekable then Some pos else None) = Ok loc /\ located seekable before x after loc.
Proof.
  intros seekable before x after pos (xs & ys & P & <- & E) H. unfold located. destruct seekable.
  - pose proof (concat_nil _ _ _ _ P) as N. rewrite E in N. destruct (list_eq_dec Z.eq_dec after []) as [A|A].
    + destruct (isgraphPeek x) eqn:G.
      * apply isgraph_word in G. assert (ys = []) by (apply N; exact A). subst ys.
        exists []. split; [apply (report_eof _ xs x pos); assumption|]. left. split; [right; split; [exact G|exact A]|reflexivity].
      * assert (NW : ~ wordPart x) by (intro K; apply isgraph_word in K; congruence).
        destruct (report_ok _ xs x ys pos P H) as (cur & line & row & l & r & H1 & H2 & H3 & H4); [intro K; contradiction|].
        eexists. split; [exact H3|]. right. split; [reflexivity|]. split; [intro K; contradiction|].
        rewrite E in H2. exists cur, line, row, l, r. split; [exact H1|]. split; [exact H2|]. split; [reflexivity|exact H4].
    + destruct (report_ok _ xs x ys pos P H) as (cur & line & row & l & r & H1 & H2 & H3 & H4); [intros _ K; apply A, N, K|].
      eexists. split; [exact H3|]. right. split; [reflexivity|]. split; [intros _; exact A|].
      rewrite E in H2. exists cur, line, row, l, r. split; [exact H1|]. split; [exact H2|]. split; [reflexivity|exact H4].
  - exists []. split; [reflexivity|]. left. split; [left; reflexivity|reflexivity].
Qed.

(* ---- the reads without their messages ---- *)
Section Forget.
  Variable st : cfg.
  Variable parse : list Z -> option real.
  Variable file : list Z.
  Variable seekable : bool.
  Definition within (s : list Z) : Prop := alen s <= alen file.
  (* the same read, which does not go back *)
  Definition mirrors {A} (m : mrd A) (r : rd A) : Prop :=
    forall s, within s -> forget (m s) = r s /\ forall a s', m s = MRet a s' -> within s'.
  Lemma mirror_ret : forall A (a : A), mirrors (mret a) (rret a).
  Proof. intros A a s W. split; [reflexivity|]. intros b s' E. inv E. exact W. Qed.
  Lemma mirror_bind : forall A B (m : mrd A) (r : rd A) (f : A -> mrd B) g, mirrors m r -> (forall a, mirrors (f a) (g a)) ->
    mirrors (mbind m f) (rbind r g).
  Proof.
    intros A B m r f g H K s W. unfold mbind, rbind. destruct (H s W) as [E R]. rewrite <- E.
    destruct (m s) as [a s'|c t|]; cbn [forget]; [|split; [reflexivity|discriminate]..].
    apply K. exact (R a s' eq_refl).
  Qed.
  Lemma mirror_fail_at : forall A msg s, within s -> forget (@mfail st file seekable A msg s) = Exit (onFail st).
  Proof.
    intros A msg s W. unfold mfail. unfold within in W. pose proof (alen_pos _ s).
    assert (exists t, report file (if seekable then Some (alen file - alen s) else None) = Ok t) as [t ->]; [|reflexivity].
    destruct seekable; [apply report_total; lia|exists []; reflexivity].
  Qed.
  Lemma mirror_no_ret : forall A msg s (a : A) s', mfail st file seekable msg s = MRet a s' -> False.
  Proof. intros A msg s a s'. unfold mfail. destruct (report _ _); discriminate. Qed.
  Lemma mirror_fail : forall A msg, mirrors (@mfail st file seekable A msg) (fail st).
  Proof. intros A msg s W. split; [apply mirror_fail_at; exact W|]. intros a s' E. apply mirror_no_ret in E. destruct E. Qed.
  Lemma mirror_if : forall A (b : bool) (m m' : mrd A) r r', mirrors m r -> mirrors m' r' -> mirrors (if b then m else m') (if b then r else r').
  Proof. intros. destruct b; assumption. Qed.
  Lemma mirror_lift : forall A (x : outcome A), mirrors (mlift x) (rlift x).
  Proof. intros A x s W. unfold mlift, rlift. destruct x; (split; [reflexivity|]); intros b s' E; inv E. exact W. Qed.
  Lemma skip_within : forall s, within s -> within (skipWs s).
  Proof. intros s. unfold within. destruct (skipWs_split s) as (ws & E & _). rewrite E at 1. rewrite alen_app. pose proof (alen_pos _ ws). lia. Qed.
  Lemma mirror_skip : mirrors (mskip st) (skip st).
  Proof.
    intros s W. unfold mskip, skip. split; [reflexivity|]. intros a s' E. inv E. destruct (spaceSensitive st); [exact W|apply skip_within, W].
  Qed.
  Lemma tail_within : forall c s, within (c :: s) -> within s.
  Proof. intros c s. unfold within. rewrite alen_cons. lia. Qed.
  Lemma mirror_eof : mirrors (meof st file seekable) (eof st).
  Proof.
    apply mirror_bind; [apply mirror_skip|]. intros _ s W. destruct s as [|c s].
    - split; [reflexivity|]. intros a s' E. inv E. exact W.
    - split; [apply mirror_fail_at, (tail_within c), W|]. intros a s' E. apply mirror_no_ret in E. destruct E.
  Qed.
  Lemma mirror_noteof : mirrors (mnoteof st) (noteof st).
  Proof.
    apply mirror_bind; [apply mirror_skip|]. intros _ s W. destruct s as [|c s]; (split; [reflexivity|]); intros a s' E; inv E. exact W.
  Qed.
  Lemma mirror_getChar : forall c msg, mirrors (mgetChar st file seekable c msg) (getChar st c).
  Proof.
    intros c msg s W. unfold mgetChar, getChar. destruct s as [|x s]; [apply mirror_fail; exact W|]. pose proof (tail_within _ _ W) as K.
    destruct (x =? c); [split; [reflexivity|]; intros a s' E; inv E; exact K|].
    split; [apply mirror_fail_at; exact K|]. intros a s' E. apply mirror_no_ret in E. destruct E.
  Qed.
  Lemma mirror_space : mirrors (mspace st file seekable) (space st).
  Proof. unfold mspace, space. apply mirror_if; [apply mirror_bind; [apply mirror_noteof|intro; apply mirror_getChar]|apply mirror_ret]. Qed.
  Lemma mirror_newline : mirrors (mnewline st file seekable) (newline st).
  Proof. unfold mnewline, newline. apply mirror_if; [apply mirror_bind; [apply mirror_noteof|intro; apply mirror_getChar]|apply mirror_ret]. Qed.
  Lemma mirror_check : forall t p, mirrors (mcheck st file seekable t p) (check st t p).
  Proof. intros. apply mirror_if; [apply mirror_fail|apply mirror_ret]. Qed.
  Lemma mirror_string : mirrors (mstring st file seekable) (string st).
  Proof.
    apply mirror_bind; [apply mirror_noteof|]. intros _ s W.
    destruct (spaceSensitive st && negb (isgraphPeek s)).
    - split; [apply mirror_fail_at|]; [destruct s as [|c s]; [exact W|apply (tail_within c), W]|]. intros a s' E. apply mirror_no_ret in E. destruct E.
    - assert (K : within (if spaceSensitive st then s else skipWs s)) by (destruct (spaceSensitive st); [exact W|apply skip_within, W]).
      revert K. generalize (if spaceSensitive st then s else skipWs s). intros u K. cbv zeta.
      destruct (takeToken_split u) as (E & _). destruct (takeToken u) as [|c t]; (split; [reflexivity|]); intros a s' R; inv R.
      unfold within in *. rewrite E, alen_app in K. pose proof (alen_pos _ (c :: t)). lia.
  Qed.
  Lemma mirror_stringLen : forall l u, mirrors (mstringLen st file seekable l u) (stringLen st l u).
  Proof. intros. apply mirror_bind; [apply mirror_string|]. intro. apply mirror_if; [apply mirror_fail|apply mirror_ret]. Qed.
  Lemma mirror_stringRe : forall p, mirrors (mstringRe st file seekable p) (stringRe st p).
  Proof. intros. apply mirror_bind; [apply mirror_string|]. intro. apply mirror_bind; [apply mirror_check|intro; apply mirror_ret]. Qed.
  Lemma mirror_stringReLen : forall p l u, mirrors (mstringReLen st file seekable p l u) (stringReLen st p l u).
  Proof. intros. apply mirror_bind; [apply mirror_stringLen|]. intro. apply mirror_bind; [apply mirror_check|intro; apply mirror_ret]. Qed.
  Lemma mirror_many : forall A (m : mrd A) r count sep, mirrors m r -> mirrors (mmany st file seekable m count sep) (many st r count sep).
  Proof.
    intros A m r count sep H. unfold mmany, many, mcheckSeparator, checkSeparator.
    assert (K : forall n sm sr, mirrors sm sr -> mirrors (mrepeat n m sm) (repeatRead n r sr)).
    { intros n sm sr S. induction n as [|n IH]; [apply mirror_ret|]. cbn [mrepeat repeatRead]. apply mirror_bind; [exact H|]. intro x.
      apply mirror_bind; [destruct n; [apply mirror_ret|exact S]|]. intro. apply mirror_bind; [exact IH|intro; apply mirror_ret]. }
    assert (R : mirrors (fun _ => @MRaise (list A)) (fun _ => Raise)) by (intros s W; split; [reflexivity|discriminate]).
    destruct (sep =? 32); [|destruct (sep =? 10)]; [destruct (count <? 0); [exact R|apply K, mirror_space]|destruct (count <? 0); [exact R|apply K, mirror_newline]|exact R].
  Qed.
  Lemma mirror_integer : mirrors (minteger st file seekable) (integer st).
  Proof. apply mirror_bind; [apply mirror_stringRe|]. intro t. unfold mparse. destruct (parseInteger t); [apply mirror_ret|apply mirror_fail]. Qed.
  Lemma mirror_integerIn : forall l u, mirrors (mintegerIn st file seekable l u) (integerIn st l u).
  Proof. intros. apply mirror_bind; [apply mirror_integer|]. intro. apply mirror_if; [apply mirror_fail|apply mirror_ret]. Qed.
  Lemma mirror_real : mirrors (mreal st parse file seekable) (readReal st parse).
  Proof. apply mirror_bind; [apply mirror_stringRe|]. intro t. unfold mparse. destruct (parse t); [apply mirror_ret|apply mirror_fail]. Qed.
  Lemma mirror_realIn : forall l u, mirrors (mrealIn st parse file seekable l u) (realIn st parse l u).
  Proof.
    intros. apply mirror_bind; [apply mirror_real|]. intro v. apply mirror_bind; [apply mirror_lift|]. intro. apply mirror_if; [apply mirror_ret|].
    apply mirror_bind; [apply mirror_lift|]. intro. apply mirror_if; [apply mirror_ret|]. apply mirror_if; [apply mirror_fail|apply mirror_ret].
  Qed.
  Lemma mirror_realStrict : forall l u a b, mirrors (mrealStrict st parse file seekable l u a b) (realStrict st parse l u a b).
  Proof.
    intros. apply mirror_bind; [apply mirror_stringRe|]. intro t. cbv zeta. apply mirror_if; [apply mirror_fail|].
    unfold mparse. destruct (parse t) as [v|].
    - intros s W. change (mbind (mret v) ?f s) with (f v s). cbv beta. revert s W. apply mirror_if; [apply mirror_fail|apply mirror_ret].
    - intros s W. destruct (mirror_fail real (noParse t) s W) as [E R]. unfold mbind. unfold noParse in E, R.
      destruct (mfail _ _ _ _ s) eqn:M; [apply mirror_no_ret in M; destruct M|(split; [exact E|discriminate])..].
  Qed.
  Lemma mirror_expectString : forall e, mirrors (mexpectString st file seekable e) (expectString st e).
  Proof.
    intro e. unfold mexpectString, expectString. apply mirror_if; [intros s W; split; [reflexivity|discriminate]|].
    apply mirror_bind; [apply mirror_string|]. intro t. intros s W. unfold mbind, mlift, expectMessage.
    destruct (stringEqual_ok t e (caseSensitive st)) as [(-> & F)|(k & -> & K1 & K2 & F & N & _)]; cbn [fst negb bind]; [apply mirror_ret, W|].
    destruct (format_ok (Z.of_nat k) e ltac:(lia)) as (a & -> & _). destruct (format_ok (Z.of_nat k) t ltac:(lia)) as (b & -> & _). cbn [bind].
    apply mirror_fail, W.
  Qed.
  Lemma mirror_expectInt : forall e, mirrors (mexpectInt st file seekable e) (expectInt st e).
  Proof. intros. apply mirror_bind; [apply mirror_integer|]. intro. apply mirror_if; [apply mirror_fail|apply mirror_ret]. Qed.
  Lemma mirror_expectReal : forall e, mirrors (mexpectReal st parse file seekable e) (expectReal st parse e).
  Proof.
    intros. apply mirror_bind; [apply mirror_real|]. intro. apply mirror_bind; [apply mirror_lift|]. intro.
    apply mirror_if; [apply mirror_fail|apply mirror_ret].
  Qed.

  (* ---- reading at the next word ---- *)
  Lemma word_file : forall b s before raw after, nextWord b file s before raw after -> file = before ++ raw ++ after /\ within s.
  Proof.
    intros b s before raw after (pre & ws & F & -> & -> & _). split; [rewrite F, <- app_assoc; reflexivity|].
    unfold within. rewrite F, !alen_app. pose proof (alen_pos _ pre). lia.
  Qed.
  Lemma word_string : forall s before raw after, nextWord (spaceSensitive st) file s before raw after ->
    mstring st file seekable s = MRet (folded (caseSensitive st) raw) after.
  Proof.
    intros s before raw after H. destruct (mirror_string s (proj2 (word_file _ _ _ _ _ H))) as [E _].
    destruct H as (pre & ws & F & S & B & W & Q & _ & P & T).
    assert (N : string st s = Ret (folded (caseSensitive st) raw) after).
    { apply string_spec. exists raw. split; [|reflexivity]. exists ws. split; [exact S|]. split; [exact W|]. split; [apply P|]. split; [exact T|].
      intro K. split; [apply Q, K|exact P]. }
    rewrite N in E. destruct (mstring st file seekable s); cbn in E; inv E. reflexivity.
  Qed.
  Lemma word_fail : forall A s before raw after msg (P : list Z -> Prop), nextWord (spaceSensitive st) file s before raw after -> P msg ->
    exists said, @mfail st file seekable A msg after = MExit (onFail st) said /\ complaint seekable before raw after P said.
  Proof.
    intros A s before raw after msg P H Y. destruct (word_file _ _ _ _ _ H) as [F _]. destruct H as (_ & _ & _ & _ & _ & _ & _ & B & R & T).
    pose proof (alen_pos _ before). assert (0 < alen raw) by (destruct R as [[N _] _]; destruct raw; [congruence|rewrite alen_cons; pose proof (alen_pos _ raw); lia]).
    destruct (report_located seekable before raw after (alen before + alen raw) (splits_word _ _ _ B R T)) as (loc & L & K); [lia|].
    exists (msg ++ loc ++ [10]). split; [|exists msg, loc; auto]. unfold mfail. rewrite F at 2. rewrite !alen_app.
    replace (alen before + (alen raw + alen after) - alen after) with (alen before + alen raw) by lia. rewrite F, L. reflexivity.
  Qed.
  (* the outcome of a read whose next word is raw *)
  Notation answers := (MsgSpec.answers (onFail st) seekable).
  Section Word.
    Variables s before raw after : list Z.
    Hypothesis word : nextWord (spaceSensitive st) file s before raw after.
    Let t := folded (caseSensitive st) raw.
    Lemma answer_ret : forall A (a : A) (good : A -> Prop) bad, good a -> answers (mret a after) before raw after good bad.
    Proof. intros. left. exists a. split; [reflexivity|assumption]. Qed.
    Lemma answer_fail : forall A msg (good : A -> Prop) (bad : list Z -> Prop), bad msg -> answers (mfail st file seekable msg after) before raw after good bad.
    Proof. intros A msg good bad H. right. apply (word_fail A s before raw after msg bad word H). Qed.
    Lemma answer_bind : forall A B (m : mrd A) (f : A -> mrd B) good bad (good' : B -> Prop) (bad' : list Z -> Prop),
      answers (m s) before raw after good bad -> (forall msg, bad msg -> bad' msg) ->
      (forall a, good a -> answers (f a after) before raw after good' bad') -> answers (mbind m f s) before raw after good' bad'.
    Proof.
      intros A B m f good bad good' bad' [(a & E & G)|(said & E & msg & loc & P & L & ->)] K F; unfold mbind; rewrite E.
      - apply F, G.
      - right. eexists. split; [reflexivity|]. exists msg, loc. auto.
    Qed.
    Lemma answer_re : forall p, answers (mstringRe st file seekable p s) before raw after (fun a => a = t /\ lang p t) (fun msg => ~ lang p t /\ msg = noMatch t).
    Proof.
      intro p. unfold mstringRe. unfold mbind at 1. rewrite (word_string _ _ _ _ word). unfold mcheck. fold t.
      destruct (regex_match t p) eqn:M; cbn [negb].
      - apply answer_ret. split; [reflexivity|]. apply regex_match_lang, M.
      - unfold mbind. destruct (answer_fail unit (noMatch t) (fun _ => False) (fun msg => ~ lang p t /\ msg = noMatch t)) as [(a & _ & [])|(said & E & C)].
        + split; [|reflexivity]. intro L. apply regex_match_lang in L. congruence.
        + unfold noMatch in E. rewrite E. right. exists said. split; [reflexivity|exact C].
    Qed.
    Lemma answer_string : forall p l u, is_i64 l -> is_i64 u -> is_i64 (alen t) ->
      answers (mstringReLen st file seekable p l u s) before raw after (fun a => a = t /\ l <= alen t < u /\ lang p t) (notFitting t p l u).
    Proof.
      intros p l u L U T. unfold mstringReLen. apply (answer_bind _ _ _ _ (fun a => a = t /\ l <= alen t < u) (notFitting t p l u)); [|auto|].
      - unfold mstringLen, mbind. rewrite (word_string _ _ _ _ word). fold t. destruct ((alen t <? l) || (u <=? alen t)) eqn:R.
        + apply answer_fail. apply fit_length; [lia|apply show_decimal; assumption..].
        + apply answer_ret. split; [reflexivity|lia].
      - intros a [-> R]. unfold mcheck. destruct (regex_match t p) eqn:M; cbn [negb].
        + apply answer_ret. split; [reflexivity|]. split; [exact R|]. apply regex_match_lang, M.
        + unfold mbind. destruct (answer_fail unit (noMatch t) (fun _ => False) (notFitting t p l u)) as [(a & _ & [])|(said & E & C)].
          * apply fit_pattern; [exact R|]. intro K. apply regex_match_lang in K. congruence.
          * unfold noMatch in E. rewrite E. right. exists said. split; [reflexivity|exact C].
    Qed.
    Lemma answer_integer : answers (minteger st file seekable s) before raw after (fun v => decimalOf t v /\ is_i64 v) (noInteger t).
    Proof.
      unfold minteger. eapply answer_bind; [apply answer_re| |].
      - cbv beta. intros msg [N ->]. apply int_form. intros v D. apply N. apply regex_match_lang, integer_regex.
        destruct D as (ds & C & [[-> _]|(-> & V & W)]); exists ds; (split; [exact C|]); [left; reflexivity|right; split; [reflexivity|]].
        intros ->. apply W. rewrite V. reflexivity.
      - intros a [-> L]. apply regex_match_lang in L. unfold mparse. destruct (parseInteger t) as [v|] eqn:P.
        + apply answer_ret. apply integer_token_value. auto.
        + apply answer_fail. pose proof L as I. apply integer_regex in I as (ds & C & D).
          assert (exists v, decimalOf t v) as [v V]. { destruct D as [E|[E N]]; [exists (value ds), ds; auto|exists (- value ds), ds; split; [exact C|right; split; [exact E|split; [reflexivity|]]]].
            intro Z0. apply N. apply canonical_inj; [exact C| |].
            - split; [repeat constructor; unfold digit; lia|left; reflexivity].
            - change (value [0]) with 0. lia. }
          apply (int_size _ v V). intro I. destruct (proj2 (integer_token_value t v) (conj V I)) as [_ K]. congruence.
    Qed.
    Lemma answer_integerIn : forall l u, is_i64 l -> is_i64 u ->
      answers (mintegerIn st file seekable l u s) before raw after (fun v => decimalOf t v /\ l <= v < u) (notInRange t l u).
    Proof.
      intros l u L U. unfold mintegerIn. eapply answer_bind; [apply answer_integer|apply range_integer|].
      intros v [D I]. destruct ((v <? l) || (u <=? v)) eqn:R.
      - apply answer_fail. assert (showInteger v = t) as -> by (apply (decimal_unique v); [apply show_decimal, I|exact D]).
        apply (range_outside _ _ _ v); [exact D|exact I|lia|apply show_decimal; assumption..].
      - apply answer_ret. split; [exact D|lia].
    Qed.
    Lemma answer_expectInt : forall e, is_i64 e ->
      answers (mexpectInt st file seekable e s) before raw after (fun _ => decimalOf t e) (notExpected t e).
    Proof.
      intros e E. unfold mexpectInt. eapply answer_bind; [apply answer_integer|apply expected_integer|].
      intros v [D I]. destruct (Z.eqb_spec v e) as [->|N]; cbn [negb].
      - apply answer_ret, D.
      - apply answer_fail. assert (showInteger v = t) as -> by (apply (decimal_unique v); [apply show_decimal, I|exact D]).
        apply (expected_other _ _ v); [exact D|exact I|exact N|apply show_decimal, E].
    Qed.
    Lemma answer_real : answers (mreal st parse file seekable s) before raw after (fun v => realToken t /\ parse t = Some v) (noReal parse t).
    Proof.
      unfold mreal. eapply answer_bind; [apply answer_re| |].
      - cbv beta. intros msg [N ->]. apply real_form. intro R. apply N. apply regex_match_lang, (real_regex parse), R.
      - intros a [-> L]. apply regex_match_lang, (real_regex parse) in L. unfold mparse. destruct (parse t) as [v|] eqn:P.
        + apply answer_ret. auto.
        + apply answer_fail. apply real_size; auto.
    Qed.
    Lemma beyond_iff : forall l u v, isnan v || negb (SFleb l v) || negb (SFltb v u) = true <-> beyond l u v.
    Proof.
      intros l u v. unfold beyond. split.
      - intros H [A B]. rewrite A, B in H. cbn in H. rewrite !orb_false_r in H. destruct v; try discriminate; destruct l as [[]|[]| |[]]; discriminate.
      - intro H. destruct (SFleb l v); [|rewrite orb_true_r; reflexivity]. destruct (SFltb v u); [|rewrite orb_true_r; reflexivity]. destruct H. auto.
    Qed.
    Notation near := (MsgSpec.near st).
    Lemma answer_realIn : forall l u, goodTol (floatAbsTol st) -> goodTol (floatRelTol st) ->
      answers (mrealIn st parse file seekable l u s) before raw after
        (fun v => realToken t /\ parse t = Some v /\ (near v l \/ near v u \/ ~ beyond l u v)) (notRealIn parse near t l u).
    Proof.
      intros l u A R. unfold mrealIn. eapply answer_bind; [apply answer_real|apply realin_real|].
      intros v [T P]. unfold mbind at 1, mlift at 1. destruct (floatEqual_total v l _ _ A R) as (b & E). rewrite E. destruct b.
      { apply answer_ret. split; [exact T|]. split; [exact P|left; exact E]. }
      unfold mbind, mlift. destruct (floatEqual_total v u _ _ A R) as (b & F). rewrite F. destruct b.
      { apply answer_ret. split; [exact T|]. split; [exact P|right; left; exact F]. }
      destruct (isnan v || negb (SFleb l v) || negb (SFltb v u)) eqn:B.
      - apply answer_fail. apply realin_outside; [exact T|exact P|unfold MsgSpec.near; congruence..|apply beyond_iff, B].
      - apply answer_ret. split; [exact T|]. split; [exact P|right; right]. intro K. apply beyond_iff in K. congruence.
    Qed.
    Lemma answer_realStrict : forall l u a b,
      answers (mrealStrict st parse file seekable l u a b s) before raw after
        (fun v => exists k, strictReal t k /\ a <= k < b /\ parse t = Some v /\ ~ beyond l u v) (notStrict parse t l u a b).
    Proof.
      intros l u a b. unfold mrealStrict. eapply answer_bind; [apply answer_re| |].
      - cbv beta. intros msg [N ->]. apply strict_form. intros k S. apply N. apply regex_match_lang, strict_regex. eauto.
      - intros x [-> L]. apply regex_match_lang, strict_regex in L as [k S]. cbv zeta. fold (decimalsOf t). rewrite (strict_decimals t k S).
        destruct ((k <? a) || (b <=? k)) eqn:D.
        { apply answer_fail. apply (strict_decimals_wrong _ _ _ _ _ _ k); [exact S|lia]. }
        unfold mparse, mbind. destruct (parse t) as [v|] eqn:P.
        + unfold mret at 1. destruct (isnan v || negb (SFleb l v) || negb (SFltb v u)) eqn:B.
          * apply answer_fail. apply (strict_outside _ _ _ _ _ _ k); [exact S|lia|exact P|apply beyond_iff, B].
          * apply answer_ret. exists k. split; [exact S|]. split; [lia|]. split; [reflexivity|]. intro K. apply beyond_iff in K. congruence.
        + destruct (answer_fail real (noParse t) (fun _ => False) (notStrict parse t l u a b)) as [(y & _ & [])|(said & E & C)].
          * apply (strict_size _ _ _ _ _ _ k); [exact S|lia|exact P].
          * unfold noParse in E. rewrite E. right. exists said. split; [reflexivity|exact C].
    Qed.
    Lemma answer_expectString : forall e, token e ->
      answers (mexpectString st file seekable e s) before raw after (fun _ => Forall2 (eqChar (caseSensitive st)) t e)
        (fun msg => ~ Forall2 (eqChar (caseSensitive st)) t e /\ expectMessage t e (caseSensitive st) = Ok (Some msg)).
    Proof.
      intros e T. unfold mexpectString. rewrite (proj2 (isToken_iff e) T). cbn [negb]. unfold mbind, mlift. rewrite (word_string _ _ _ _ word). fold t.
      destruct (expect_ok t e (caseSensitive st)) as [(E & F)|(pos & a & b & E & F & _)]; rewrite E.
      - apply answer_ret, F.
      - apply answer_fail. auto.
    Qed.
    Lemma answer_expectReal : forall e, goodTol (floatAbsTol st) -> goodTol (floatRelTol st) ->
      answers (mexpectReal st parse file seekable e s) before raw after (fun _ => exists v, realToken t /\ parse t = Some v /\ ~ near v e)
        (fun msg => noReal parse t msg \/ exists v more, realToken t /\ parse t = Some v /\ near v e /\
          msg = text "Expected " ++ putReal e ++ text " but got " ++ putReal v ++ text "!" ++ more /\
          (isfinite v && isfinite e = false /\ more = [] \/
             isfinite v && isfinite e = true /\ more = text " (abs: " ++ putReal (SFabs (rsub v e)) ++ text ", rel: " ++ putReal (SFabs (rdiv (rsub v e) e)) ++ text ")")).
    Proof.
      intros e A R. unfold mexpectReal. eapply answer_bind; [apply answer_real|cbv beta; auto|].
      intros v [T P]. unfold mbind, mlift. destruct (floatEqual_total v e _ _ A R) as (b & E). rewrite E. destruct b.
      - apply answer_fail. right. exists v. eexists. split; [exact T|]. split; [exact P|]. split; [exact E|]. split.
        + unfold expectedGot. rewrite <- !app_assoc. reflexivity.
        + destruct (isfinite v && isfinite e); [right|left]; split; reflexivity.
      - apply answer_ret. exists v. split; [exact T|]. split; [exact P|]. unfold MsgSpec.near. congruence.
    Qed.
  End Word.

  (* ---- the other complaints ---- *)
  Lemma splits_part : forall before c after, ~ graphic c -> wordStart before \/ whitespace c -> splits before [c] after.
  Proof.
    intros before c after G W. destruct (parts_total before) as [xs X]. destruct (parts_total after) as [ys Y]. exists xs, ys.
    split; [|split; symmetry; apply parts_concat; assumption].
    apply parts_app; [exact X|apply parts_char; assumption|]. destruct W; auto.
  Qed.
  Lemma char_fail : forall A before c x y after msg, file = before ++ ((c :: x) ++ y) ++ after -> splits before ((c :: x) ++ y) after ->
    exists said, @mfail st file seekable A msg (y ++ after) = MExit (onFail st) said /\ complaint seekable before ((c :: x) ++ y) after (eq msg) said.
  Proof.
    intros A before c x y after msg F S. pose proof (alen_pos _ before). pose proof (alen_pos _ x). pose proof (alen_pos _ y).
    destruct (report_located seekable before ((c :: x) ++ y) after (alen before + alen (c :: x)) S) as (loc & L & K); [rewrite alen_app, alen_cons; lia|].
    exists (msg ++ loc ++ [10]). split; [|exists msg, loc; auto]. unfold mfail. rewrite F at 2. rewrite !alen_app.
    replace (alen before + (alen (c :: x) + alen y + alen after) - (alen y + alen after)) with (alen before + alen (c :: x)) by lia.
    rewrite F, L. reflexivity.
  Qed.
  (* a wrong character where a separator should be *)
  Lemma wrong_separator : forall before c y after, spaceSensitive st = true -> file = before ++ (c :: y) ++ after ->
    (wordStart before /\ plainToken (c :: y) /\ endsToken after) \/ (y = [] /\ whitespace c) ->
    (c <> 32 -> exists said, mspace st file seekable (c :: y ++ after) = MExit (onFail st) said /\
       complaint seekable before (c :: y) after (eq (text "Missing space!")) said) /\
    (c <> 10 -> exists said, mnewline st file seekable (c :: y ++ after) = MExit (onFail st) said /\
       complaint seekable before (c :: y) after (eq (text "Missing newline!")) said) /\
    (exists said, meof st file seekable (c :: y ++ after) = MExit (onFail st) said /\
       complaint seekable before (c :: y) after (eq (text "Missing EOF!")) said).
  Proof.
    intros before c y after SS F W.
    assert (S : splits before ((c :: []) ++ y) after) by (destruct W as [(B & P & T)|(-> & W)]; [apply splits_word; assumption|apply splits_char, W]).
    assert (K : forall msg, exists said, @mfail st file seekable unit msg (y ++ after) = MExit (onFail st) said /\ complaint seekable before (c :: y) after (eq msg) said).
    { intro msg. apply (char_fail unit before c [] y after msg F S). }
    unfold mspace, mnewline, meof, mnoteof, mskip, mbind, mgetChar. rewrite SS.
    split; [|split]; [intro N; apply Z.eqb_neq in N; rewrite N; apply K..|apply K].
  Qed.
  (* text behind the end, when white space does not count *)
  Lemma late_text : forall s before raw after, spaceSensitive st = false -> nextWord false file s before raw after ->
    exists said, meof st file seekable s = MExit (onFail st) said /\ complaint seekable before raw after (eq (text "Missing EOF!")) said.
  Proof.
    intros s before raw after SS (pre & ws & F & -> & -> & W & _ & B & P & T). destruct raw as [|c y]; [destruct P as [[N _] _]; congruence|].
    unfold meof, mskip, mbind. rewrite SS.
    assert (skipWs (ws ++ (c :: y) ++ after) = (c :: y) ++ after) as ->.
    { rewrite skipWs_app by exact W. apply skipWs_id, P. }
    cbn [app]. apply (char_fail unit (pre ++ ws) c [] y after); [rewrite F, <- app_assoc; reflexivity|apply splits_word; assumption].
  Qed.
  (* white space where a token should be *)
  Lemma wrong_space : forall before c after, spaceSensitive st = true -> file = before ++ [c] ++ after -> ~ graphic c -> wordStart before \/ whitespace c ->
    exists said, mstring st file seekable (c :: after) = MExit (onFail st) said /\
      complaint seekable before [c] after (eq (text "Invalid whitespace!")) said.
  Proof.
    intros before c after SS F G W. unfold mstring, mnoteof, mskip, mbind. rewrite SS, (isgraph_false c after G). cbn [andb negb tl].
    apply (char_fail _ before c [] [] after _ F). apply (splits_part before c after G W).
  Qed.
  (* the end of the file where something should be *)
  Lemma nothing_left : forall s, Forall whitespace s -> (spaceSensitive st = true -> s = []) ->
    let said := text "Unexpected EOF!" ++ [10] in
    mnoteof st s = MExit (onFail st) said /\ mstring st file seekable s = MExit (onFail st) said /\ minteger st file seekable s = MExit (onFail st) said /\
    mreal st parse file seekable s = MExit (onFail st) said /\ (spaceSensitive st = true -> mspace st file seekable s = MExit (onFail st) said /\ mnewline st file seekable s = MExit (onFail st) said).
  Proof.
    intros s W S said. assert (E : (if spaceSensitive st then s else skipWs s) = []).
    { destruct (spaceSensitive st); [auto|]. rewrite <- (app_nil_r s), skipWs_app by exact W. reflexivity. }
    assert (N : mnoteof st s = MExit (onFail st) said) by (unfold mnoteof, mskip, mbind; rewrite E; reflexivity).
    assert (M : mstring st file seekable s = MExit (onFail st) said) by (unfold mstring; unfold mbind at 1; rewrite N; reflexivity).
    split; [exact N|]. split; [exact M|]. unfold minteger, mreal, mstringRe, mspace, mnewline. unfold mbind. rewrite M.
    split; [reflexivity|]. split; [reflexivity|]. intro Q. rewrite Q. cbv beta iota. rewrite N. split; reflexivity.
  Qed.
  (* the first bad entry of a list *)
  Lemma first_bad : forall sep l u bad after, is_i64 l -> is_i64 u -> spaceSensitive st = true -> sep = 32 \/ sep = 10 ->
    plainToken bad -> endsToken after -> (forall v, ~ (decimalOf (folded (caseSensitive st) bad) v /\ l <= v < u)) ->
    forall good before count, Forall (fun t => exists v, decimalOf t v /\ l <= v < u) good -> wordStart before ->
    file = before ++ concat (map (fun t => t ++ [sep]) good) ++ bad ++ after -> alen good < count ->
    exists said, mmany st file seekable (mintegerIn st file seekable l u) count sep (concat (map (fun t => t ++ [sep]) good) ++ bad ++ after) = MExit (onFail st) said /\
      complaint seekable (before ++ concat (map (fun t => t ++ [sep]) good)) bad after (notInRange (folded (caseSensitive st) bad) l u) said.
  Proof.
    intros sep l u bad after L U SS SEP P T BAD good before count G B F C. unfold mmany, mcheckSeparator.
    set (item := mintegerIn st file seekable l u).
    assert (K : forall sepCall, (forall x, sepCall (sep :: x) = match x with _ => MRet tt x end) -> forall good before n, Forall (fun t => exists v, decimalOf t v /\ l <= v < u) good -> wordStart before ->
      file = before ++ concat (map (fun t => t ++ [sep]) good) ++ bad ++ after -> (length good < n)%nat ->
      exists said, mrepeat n item sepCall (concat (map (fun t => t ++ [sep]) good) ++ bad ++ after) = MExit (onFail st) said /\
      complaint seekable (before ++ concat (map (fun t => t ++ [sep]) good)) bad after (notInRange (folded (caseSensitive st) bad) l u) said).
    { clear good before count G B F C. intros sepCall HS good. induction good as [|t good IH]; intros before n G B F C; (destruct n as [|n]; [cbn in C; lia|]).
      - cbn [map concat app] in *. rewrite app_nil_r. cbn [mrepeat]. unfold mbind at 1.
        assert (NW : nextWord (spaceSensitive st) file (bad ++ after) before bad after).
        { exists before, []. rewrite app_nil_r. split; [exact F|]. split; [reflexivity|]. split; [reflexivity|]. split; [constructor|]. split; [reflexivity|]. auto. }
        destruct (answer_integerIn _ _ _ _ NW l u L U) as [(v & E & V)|(said & E & Q)]; [exfalso; apply (BAD v); tauto|].
        fold item in E. rewrite E. exists said. auto.
      - cbn [map concat] in *. destruct (Forall_inv G) as [v V]. pose proof (Forall_inv_tail G) as G'. rewrite <- !app_assoc in *. cbn [app] in *.
        assert (PT : plainToken t) by (apply (decimal_plain t v), V).
        set (rest := concat (map (fun t => t ++ [sep]) good) ++ bad ++ after) in *.
        assert (NW : nextWord (spaceSensitive st) file (t ++ sep :: rest) before t (sep :: rest)).
        { exists before, []. rewrite app_nil_r. split; [exact F|]. split; [reflexivity|]. split; [reflexivity|]. split; [constructor|]. split; [reflexivity|].
          split; [exact B|]. split; [exact PT|]. cbn. unfold whitespace. lia. }
        assert (FT : folded (caseSensitive st) t = t) by (apply numeric_fold, (decimal_numeric t v), V).
        cbn [mrepeat]. unfold mbind at 1. destruct (answer_integerIn _ _ _ _ NW l u L U) as [(w & E & W)|(said & E & (msg & loc & Q & _))].
        2:{ exfalso. rewrite FT in Q. destruct V as [V R]. destruct Q as [msg [Q|w D I]|w tl tu D I Q _ _].
            - apply (Q v V).
            - apply I. rewrite (decimal_value_unique _ _ _ D V). unfold is_i64 in *. lia.
            - apply Q. rewrite (decimal_value_unique _ _ _ D V). exact R. }
        fold item in E. rewrite E. destruct n as [|n]; [cbn in C; lia|]. unfold mbind at 1. rewrite HS. unfold mbind at 1.
        destruct (IH (before ++ t ++ [sep]) (S n) G') as (said & M & Q); [|rewrite F, <- !app_assoc; reflexivity|cbn in C; lia|].
        + right. exists (before ++ t), sep. rewrite app_assoc. split; [reflexivity|]. unfold whitespace. lia.
        + fold rest in M. rewrite M. exists said. split; [reflexivity|]. rewrite <- !app_assoc in Q. exact Q. }
    assert (N : (count <? 0) = false) by (pose proof (alen_pos _ good); lia).
    assert (CN : (length good < Z.to_nat count)%nat) by (unfold alen in C; lia).
    destruct SEP as [-> | ->]; cbn [Z.eqb Pos.eqb]; rewrite N; apply K; auto; intro x; unfold mspace, mnewline, mnoteof, mskip, mbind, mgetChar; rewrite SS; reflexivity.
  Qed.
End Forget.

Lemma forget_all : forall st parse file seekable s, alen s <= alen file ->
  forget (meof st file seekable s) = eof st s /\ forget (mspace st file seekable s) = space st s /\
  forget (mnewline st file seekable s) = newline st s /\ forget (mstring st file seekable s) = string st s /\
  (forall l u, forget (mstringLen st file seekable l u s) = stringLen st l u s) /\
  (forall p, forget (mstringRe st file seekable p s) = stringRe st p s) /\
  (forall p l u, forget (mstringReLen st file seekable p l u s) = stringReLen st p l u s) /\
  forget (minteger st file seekable s) = integer st s /\
  (forall l u, forget (mintegerIn st file seekable l u s) = integerIn st l u s) /\
  forget (mreal st parse file seekable s) = readReal st parse s /\
  (forall l u, forget (mrealIn st parse file seekable l u s) = realIn st parse l u s) /\
  (forall l u a b, forget (mrealStrict st parse file seekable l u a b s) = realStrict st parse l u a b s) /\
  (forall e, forget (mexpectString st file seekable e s) = expectString st e s) /\
  (forall e, forget (mexpectInt st file seekable e s) = expectInt st e s) /\
  (forall e, forget (mexpectReal st parse file seekable e s) = expectReal st parse e s) /\
  (forall l u n sep, forget (mmany st file seekable (mintegerIn st file seekable l u) n sep s) = many st (integerIn st l u) n sep s) /\
  (forall l u n sep, forget (mmany st file seekable (mrealIn st parse file seekable l u) n sep s) = many st (realIn st parse l u) n sep s) /\
  (forall p l u n sep, forget (mmany st file seekable (mstringReLen st file seekable p l u) n sep s) = many st (stringReLen st p l u) n sep s).
Proof.
  intros st parse file seekable s W.
  assert (K : forall A (m : mrd A) r, mirrors file m r -> forget (m s) = r s) by (intros A m r M; exact (proj1 (M s W))).
  repeat match goal with |- _ /\ _ => split end; intros; apply K;
    first [apply mirror_eof|apply mirror_space|apply mirror_newline|apply mirror_stringReLen|apply mirror_stringRe|apply mirror_stringLen|apply mirror_string
      |apply mirror_integerIn|apply mirror_integer|apply mirror_realIn|apply mirror_realStrict|apply mirror_real|apply mirror_expectString|apply mirror_expectInt
      |apply mirror_expectReal|apply mirror_many; first [apply mirror_integerIn|apply mirror_realIn|apply mirror_stringReLen|exact parse]]; exact parse.
Qed.
