(* The example programs against ExampleSpec. *)
From Coq Require Import String.
From Verif Require Import Base Tac SeqModel RegexModel RegexProofs FloatModel InputSpec InputModel InputClient InputProofs InputProofs2 InputProofs3 InputProofs4 ArgsModel InitModel InitSpec InitProofs ExampleModel ExampleSpec.
Open Scope Z_scope.

Lemma nextToken_unique : forall b s w r w' r', nextToken b s w r -> nextToken b s w' r' -> w = w' /\ r = r'.
Proof.
  intros b s w r w' r' H H'. set (c := mkCfg b true 0 S754_nan S754_nan).
  assert (A : string c s = Ret w r) by (apply string_spec; exists w; auto). assert (B : string c s = Ret w' r') by (apply string_spec; exists w'; auto).
  rewrite A in B. inversion B. auto.
Qed.
Lemma decimal_val : forall w v v', decimalOf w v -> decimalOf w v' -> v = v'.
Proof. exact decimal_value_unique. Qed.

Definition ends (sensitive : bool) (r : list Z) : Prop := if sensitive then r = [10] else Forall whitespace r.
Lemma ends_token : forall b r, ends b r -> endsToken r.
Proof. intros [] r H; cbn in H; [subst; cbn; unfold whitespace; lia|]. destruct r; cbn; auto. inversion H; auto. Qed.
Lemma onlyWord_iff : forall b s w, onlyWord b s w <-> exists r, nextToken b s w r /\ ends b r.
Proof.
  intros [] s w; cbn [onlyWord ends].
  - split.
    + intros (P & ->). exists [10]. split; auto. exists []. split; auto. split; auto. split; [apply P|]. split; [cbn; unfold whitespace; lia|auto].
    + intros (r & (ws & -> & _ & _ & _ & K) & ->). destruct (K eq_refl) as (-> & P). auto.
  - split.
    + intro H. inversion H as [|ws t s' ts W T E R]; subst. inversion R; subst. exists s'. split; auto. exists ws. split; auto. split; auto. split; auto. split; auto. discriminate.
    + intros (r & (ws & -> & W & T & E & _) & R). constructor; auto. constructor. auto.
Qed.
Lemma onlyWord_first : forall b s w, onlyWord b s w -> firstWord b s w.
Proof. intros b s w H. apply onlyWord_iff in H as (r & H & _). exists r. auto. Qed.
Lemma onlyWord_unique : forall b s w r w', onlyWord b s w -> nextToken b s w' r -> w' = w /\ ends b r.
Proof. intros b s w r w' H N. apply onlyWord_iff in H as (r' & H & E). destruct (nextToken_unique _ _ _ _ _ _ H N). subst. auto. Qed.
Lemma firstWord_unique : forall b s w w', firstWord b s w -> firstWord b s w' -> w = w'.
Proof. intros b s w w' (r & H) (r' & H'). eapply (nextToken_unique _ _ _ _ _ _ H H'). Qed.
Lemma firstInteger_unique : forall b s v v', firstInteger b s v -> firstInteger b s v' -> v = v'.
Proof. intros b s v v' (w & F & D & _) (w' & F' & D' & _). rewrite (firstWord_unique _ _ _ _ F' F) in D'. eapply decimal_val; eauto. Qed.

Lemma chars_text : forall s, chars s = text s. Proof. reflexivity. Qed.
Lemma equal_iff : forall a b cs, fst (stringEqual a b cs) = true <-> same cs a b.
Proof. intros. apply stringEqualFrom_iff. Qed.
Lemma equal_dec : forall a b cs, same cs a b \/ ~ same cs a b.
Proof. intros. destruct (fst (stringEqual a b cs)) eqn:E; [left; apply equal_iff; auto|right; rewrite <- equal_iff; congruence]. Qed.
Lemma equal_false : forall a b cs, ~ same cs a b -> fst (stringEqual a b cs) = false.
Proof. intros a b cs H. destruct (fst (stringEqual a b cs)) eqn:E; auto. exfalso. apply H. apply equal_iff. auto. Qed.
Lemma equal_true : forall a b cs, same cs a b -> fst (stringEqual a b cs) = true.
Proof. intros. apply equal_iff. auto. Qed.
Lemma same_folded : forall cs a b, same cs (folded cs a) b <-> same cs a b.
Proof. intros. unfold same. rewrite folded_idem. tauto. Qed.

(* ---- single steps of a program ---- *)
Lemma on_string : forall c s k, (exists w r, nextToken (spaceSensitive c) s w r /\ on (string c) s k = k (folded (caseSensitive c) w) r) \/
  ((forall w, ~ firstWord (spaceSensitive c) s w) /\ on (string c) s k = Code (onFail c)).
Proof.
  intros c s k. unfold on. destruct (string_else c s) as [(t & r & E)|E]; rewrite E.
  - left. apply string_spec in E as (w & N & ->). exists w, r. auto.
  - right. split; auto. intros w (r & N). assert (X : string c s = Ret (folded (caseSensitive c) w) r) by (apply string_spec; eauto). congruence.
Qed.
Lemma on_integer : forall c s k, (exists w v r, nextToken (spaceSensitive c) s w r /\ decimalOf w v /\ is_i64 v /\ on (integer c) s k = k v r) \/
  ((forall v, ~ firstInteger (spaceSensitive c) s v) /\ on (integer c) s k = Code (onFail c)).
Proof.
  intros c s k. unfold on. destruct (safe_integer c s) as [(t & r & E)|E]; rewrite E.
  - left. apply integer_spec in E as (w & N & D & I). exists w, t, r. auto.
  - right. split; auto. intros v (w & (r & N) & D & I). assert (X : integer c s = Ret v r) by (apply integer_spec; eauto). congruence.
Qed.
Lemma on_expect : forall c e s k, token e -> (exists w r, nextToken (spaceSensitive c) s w r /\ same (caseSensitive c) w e /\ on (expectString c e) s k = k tt r) \/
  ((forall w, firstWord (spaceSensitive c) s w -> ~ same (caseSensitive c) w e) /\ on (expectString c e) s k = Code (onFail c)).
Proof.
  intros c e s k T. unfold on. destruct (expectString c e s) as [[] r|x|] eqn:E.
  - left. apply expectString_spec in E as (w & N & F); auto. exists w, r. auto.
  - right. assert (X : x = onFail c).
    { unfold expectString in E. apply isToken_iff in T. rewrite T in E. cbn [negb] in E. unfold rbind in E. destruct (string_else c s) as [(t & r & Q)|Q]; rewrite Q in E; [|congruence]. destruct (negb _); cbn in E; unfold fail, rret in E; congruence. }
    subst x. split; auto. intros w (r & N) F. assert (X : expectString c e s = Ret tt r) by (apply expectString_spec; eauto). congruence.
  - exfalso. apply (proj1 (expectString_raises c e s)); auto.
Qed.
Lemma eof_loose : forall c s u r, spaceSensitive c = false -> (eof c s = Ret u r <-> Forall whitespace s /\ r = []).
Proof.
  intros c s [] r SS. unfold eof, rbind, skip. rewrite SS, <- skipWs_nil. destruct (skipWs s); unfold fail.
  - split; [intro H; inv H; auto|intros [_ ->]; auto].
  - split; [discriminate|intros [H _]; discriminate].
Qed.
Definition endTail (b : bool) (r : list Z) : Prop := if b then r = [] else Forall whitespace r.
Lemma on_eof : forall c s k, (endTail (spaceSensitive c) s /\ on (eof c) s k = k tt []) \/ (~ endTail (spaceSensitive c) s /\ on (eof c) s k = Code (onFail c)).
Proof.
  intros c s k. unfold on. destruct (spaceSensitive c) eqn:SS; cbn [endTail]; destruct (safe_eof c s) as [([] & r & E)|E]; rewrite E.
  - left. apply eof_iff in E as (-> & ->); auto.
  - right. split; auto. intros ->. assert (X : eof c [] = Ret tt []) by (apply eof_iff; auto). congruence.
  - left. apply eof_loose in E as (H & ->); auto.
  - right. split; auto. intro H. assert (X : eof c s = Ret tt []) by (apply eof_loose; auto). congruence.
Qed.
Lemma on_newline : forall c s k, (exists r, (if spaceSensitive c then s = 10 :: r else s = r) /\ on (newline c) s k = k tt r) \/
  (spaceSensitive c = true /\ (forall r, s <> 10 :: r) /\ on (newline c) s k = Code (onFail c)).
Proof.
  intros c s k. unfold on. destruct (spaceSensitive c) eqn:SS.
  - destruct (safe_newline c s) as [([] & r & E)|E]; rewrite E.
    + left. exists r. apply newline_iff in E; auto.
    + right. split; auto. split; auto. intros r ->. assert (X : newline c (10 :: r) = Ret tt r) by (apply newline_iff; auto). congruence.
  - left. exists s. split; auto. unfold newline. rewrite SS. reflexivity.
Qed.
(* newline(); eof(); exit with x *)
Lemma on_end : forall c s x, (ends (spaceSensitive c) s /\ on (newline c) s (fun _ r => on (eof c) r (fun _ _ => x)) = x) \/
  (~ ends (spaceSensitive c) s /\ on (newline c) s (fun _ r => on (eof c) r (fun _ _ => x)) = Code (onFail c)).
Proof.
  intros c s x. destruct (on_newline c s (fun _ r => on (eof c) r (fun _ _ => x))) as [(r & N & ->)|(S & N & ->)].
  - destruct (on_eof c r (fun _ _ => x)) as [(E & ->)|(E & ->)]; destruct (spaceSensitive c); cbn [ends endTail] in *; subst; [left|left|right|right]; split; auto. intro X. apply E. congruence.
  - right. rewrite S. cbn. split; auto.
Qed.
Lemma impossible_token : token (chars "impossible").
Proof. apply token_literal; [reflexivity|discriminate]. Qed.

(* ---- outputValidator.cpp ---- *)
Lemma output_impossible : forall cm bm, caseSensitive cm = caseSensitive cm ->
  let x := on (expectString cm (chars "impossible")) bm (fun _ r => on (newline cm) r (fun _ r => on (eof cm) r (fun _ _ => Code AC))) in
  ((exists w, onlyWord (spaceSensitive cm) bm w /\ same (caseSensitive cm) w impossible) /\ x = Code 42) \/
  (~ (exists w, onlyWord (spaceSensitive cm) bm w /\ same (caseSensitive cm) w impossible) /\ x = Code (onFail cm)).
Proof.
  intros cm bm _ x. unfold x. clear x. destruct (on_expect cm (chars "impossible") bm (fun _ r => on (newline cm) r (fun _ r => on (eof cm) r (fun _ _ => Code AC))) impossible_token) as [(w & r & N & F & ->)|(N & ->)].
  - destruct (on_end cm r (Code AC)) as [(E & ->)|(E & ->)].
    + left. split; auto. exists w. split; auto. apply onlyWord_iff. eauto.
    + right. split; auto. intros (w' & O & _). destruct (onlyWord_unique _ _ _ _ _ O N). auto.
  - right. split; auto. intros (w & O & F). apply (N w); auto. apply onlyWord_first. auto.
Qed.
(* integer, newline, comparison with the half, eof; n the number searched *)
Lemma output_half : forall cm bm n, onFail cm = 43 -> is_i64 n ->
  let x := on (integer cm) bm (fun ans r => on (newline cm) r (fun _ r => match chk (2 * ans) with Ok d => if negb (d =? n) then Code WA else on (eof cm) r (fun _ _ => Code AC) | _ => Undefined end)) in
  (half (spaceSensitive cm) bm n /\ ~ overflows (spaceSensitive cm) bm /\ x = Code 42) \/
  (~ half (spaceSensitive cm) bm n /\ overflows (spaceSensitive cm) bm /\ x = Undefined) \/
  (~ half (spaceSensitive cm) bm n /\ ~ overflows (spaceSensitive cm) bm /\ x = Code 43).
Proof.
  intros cm bm n OF I x. unfold x. clear x. unfold half, overflows.
  destruct (on_integer cm bm (fun ans r => on (newline cm) r (fun _ r => match chk (2 * ans) with Ok d => if negb (d =? n) then Code WA else on (eof cm) r (fun _ _ => Code AC) | _ => Undefined end))) as [(w & ans & r & N & D & IA & ->)|(N & ->)].
  2: { right. right. rewrite OF. split; [|split; [|auto]].
       - intros (w & ans & O & D & E). apply (N ans). exists w. split; [apply onlyWord_first; auto|]. split; auto. mach. lia.
       - intros (w & r & ans & NT & D & IA & _). apply (N ans). exists w. split; [exists r; auto|auto]. }
  destruct (on_newline cm r (fun _ r0 => match chk (2 * ans) with Ok d => if negb (d =? n) then Code WA else on (eof cm) r0 (fun _ _ => Code AC) | _ => Undefined end)) as [(r1 & S & ->)|(S & NL & ->)].
  2: { right. right. rewrite OF. split; [|split; [|auto]].
       - intros (w' & ans' & O & _). destruct (onlyWord_unique _ _ _ _ _ O N) as (_ & E). rewrite S in E. cbn in E. apply (NL [] E).
       - intros (w' & r' & ans' & NT & _ & _ & _ & X). destruct (X S) as (r'' & ->). destruct (nextToken_unique _ _ _ _ _ _ N NT) as (_ & ->). apply (NL _ eq_refl). }
  assert (ENDS : ends (spaceSensitive cm) r <-> endTail (spaceSensitive cm) r1).
  { destruct (spaceSensitive cm); subst r; cbn; [|tauto]. split; [intro X; congruence|intros ->; auto]. }
  assert (ONLY : forall w' ans', onlyWord (spaceSensitive cm) bm w' -> decimalOf w' ans' -> w' = w /\ ans' = ans /\ endTail (spaceSensitive cm) r1).
  { intros w' ans' O D'. destruct (onlyWord_unique _ _ _ _ _ O N) as (X & E). subst w'. split; auto. split; [eapply decimal_val; eauto|tauto]. }
  assert (UN : (exists w r ans, nextToken (spaceSensitive cm) bm w r /\ decimalOf w ans /\ is_i64 ans /\ ~ is_i64 (2 * ans) /\ (spaceSensitive cm = true -> exists r', r = 10 :: r')) <-> ~ is_i64 (2 * ans)).
  { split.
    - intros (w' & r' & ans' & NT & D' & _ & X & _). destruct (nextToken_unique _ _ _ _ _ _ N NT) as (<- & _). rewrite (decimal_val _ _ _ D' D) in X. auto.
    - intro X. exists w, r, ans. split; auto. split; auto. split; auto. split; auto. intro SS. rewrite SS in S. eauto. }
  rewrite UN. unfold chk. pose proof (in_i64_iff (2 * ans)) as I2. destruct (in_i64 (2 * ans)).
  - destruct (2 * ans =? n) eqn:Q; cbn [negb].
    + destruct (on_eof cm r1 (fun _ _ => Code AC)) as [(E & ->)|(E & ->)].
      * left. split; [|tauto]. exists w, ans. split; [apply onlyWord_iff; exists r; tauto|]. split; auto. lia.
      * right. right. rewrite OF. split; [|tauto]. intros (w' & ans' & O & D' & _); destruct (ONLY _ _ O D') as (_ & _ & X); auto.
    + right. right. split; [|tauto]. intros (w' & ans' & O & D' & X); destruct (ONLY _ _ O D') as (_ & Y & _); lia.
  - right. left. assert (N2 : ~ is_i64 (2 * ans)) by (intro X; apply I2 in X; discriminate). split; [|auto]. intros (w' & ans' & O & D' & X); destruct (ONLY _ _ O D') as (_ & Y & _); subst ans'; subst n; auto.
Qed.

Section Output.
  Variables (cs b : bool) (ct cj cm : cfg) (bt bj bm : list Z).
  Hypotheses (HT : spaceSensitive ct = false) (HJ : spaceSensitive cj = false) (HM : spaceSensitive cm = b)
             (CJ : caseSensitive cj = cs) (CM : caseSensitive cm = cs)
             (FT : onFail ct = 1) (FJ : onFail cj = 1) (FM : onFail cm = 43).

  Lemma outputBody_cases : let x := outputBody cs (ct, bt) (cj, bj) (cm, bm) in
    (outputAccepts b cs bt bj bm /\ ~ outputFails cs bt bj /\ ~ outputUndefined b cs bt bj bm /\ x = Code 42) \/
    (~ outputAccepts b cs bt bj bm /\ outputFails cs bt bj /\ ~ outputUndefined b cs bt bj bm /\ x = Code 1) \/
    (~ outputAccepts b cs bt bj bm /\ ~ outputFails cs bt bj /\ outputUndefined b cs bt bj bm /\ x = Undefined) \/
    (~ outputAccepts b cs bt bj bm /\ ~ outputFails cs bt bj /\ ~ outputUndefined b cs bt bj bm /\ x = Code 43).
  Proof.
    unfold outputBody. cbv zeta. set (K := fun (j _ : list Z) => _). destruct (on_string cj bj K) as [(j & rj & NJ & E)|(NJ & E)]; rewrite E; clear E; rewrite HJ in NJ.
    2: { right. left. rewrite FJ. split; [|split; [|split; auto]].
         - intros (j & F & _). apply (NJ j F).
         - left. auto.
         - intros (j & F & _). apply (NJ j F). }
    assert (UJ : forall j', firstWord false bj j' -> j' = j) by (intros j' F; eapply firstWord_unique; [exact F|exists rj; exact NJ]).
    assert (FJW : firstWord false bj j) by (exists rj; auto).
    unfold K. clear K. rewrite CJ. destruct (equal_dec j impossible cs) as [S|S].
    - rewrite equal_true by (rewrite same_folded; exact S).
      assert (NF : ~ outputFails cs bt bj) by (intros [X|(j' & F & X & _)]; [apply (X j); auto|rewrite (UJ _ F) in X; auto]).
      assert (NU : ~ outputUndefined b cs bt bj bm) by (intros (j' & F & X & _); rewrite (UJ _ F) in X; auto).
      destruct (output_impossible cm bm eq_refl) as [(A & X)|(A & X)]; cbv zeta in X; rewrite X; rewrite HM, CM in A.
      + left. split; auto. exists j. split; auto.
      + right. right. right. rewrite FM. split; auto. intros (j' & F & [(_ & Y)|(Y & _)]); [auto|rewrite (UJ _ F) in Y; auto].
    - rewrite equal_false by (rewrite same_folded; exact S). set (K := fun (n : Z) (_ : list Z) => _). destruct (on_integer ct bt K) as [(w & n & r & NT & D & I & E)|(NI & E)]; rewrite E; clear E; unfold K; clear K; rewrite HT in *.
      + assert (FI : firstInteger false bt n) by (exists w; split; [exists r; auto|auto]).
        assert (NF : ~ outputFails cs bt bj) by (intros [X|(j' & F & _ & X)]; [apply (X j); auto|apply (X n); auto]).
        pose proof (output_half cm bm n FM I) as O. cbv zeta in O. rewrite HM in O. destruct O as [(A & B & ->)|[(A & B & ->)|(A & B & ->)]].
        * left. split; [exists j; split; auto; right; split; auto; exists n; auto|]. split; auto. split; auto. intros (j' & _ & _ & n' & _ & Y). auto.
        * right. right. left. split; [|split; auto; split; auto; exists j; split; auto; split; auto; exists n; auto].
          intros (j' & F & [(Y & _)|(_ & n' & F' & Y)]); [rewrite (UJ _ F) in Y; auto|rewrite (firstInteger_unique _ _ _ _ F' FI) in Y; auto].
        * right. right. right. split; [|split; auto; split; auto].
          -- intros (j' & F & [(Y & _)|(_ & n' & F' & Y)]); [rewrite (UJ _ F) in Y; auto|rewrite (firstInteger_unique _ _ _ _ F' FI) in Y; auto].
          -- intros (j' & _ & _ & n' & _ & Y). auto.
      + right. left. rewrite FT. split; [|split; [|split; auto]].
        * intros (j' & F & [(Y & _)|(_ & n & Y & _)]); [rewrite (UJ _ F) in Y; auto|apply (NI n Y)].
        * right. exists j. auto.
        * intros (j' & F & _ & n & Y & _). apply (NI n Y).
  Qed.
End Output.

Lemma outputMain_Ok : forall parse files writable args stdin b cs c,
  (b = true <-> In (text "space_change_sensitive") args) -> (cs = true <-> In (text "case_sensitive") args) ->
  (outputMain parse files writable args stdin = Code c <->
   exists tb jb, ready parse args start /\ constraintsOk args /\ messagesOk writable args /\ fileAt files args 1 tb /\ fileAt files args 2 jb /\
     ((c = 42 /\ outputAccepts b cs tb jb stdin) \/ (c = 1 /\ outputFails cs tb jb) \/
      (c = 43 /\ ~ outputAccepts b cs tb jb stdin /\ ~ outputFails cs tb jb /\ ~ outputUndefined b cs tb jb stdin))).
Proof.
  intros parse files writable args stdin b cs c HB HC. unfold outputMain.
  destruct (initOutput_cases parse files writable args stdin start) as [(tb & jb & R & K & M & F1 & F2 & s & E & CF & _ & ST & SJ & SM)|(N & E)].
  - rewrite E. cbn [started]. rewrite SJ, SM, ST. destruct CF as (_ & _ & C3 & C4 & _).
    assert (W1 : wSpace (sWorld s) = b) by (cbn [start wSpace] in C3; destruct (wSpace (sWorld s)), b; intuition congruence).
    assert (W2 : wCase (sWorld s) = cs) by (cbn [start wCase] in C4; destruct (wCase (sWorld s)), cs; intuition congruence).
    rewrite W1, W2. pose proof (outputBody_cases cs b (mkCfg false cs 1 DEFAULT_EPS DEFAULT_EPS) (mkCfg false cs 1 DEFAULT_EPS DEFAULT_EPS) (mkCfg b cs 43 DEFAULT_EPS DEFAULT_EPS) tb jb stdin eq_refl eq_refl eq_refl eq_refl eq_refl eq_refl eq_refl eq_refl) as O. cbv zeta in O.
    assert (U : forall tb' jb', fileAt files args 1 tb' -> fileAt files args 2 jb' -> tb' = tb /\ jb' = jb).
    { intros tb' jb' (p & P & Q) (p' & P' & Q'). destruct F1 as (p1 & P1 & Q1), F2 as (p2 & P2 & Q2). split; congruence. }
    split.
    + intro X. exists tb, jb. repeat (split; [assumption|]). destruct O as [(A & B & D & O)|[(A & B & D & O)|[(A & B & D & O)|(A & B & D & O)]]]; rewrite O in X; try discriminate; injection X as <-; auto 8.
    + intros (tb' & jb' & _ & _ & _ & F1' & F2' & X). destruct (U _ _ F1' F2') as (-> & ->).
      destruct O as [(A & B & D & O)|[(A & B & D & O)|[(A & B & D & O)|(A & B & D & O)]]]; rewrite O; destruct X as [(-> & X)|[(-> & X)|(-> & X & Y & Z)]]; tauto.
  - rewrite E. cbn [started]. split; [discriminate|]. intros (tb & jb & H). exfalso. apply (N tb jb). tauto.
Qed.

(* ---- interactor.cpp ---- *)
Lemma interactor_cases : forall ct bt cm bm, spaceSensitive ct = false -> onFail ct = 1 -> onFail cm = 43 ->
  (exists n, firstInteger false bt n /\ fst (interactorBody (ct, bt) (cm, bm)) = PassModel.showInteger n ++ [10] /\
     let x := snd (interactorBody (ct, bt) (cm, bm)) in let b := spaceSensitive cm in
     (Z.even n = true -> (x = Code 42 \/ x = Code 43) /\ (x = Code 42 <-> exists w, onlyWord b bm w /\ same (caseSensitive cm) w impossible)) /\
     (Z.odd n = true -> (x = Code 43 \/ x = Undefined) /\ (x = Undefined <-> overflows b bm))) \/
  ((forall n, ~ firstInteger false bt n) /\ interactorBody (ct, bt) (cm, bm) = ([], Code 1)).
Proof.
  intros ct bt cm bm HT FT FM. unfold interactorBody. destruct (safe_integer ct bt) as [(n & r & E)|E]; rewrite E.
  - left. exists n. apply integer_spec in E as (w & N & D & I). rewrite HT in N. split; [exists w; split; [exists r; auto|auto]|]. split; [reflexivity|]. cbn [snd]. cbv zeta. split.
    + intro EV. replace (Z.rem n 2 =? 0) with true.
      2: { symmetry. apply Z.eqb_eq. apply Z.even_spec in EV as (k & ->). rewrite Z.mul_comm. apply Z.rem_mul. lia. }
      destruct (output_impossible cm bm eq_refl) as [(A & X)|(A & X)]; cbv zeta in X; rewrite X; [|rewrite FM].
      * split; [auto|]. tauto.
      * split; [auto|]. split; [discriminate|tauto].
    + intro OD. replace (Z.rem n 2 =? 0) with false.
      2: { symmetry. apply Z.eqb_neq. intro X. apply Z.rem_divide in X as (k & ->); [|lia]. rewrite Z.odd_mul in OD. rewrite andb_false_r in OD. discriminate. }
      pose proof (output_half cm bm n FM I) as O. cbv zeta in O. destruct O as [(A & B & ->)|[(A & B & ->)|(A & B & ->)]].
      * exfalso. destruct A as (w' & ans & _ & _ & ->). rewrite Z.odd_mul in OD. discriminate.
      * split; [auto|tauto].
      * split; [auto|]. split; [discriminate|tauto].
  - right. split; [|rewrite FT; auto]. intros n (w & (r & N) & D & I). assert (X : integer ct bt = Ret n r) by (apply integer_spec; exists w; rewrite HT; auto). congruence.
Qed.

(* ---- inputValidator.cpp ---- *)
Lemma on_space : forall c s k, spaceSensitive c = true -> (exists r, s = 32 :: r /\ on (space c) s k = k tt r) \/ ((forall r, s <> 32 :: r) /\ on (space c) s k = Code (onFail c)).
Proof.
  intros c s k SS. unfold on. destruct (safe_space c s) as [([] & r & E)|E]; rewrite E.
  - left. exists r. apply space_iff in E; auto.
  - right. split; auto. intros r ->. assert (X : space c (32 :: r) = Ret tt r) by (apply space_iff; auto). congruence.
Qed.
Lemma on_stringLen : forall c lo up s k, (exists w r, nextToken (spaceSensitive c) s w r /\ lo <= alen w < up /\ on (stringLen c lo up) s k = k (folded (caseSensitive c) w) r) \/
  ((forall w, firstWord (spaceSensitive c) s w -> ~ (lo <= alen w < up)) /\ on (stringLen c lo up) s k = Code (onFail c)).
Proof.
  intros c lo up s k. assert (AL : forall w, alen (folded (caseSensitive c) w) = alen w) by (intro w; unfold folded; destruct (caseSensitive c); auto; unfold alen; rewrite map_length; auto).
  unfold on. destruct (safe_stringLen c lo up s) as [(t & r & E)|E]; rewrite E.
  - left. apply stringLen_spec in E as (w & N & -> & L). rewrite AL in L. exists w, r. auto.
  - right. split; auto. intros w (r & N) L. assert (X : stringLen c lo up s = Ret (folded (caseSensitive c) w) r) by (apply stringLen_spec; exists w; rewrite AL; auto). congruence.
Qed.
Lemma on_integerIn : forall c lo up s k, (exists w v r, nextToken (spaceSensitive c) s w r /\ decimalOf w v /\ is_i64 v /\ lo <= v < up /\ on (integerIn c lo up) s k = k v r) \/
  ((forall v, firstInteger (spaceSensitive c) s v -> ~ (lo <= v < up)) /\ on (integerIn c lo up) s k = Code (onFail c)).
Proof.
  intros c lo up s k. unfold on. destruct (safe_integerIn c lo up s) as [(t & r & E)|E]; rewrite E.
  - left. apply integerIn_spec in E as (w & N & D & I & B). exists w, t, r. auto.
  - right. split; auto. intros v (w & (r & N) & D & I) B. assert (X : integerIn c lo up s = Ret v r) by (apply integerIn_spec; exists w; auto). congruence.
Qed.
Lemma next_strict : forall s w r, nextToken true s w r <-> s = w ++ r /\ plainToken w /\ endsToken r.
Proof.
  intros. split.
  - intros (ws & E & _ & T & N & W). destruct (W eq_refl) as [-> PT]. auto.
  - intros (E & PT & N). exists []. split; auto. split; auto. destruct PT. split; auto. split; auto. intros _. split; auto. split; auto.
Qed.
Lemma white_ends : forall c r, whitespace c -> endsToken (c :: r). Proof. auto. Qed.
Lemma w32 : whitespace 32. Proof. unfold whitespace; lia. Qed.
Lemma w10 : whitespace 10. Proof. unfold whitespace; lia. Qed.

Lemma input_cases : forall c s, spaceSensitive c = true -> onFail c = 43 ->
  (inputAccepts s /\ inputBody (c, s) = Code 42) \/ (~ inputAccepts s /\ inputBody (c, s) = Code 43).
Proof.
  intros c s SS FC.
  assert (H : inputBody (c, s) = Code 42 \/ inputBody (c, s) = Code 43).
  { unfold inputBody.
    repeat match goal with
    | |- on (string _) _ ?k = _ \/ _ => destruct (on_string c s k) as [(? & ? & _ & ->)|(_ & ->)]; rewrite ?FC; auto
    | |- on (space _) ?x ?k = _ \/ _ => destruct (on_space c x k SS) as [(? & _ & ->)|(_ & ->)]; rewrite ?FC; auto
    | |- on (stringLen _ _ _) ?x ?k = _ \/ _ => destruct (on_stringLen c 5 7 x k) as [(? & ? & _ & _ & ->)|(_ & ->)]; rewrite ?FC; auto
    | |- on (newline _) ?x ?k = _ \/ _ => destruct (on_newline c x k) as [(? & _ & ->)|(_ & _ & ->)]; rewrite ?FC; auto
    | |- on (integerIn _ _ _) ?x ?k = _ \/ _ => destruct (on_integerIn c 5 7 x k) as [(? & ? & ? & _ & _ & _ & _ & ->)|(_ & ->)]; rewrite ?FC; auto
    | |- on (eof _) ?x ?k = _ \/ _ => destruct (on_eof c x k) as [(_ & ->)|(_ & ->)]; rewrite ?FC; auto
    end. }
  assert (I : inputBody (c, s) = Code 42 <-> inputAccepts s); [|destruct H as [H|H]; rewrite H in *; [left|right]; split; auto; [apply I; auto|intro X; apply I in X; discriminate]].
  unfold inputBody, on, inputAccepts. split.
  - destruct (string c s) as [t1 r1|x|] eqn:E1; [|intro X; destruct (string_else c s) as [(? & ? & Y)|Y]; congruence|discriminate].
    apply string_spec in E1 as (w1 & N1 & ->). rewrite SS in N1. apply next_strict in N1 as (-> & P1 & _).
    destruct (space c r1) as [[] r2|x|] eqn:E2; [|intro X; destruct (safe_space c r1) as [(? & ? & Y)|Y]; congruence|discriminate]. apply space_iff in E2; auto. subst r1.
    destruct (stringLen c 5 7 r2) as [t3 r3|x|] eqn:E3; [|intro X; destruct (safe_stringLen c 5 7 r2) as [(? & ? & Y)|Y]; congruence|discriminate].
    apply stringLen_spec in E3 as (w3 & N3 & -> & L3). rewrite SS in N3. apply next_strict in N3 as (-> & P3 & _).
    destruct (newline c r3) as [[] r4|x|] eqn:E4; [|intro X; destruct (safe_newline c r3) as [(? & ? & Y)|Y]; congruence|discriminate]. apply newline_iff in E4; auto. subst r3.
    destruct (integerIn c 5 7 r4) as [v r5|x|] eqn:E5; [|intro X; destruct (safe_integerIn c 5 7 r4) as [(? & ? & Y)|Y]; congruence|discriminate].
    apply integerIn_spec in E5 as (w5 & N5 & D & I & B). rewrite SS in N5. apply next_strict in N5 as (-> & P5 & _).
    destruct (newline c r5) as [[] r6|x|] eqn:E6; [|intro X; destruct (safe_newline c r5) as [(? & ? & Y)|Y]; congruence|discriminate]. apply newline_iff in E6; auto. subst r5.
    destruct (eof c r6) as [u r7|x|] eqn:E7; [|intro X; destruct (safe_eof c r6) as [(? & ? & Y)|Y]; congruence|discriminate]. apply eof_iff in E7 as (-> & ->); auto.
    intros _. assert (AL : alen (folded (caseSensitive c) w3) = alen w3) by (unfold folded; destruct (caseSensitive c); auto; unfold alen; rewrite map_length; auto). rewrite AL in L3.
    assert (DW : (w5 = [53] \/ w5 = [54])).
    { assert (V : v = 5 \/ v = 6) by lia. destruct V; subst v; [left|right]; eapply decimal_unique; try exact D; [exists [5]|exists [6]]; (split; [split; [repeat constructor; unfold digit; lia|right; eexists; eexists; split; [reflexivity|lia]]|left; split; reflexivity]). }
    exists w1, w3, w5. repeat (split; [assumption|]). reflexivity.
  - intros (w1 & w3 & w5 & P1 & P3 & L3 & DW & ->).
    rewrite (proj2 (string_spec c _ (folded (caseSensitive c) w1) (32 :: w3 ++ 10 :: w5 ++ [10]))) by (exists w1; rewrite SS; split; auto; apply next_strict; auto using white_ends, w32).
    rewrite (proj2 (space_iff c SS _ _) eq_refl).
    assert (AL : alen (folded (caseSensitive c) w3) = alen w3) by (unfold folded; destruct (caseSensitive c); auto; unfold alen; rewrite map_length; auto).
    rewrite (proj2 (stringLen_spec c 5 7 _ (folded (caseSensitive c) w3) (10 :: w5 ++ [10]))) by (exists w3; rewrite SS, AL; split; auto; apply next_strict; auto using white_ends, w10).
    rewrite (proj2 (newline_iff c SS _ _) eq_refl).
    assert (D : exists v, decimalOf w5 v /\ 5 <= v < 7).
    { destruct DW as [->| ->]; [exists 5|exists 6]; (split; [|lia]); [exists [5]|exists [6]]; (split; [split; [repeat constructor; unfold digit; lia|right; eexists; eexists; split; [reflexivity|lia]]|left; split; reflexivity]). }
    destruct D as (v & D & B).
    rewrite (proj2 (integerIn_spec c 5 7 _ v [10])) by (exists w5; rewrite SS; split; [apply next_strict; split; auto; split; [eapply decimal_plain; eauto|auto using white_ends, w10]|split; auto; split; auto; mach; lia]).
    rewrite (proj2 (newline_iff c SS _ _) eq_refl). rewrite (proj2 (eof_iff c SS [] tt [])) by auto. reflexivity.
Qed.

(* ---- inputValidator.constraints.cpp ---- *)
Lemma constraints_reject : forall c s, spaceSensitive c = true -> onFail c = 43 -> constraintsBody (c, s) = Code 43.
Proof.
  intros c s SS FC. unfold constraintsBody. set (K := fun (n : Z) (r : list Z) => _). destruct (on_integerIn c 1 100000 s K) as [(w & v & r & N & D & I & B & ->)|(_ & ->)]; [|congruence].
  unfold K. destruct (Z.to_nat v) as [|m] eqn:M; [lia|]. cbn [constraintsLoop]. set (K' := fun (_ : Z) (r : list Z) => _). destruct (on_integerIn c 1 1000000 r K') as [(w' & v' & r' & N' & _)|(_ & ->)]; [|congruence].
  exfalso. rewrite SS in N, N'. apply next_strict in N as (-> & _ & E). apply next_strict in N' as (-> & P' & _). destruct P' as ((NN & F) & _). destruct w' as [|x w']; [congruence|]. inversion F; subst. cbn in E. auto.
Qed.
