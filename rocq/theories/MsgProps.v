(* C94: a failed read says what is wrong and where. *)
From Coq Require Import String.
From Verif Require Import Base SeqSpec RegexModel RegexProofs FloatModel FloatSpec InitSpec PassModel PrintModel InputModel InputSpec InputProofs3 InputProofs4 InputClient ReportModel ReportSpec MsgModel MsgSpec MsgProofs.
From Coq Require Import ZArith List.
Import ListNotations.
Open Scope Z_scope.
Open Scope list_scope.

(* the reads with messages are the reads of InputModel.v *)
Theorem C94_same : forall st parse file seekable s, alen s <= alen file ->
  forget (meof st file seekable s) = eof st s /\ forget (mspace st file seekable s) = space st s /\
  forget (mnewline st file seekable s) = newline st s /\ forget (mstring st file seekable s) = string st s /\
  (forall l u, forget (mstringLen st file seekable l u s) = stringLen st l u s) /\
  (forall p, forget (mstringRe st file seekable p s) = stringRe st p s) /\
  (forall p l u, forget (mstringReLen st file seekable p l u s) = stringReLen st p l u s) /\
  forget (minteger st file seekable s) = integer st s /\
  (forall l u, forget (mintegerIn st file seekable l u s) = integerIn st l u s) /\
  forget (mreal st parse file seekable s) = readReal st parse s /\
  (forall l u, forget (mrealIn st parse file seekable l u s) = realIn st parse l u s) /\
  (forall l u a b, forget (mrealStrict st parse file seekable l u a b s) = realStrict st parse l u a b s) /\
  (forall e, forget (mexpectString st file seekable e s) = expectString st e s) /\
  (forall e, forget (mexpectInt st file seekable e s) = expectInt st e s) /\
  (forall e, forget (mexpectReal st parse file seekable e s) = expectReal st parse e s) /\
  (forall l u n sep, forget (mmany st file seekable (mintegerIn st file seekable l u) n sep s) = many st (integerIn st l u) n sep s) /\
  (forall l u n sep, forget (mmany st file seekable (mrealIn st parse file seekable l u) n sep s) = many st (realIn st parse l u) n sep s) /\
  (forall p l u n sep, forget (mmany st file seekable (mstringReLen st file seekable p l u) n sep s) = many st (stringReLen st p l u) n sep s).
Proof. exact forget_all. Qed.
Print Assumptions C94_same.

Theorem C94_integer : forall st file seekable s before raw after l u,
  nextWord (spaceSensitive st) file s before raw after -> is_i64 l -> is_i64 u ->
  let t := folded (caseSensitive st) raw in
  answers (onFail st) seekable (mintegerIn st file seekable l u s) before raw after (fun v => decimalOf t v /\ l <= v < u) (notInRange t l u).
Proof. intros st file seekable s before raw after l u W. exact (answer_integerIn st (fun _ => None) file seekable s before raw after W l u). Qed.
Print Assumptions C94_integer.
Theorem C94_anyInteger : forall st file seekable s before raw after,
  nextWord (spaceSensitive st) file s before raw after ->
  let t := folded (caseSensitive st) raw in
  answers (onFail st) seekable (minteger st file seekable s) before raw after (fun v => decimalOf t v /\ is_i64 v) (noInteger t).
Proof. intros st file seekable s before raw after W. exact (answer_integer st (fun _ => None) file seekable s before raw after W). Qed.
Print Assumptions C94_anyInteger.
Theorem C94_expectInteger : forall st file seekable s before raw after e,
  nextWord (spaceSensitive st) file s before raw after -> is_i64 e ->
  let t := folded (caseSensitive st) raw in
  answers (onFail st) seekable (mexpectInt st file seekable e s) before raw after (fun _ => decimalOf t e) (notExpected t e).
Proof. intros st file seekable s before raw after e W. exact (answer_expectInt st (fun _ => None) file seekable s before raw after W e). Qed.
Print Assumptions C94_expectInteger.
Theorem C94_string : forall st file seekable s before raw after p l u,
  nextWord (spaceSensitive st) file s before raw after ->
  let t := folded (caseSensitive st) raw in
  is_i64 l -> is_i64 u -> is_i64 (alen t) ->
  answers (onFail st) seekable (mstringReLen st file seekable p l u s) before raw after (fun a => a = t /\ l <= alen t < u /\ lang p t) (notFitting t p l u).
Proof. intros st file seekable s before raw after p l u W. exact (answer_string st (fun _ => None) file seekable s before raw after W p l u). Qed.
Print Assumptions C94_string.
(* the message is that of C74 *)
Theorem C94_expectString : forall st file seekable s before raw after e,
  nextWord (spaceSensitive st) file s before raw after -> token e ->
  let t := folded (caseSensitive st) raw in
  answers (onFail st) seekable (mexpectString st file seekable e s) before raw after (fun _ => Forall2 (eqChar (caseSensitive st)) t e)
    (fun msg => ~ Forall2 (eqChar (caseSensitive st)) t e /\ expectMessage t e (caseSensitive st) = Ok (Some msg)).
Proof. intros st file seekable s before raw after e W. exact (answer_expectString st (fun _ => None) file seekable s before raw after W e). Qed.
Print Assumptions C94_expectString.
Theorem C94_real : forall st parse file seekable s before raw after l u,
  nextWord (spaceSensitive st) file s before raw after -> goodTol (floatAbsTol st) -> goodTol (floatRelTol st) ->
  let t := folded (caseSensitive st) raw in
  answers (onFail st) seekable (mrealIn st parse file seekable l u s) before raw after
    (fun v => realToken t /\ parse t = Some v /\ (near st v l \/ near st v u \/ ~ beyond l u v)) (notRealIn parse (near st) t l u).
Proof. intros st parse file seekable s before raw after l u W. exact (answer_realIn st parse file seekable s before raw after W l u). Qed.
Print Assumptions C94_real.
Theorem C94_realStrict : forall st parse file seekable s before raw after l u a b,
  nextWord (spaceSensitive st) file s before raw after ->
  let t := folded (caseSensitive st) raw in
  answers (onFail st) seekable (mrealStrict st parse file seekable l u a b s) before raw after
    (fun v => exists k, strictReal t k /\ a <= k < b /\ parse t = Some v /\ ~ beyond l u v) (notStrict parse t l u a b).
Proof. intros st parse file seekable s before raw after l u a b W. exact (answer_realStrict st parse file seekable s before raw after W l u a b). Qed.
Print Assumptions C94_realStrict.
(* the complaint comes for equal numbers, see C29_expectReal_refuted *)
Theorem C94_expectReal : forall st parse file seekable s before raw after e,
  nextWord (spaceSensitive st) file s before raw after -> goodTol (floatAbsTol st) -> goodTol (floatRelTol st) ->
  let t := folded (caseSensitive st) raw in
  answers (onFail st) seekable (mexpectReal st parse file seekable e s) before raw after (fun _ => exists v, realToken t /\ parse t = Some v /\ ~ near st v e)
    (fun msg => noReal parse t msg \/ exists v more, realToken t /\ parse t = Some v /\ near st v e /\
       msg = text "Expected " ++ putReal e ++ text " but got " ++ putReal v ++ text "!" ++ more /\
       (isfinite v && isfinite e = false /\ more = [] \/
        isfinite v && isfinite e = true /\ more = text " (abs: " ++ putReal (SFabs (rsub v e)) ++ text ", rel: " ++ putReal (SFabs (rdiv (rsub v e) e)) ++ text ")")).
Proof. intros st parse file seekable s before raw after e W. exact (answer_expectReal st parse file seekable s before raw after W e). Qed.
Print Assumptions C94_expectReal.

(* separators and the end, byte-exact: the next part is the word or the white space character c :: y *)
Theorem C94_separator : forall st file seekable before c y after, spaceSensitive st = true -> file = before ++ (c :: y) ++ after ->
  (wordStart before /\ plainToken (c :: y) /\ endsToken after) \/ (y = [] /\ whitespace c) ->
  (c <> 32 -> complains (onFail st) seekable (mspace st file seekable (c :: y ++ after)) before (c :: y) after (eq (text "Missing space!"))) /\
  (c <> 10 -> complains (onFail st) seekable (mnewline st file seekable (c :: y ++ after)) before (c :: y) after (eq (text "Missing newline!"))) /\
  complains (onFail st) seekable (meof st file seekable (c :: y ++ after)) before (c :: y) after (eq (text "Missing EOF!")).
Proof. exact (fun st => wrong_separator st (fun _ => None)). Qed.
Print Assumptions C94_separator.
Theorem C94_eof : forall st file seekable s before raw after, spaceSensitive st = false -> nextWord false file s before raw after ->
  complains (onFail st) seekable (meof st file seekable s) before raw after (eq (text "Missing EOF!")).
Proof. exact (fun st => late_text st (fun _ => None)). Qed.
Print Assumptions C94_eof.
Theorem C94_whitespace : forall st file seekable before c after, spaceSensitive st = true -> file = before ++ [c] ++ after ->
  ~ graphic c -> wordStart before \/ whitespace c ->
  complains (onFail st) seekable (mstring st file seekable (c :: after)) before [c] after (eq (text "Invalid whitespace!")).
Proof. exact (fun st => wrong_space st (fun _ => None)). Qed.
Print Assumptions C94_whitespace.
(* no location at the end of the file *)
Theorem C94_end : forall st parse file seekable s, Forall whitespace s -> (spaceSensitive st = true -> s = []) ->
  let said := text "Unexpected EOF!" ++ [10] in
  mnoteof st s = MExit (onFail st) said /\ mstring st file seekable s = MExit (onFail st) said /\
  minteger st file seekable s = MExit (onFail st) said /\ mreal st parse file seekable s = MExit (onFail st) said /\
  (spaceSensitive st = true -> mspace st file seekable s = MExit (onFail st) said /\ mnewline st file seekable s = MExit (onFail st) said).
Proof. exact nothing_left. Qed.
Print Assumptions C94_end.

(* the complaint about a list is about its first bad entry *)
Theorem C94_first : forall st file seekable sep l u bad after, is_i64 l -> is_i64 u -> spaceSensitive st = true -> sep = 32 \/ sep = 10 ->
  plainToken bad -> endsToken after -> (forall v, ~ (decimalOf (folded (caseSensitive st) bad) v /\ l <= v < u)) ->
  forall good before count, Forall (fun t => exists v, decimalOf t v /\ l <= v < u) good -> wordStart before ->
  let head := concat (map (fun t => t ++ [sep]) good) in
  file = before ++ head ++ bad ++ after -> alen good < count ->
  complains (onFail st) seekable (mmany st file seekable (mintegerIn st file seekable l u) count sep (head ++ bad ++ after))
    (before ++ head) bad after (notInRange (folded (caseSensitive st) bad) l u).
Proof. exact (fun st => first_bad st (fun _ => None)). Qed.
Print Assumptions C94_first.

(* ---- examples ---- *)
Definition file1 : list Z := text "3" ++ [10] ++ text "1 12 5" ++ [10].
Example C94_ex_word : nextWord true file1 (text "12 5" ++ [10]) (text "3" ++ [10] ++ text "1 ") (text "12") (text " 5" ++ [10]).
Proof.
  exists (text "3" ++ [10] ++ text "1 "), []. split; [reflexivity|]. split; [reflexivity|]. split; [reflexivity|]. split; [constructor|]. split; [reflexivity|].
  split; [right; exists (text "3" ++ [10] ++ text "1"), 32; split; [reflexivity|left; reflexivity]|].
  split; [|left; reflexivity]. split; [split; [discriminate|]|split; discriminate].
  repeat constructor; intros [H|[H1 H2]]; try discriminate; apply H2; reflexivity.
Qed.
Example C94_ex_list : mmany exCfg file1 true (mintegerIn exCfg file1 true 0 10) 3 32 (text "1 12 5" ++ [10]) =
  MExit 43 (text "Integer 12 out of range [0, 10)! Line: 2, Char: 2" ++ [10] ++ text "1 12 5" ++ [10] ++ text "  ^~" ++ [10]).
Proof. vm_compute. reflexivity. Qed.
Example C94_ex_same : mmany exCfg file1 true (mintegerIn exCfg file1 true 0 13) 3 32 (text "1 12 5" ++ [10]) = MRet [1; 12; 5] [10] /\
  mmany exCfg file1 true (mintegerIn exCfg file1 true 0 13) 4 32 (text "1 12 5" ++ [10]) =
    MExit 43 (text "Missing space! Line: 3, Char: 6" ++ [10] ++ text "1 12 5 " ++ [10] ++ text "      ^" ++ [10]) /\
  mspace exCfg file1 true [10] = mgetChar exCfg file1 true 32 (text "Missing space!") [10].
Proof. vm_compute. repeat split. Qed.
Example C94_ex_tokens :
  mintegerIn exCfg (text "x7 ") true 0 10 (text "x7 ") = MExit 43 (text "Token ""x7"" does not match pattern! Line: 1, Char: 0" ++ [10] ++ text "x7 " ++ [10] ++ text "^~" ++ [10]) /\
  minteger exCfg (text "99999999999999999999 ") false (text "99999999999999999999 ") = MExit 43 (text "Could not parse token ""99999999999999999999""!" ++ [10]) /\
  mexpectInt exCfg (text "5") true 6 (text "5") = MExit 43 (text "Expected 6 but got 5!" ++ [10]) /\
  mstringReLen exCfg (text "abc") false RDigit 1 3 (text "abc") = MExit 43 (text "String length 3 out of range [1, 3)!" ++ [10]) /\
  mstring exCfg (text " a") true (text " a") = MExit 43 (text "Invalid whitespace! Line: 1, Char: 0" ++ [10] ++ text " a" ++ [10] ++ text "^" ++ [10]) /\
  meof exCfg (text "a b ") true (text "b ") = MExit 43 (text "Missing EOF! Line: 1, Char: 2" ++ [10] ++ text "a b " ++ [10] ++ text "  ^" ++ [10]) /\
  mexpectString exCfg (text "yes ") false (text "no") (text "yes ") = MExit 43 (text "Expected ""no"" but got ""yes""!" ++ [10]) /\
  minteger exCfg (text "5") true [] = MExit 43 (text "Unexpected EOF!" ++ [10]).
Proof. vm_compute. repeat split. Qed.
Example C94_ex_real :
  mrealIn exCfg exParse (text "2 ") false rzero exOne (text "2 ") = MExit 43 (text "Real 2.000000 out of range [0.000000, 1.000000)!" ++ [10]) /\
  mrealStrict exCfg exParse (text "1 ") false rzero exTwo 1 2 (text "1 ") = MExit 43 (text "Real 1 has wrong amount of decimals!" ++ [10]).
Proof. vm_compute. repeat split. Qed.
