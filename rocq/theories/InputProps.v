(* Properties of isInteger, floatEqual and InputStream. *)
From Verif Require Import Base SeqModel RegexModel FloatModel InputModel InputSpec InputClient
  InputProofs InputProofs2 InputProofs3 InputProofs4.

(* ---- C25 ---- *)
Theorem C25_isInteger : forall s v, isInteger s = (true, Some v) <-> decimalOf s v /\ is_i64 v.
Proof. exact isInteger_iff. Qed.
Print Assumptions C25_isInteger.
Theorem C25_isInteger_rejects : forall s,
  (forall v, ~ (decimalOf s v /\ is_i64 v)) -> isInteger s = (false, None).
Proof. exact isInteger_else. Qed.
Print Assumptions C25_isInteger_rejects.
(* the notation is unique in both directions *)
Theorem C25_decimal_total : forall v, exists s, decimalOf s v.
Proof. exact decimal_exists. Qed.
Print Assumptions C25_decimal_total.
Theorem C25_decimal_unique : forall v s t, decimalOf s v -> decimalOf t v -> s = t.
Proof. exact decimal_unique. Qed.
Print Assumptions C25_decimal_unique.
Theorem C25_decimal_value_unique : forall s v w, decimalOf s v -> decimalOf s w -> v = w.
Proof. exact decimal_value_unique. Qed.
Print Assumptions C25_decimal_value_unique.
Example C25_ex : isInteger [45; 49; 50] = (true, Some (-12)) /\ isInteger [48] = (true, Some 0) /\
  isInteger [45; 48] = (false, None) /\ isInteger [48; 49] = (false, None) /\ isInteger [43; 49] = (false, None) /\
  isInteger [57;50;50;51;51;55;50;48;51;54;56;53;52;55;55;53;56;48;56] = (false, None) /\
  isInteger [45;57;50;50;51;51;55;50;48;51;54;56;53;52;55;55;53;56;48;56] = (true, Some I64_MIN).
Proof. vm_compute. repeat split. Qed.

(* ---- C26 ---- *)
Theorem C26_realStrict : forall st parseReal lower upper minD maxD s v rest,
  realStrict st parseReal lower upper minD maxD s = Ret v rest <->
  exists t k, nextToken (spaceSensitive st) s t rest /\ strictReal t k /\ minD <= k < maxD /\
    parseReal t = Some v /\ SFleb lower v = true /\ SFltb v upper = true.
Proof. exact realStrict_spec. Qed.
Print Assumptions C26_realStrict.
Theorem C26_realStrict_else : forall st parseReal lower upper minD maxD s,
  (exists v rest, realStrict st parseReal lower upper minD maxD s = Ret v rest) \/
  realStrict st parseReal lower upper minD maxD s = Exit (onFail st).
Proof. exact safe_realStrict. Qed.
Print Assumptions C26_realStrict_else.
(* without a dot a leading zero passes *)
Theorem C26_realStrict_refuted : exists (st : cfg) parseReal lower upper v file,
  realStrict st parseReal lower upper 0 1 file = Ret v [] /\
  file = showDigits [0; 1] /\ ~ canonicalDigits [0; 1].
Proof. exact realStrict_refuted. Qed.
Print Assumptions C26_realStrict_refuted.
Example C26_ex :
  regex_match [45; 48; 46; 53] STRICT_REAL_REGEX = true /\ regex_match [48; 48; 46; 53] STRICT_REAL_REGEX = false /\
  regex_match [48; 48] STRICT_REAL_REGEX = true /\
  realStrict exCfg exParse rzero exTwo 0 1 [49; 32; 50] = Ret exOne [32; 50] /\
  realStrict exCfg exParse rzero exTwo 1 2 [49; 32; 50] = Exit 43.
Proof. vm_compute. repeat split. Qed.

(* ---- C27 ---- *)
Theorem C27_integers_strict : forall st lower upper count sep file vs,
  spaceSensitive st = true -> 0 <= count -> sep = 32 \/ sep = 10 ->
  (integerFile st lower upper count sep file = Ret vs [] <->
   alen vs = count /\ Forall (fun v => is_i64 v /\ lower <= v < upper) vs /\
   exists ts, Forall2 decimalOf ts vs /\ file = joined sep ts ++ [10]).
Proof. exact integerFile_spec. Qed.
Print Assumptions C27_integers_strict.
Theorem C27_integers_else : forall st lower upper count sep file, 0 <= count -> sep = 32 \/ sep = 10 ->
  (exists vs, integerFile st lower upper count sep file = Ret vs []) \/
  integerFile st lower upper count sep file = Exit (onFail st).
Proof. exact integerFile_else. Qed.
Print Assumptions C27_integers_else.
Theorem C27_strings_strict : forall st count sep file vs,
  spaceSensitive st = true -> 0 <= count -> sep = 32 \/ sep = 10 ->
  (stringFile st count sep file = Ret vs [] <->
   exists ts, alen ts = count /\ Forall plainToken ts /\ vs = map (folded (caseSensitive st)) ts /\
     file = joined sep ts ++ [10]).
Proof. exact stringFile_spec. Qed.
Print Assumptions C27_strings_strict.
Theorem C27_strings_else : forall st count sep file, 0 <= count -> sep = 32 \/ sep = 10 ->
  (exists vs, stringFile st count sep file = Ret vs []) \/
  stringFile st count sep file = Exit (onFail st).
Proof. exact stringFile_else. Qed.
Print Assumptions C27_strings_else.
Example C27_ex :
  integerFile exCfg (-9) 9 2 32 [49; 32; 45; 50; 10] = Ret [1; -2] [] /\
  integerFile exCfg (-9) 9 2 32 [49; 32; 32; 45; 50; 10] = Exit 43 /\
  integerFile exCfg (-9) 9 2 32 [49; 32; 45; 50] = Exit 43 /\
  integerFile exCfg (-9) 9 2 32 [49; 32; 45; 50; 10; 10] = Exit 43 /\
  stringFile exCfg 2 10 [97; 10; 98; 66; 10] = Ret [[97]; [98; 66]] [].
Proof. vm_compute. repeat split. Qed.

(* ---- C28 ---- *)
Theorem C28_integer : forall st lower upper s v rest,
  integerIn st lower upper s = Ret v rest <->
  exists t, nextToken (spaceSensitive st) s t rest /\ decimalOf t v /\ is_i64 v /\ lower <= v < upper.
Proof. exact integerIn_spec. Qed.
Print Assumptions C28_integer.
Theorem C28_integer_else : forall st lower upper s,
  (exists v rest, integerIn st lower upper s = Ret v rest) \/ integerIn st lower upper s = Exit (onFail st).
Proof. exact safe_integerIn. Qed.
Print Assumptions C28_integer_else.
Theorem C28_string : forall st lower upper s t rest,
  stringLen st lower upper s = Ret t rest <->
  exists raw, nextToken (spaceSensitive st) s raw rest /\ t = folded (caseSensitive st) raw /\
    lower <= alen t < upper.
Proof. exact stringLen_spec. Qed.
Print Assumptions C28_string.
Theorem C28_string_else : forall st lower upper s,
  (exists t rest, stringLen st lower upper s = Ret t rest) \/ stringLen st lower upper s = Exit (onFail st).
Proof. exact safe_stringLen. Qed.
Print Assumptions C28_string_else.
Example C28_ex : integerIn exCfg 0 5 [52; 32] = Ret 4 [32] /\ integerIn exCfg 0 5 [53; 32] = Exit 43 /\
  integerIn exCfg 0 5 [45; 49] = Exit 43 /\ stringLen exCfg 1 3 [97; 98; 10] = Ret [97; 98] [10] /\
  stringLen exCfg 1 2 [97; 98; 10] = Exit 43.
Proof. vm_compute. repeat split. Qed.

(* ---- C29 ---- *)
Theorem C29_expectReal : forall st parseReal expected s rest,
  goodTol (floatAbsTol st) -> goodTol (floatRelTol st) ->
  (expectReal st parseReal expected s = Ret tt rest <->
   exists v, readReal st parseReal s = Ret v rest /\
     floatEqual v expected (floatAbsTol st) (floatRelTol st) = Ok false).
Proof. exact expectReal_spec. Qed.
Print Assumptions C29_expectReal.
Theorem C29_readReal : forall st parseReal s v rest,
  readReal st parseReal s = Ret v rest <->
  exists raw, nextToken (spaceSensitive st) s raw rest /\ realToken (folded (caseSensitive st) raw) /\
    parseReal (folded (caseSensitive st) raw) = Some v.
Proof. exact readReal_spec. Qed.
Print Assumptions C29_readReal.
Theorem C29_expectReal_refuted : exists (st : cfg) parseReal expected file,
  readReal st parseReal file = Ret expected [] /\
  floatEqual expected expected (floatAbsTol st) (floatRelTol st) = Ok true /\
  expectReal st parseReal expected file = Exit (onFail st) /\
  exists other v, readReal st parseReal other = Ret v [] /\
    floatEqual v expected (floatAbsTol st) (floatRelTol st) = Ok false /\
    expectReal st parseReal expected other = Ret tt [].
Proof. exact expectReal_refuted. Qed.
Print Assumptions C29_expectReal_refuted.
Example C29_ex : expectReal exCfg exParse exOne [49] = Exit 43 /\ expectReal exCfg exParse exOne [50] = Ret tt [] /\
  regex_match [45; 46; 53; 101; 43; 49] REAL_REGEX = true /\ regex_match [46] REAL_REGEX = false.
Proof. vm_compute. repeat split. Qed.

(* ---- C52 ---- *)
Theorem C52_floatEqual_refl : forall x a r, goodTol a -> goodTol r -> floatEqual x x a r = Ok true.
Proof. exact floatEqual_refl. Qed.
Print Assumptions C52_floatEqual_refl.
Theorem C52_floatEqual_throws : forall g e a r, floatEqual g e a r = Throw <-> ~ (goodTol a /\ goodTol r).
Proof. exact floatEqual_throws. Qed.
Print Assumptions C52_floatEqual_throws.
Theorem C52_floatEqual_total : forall g e a r, goodTol a -> goodTol r -> exists b, floatEqual g e a r = Ok b.
Proof. exact floatEqual_total. Qed.
Print Assumptions C52_floatEqual_total.
Theorem C52_floatEqual_classes : forall g e a r, goodTol a -> goodTol r -> isfinite g && isfinite e = false ->
  (floatEqual g e a r = Ok true <->
   (g = S754_nan /\ e = S754_nan) \/ (exists s, g = S754_infinity s /\ e = S754_infinity s)).
Proof. exact floatEqual_classes. Qed.
Print Assumptions C52_floatEqual_classes.
Theorem C52_floatEqual_mono : forall g e a r a' r', SFleb a a' = true -> SFleb r r' = true ->
  floatEqual g e a r = Ok true -> floatEqual g e a' r' = Ok true.
Proof. exact floatEqual_mono. Qed.
Print Assumptions C52_floatEqual_mono.
Example C52_ex : floatEqual exTwo exOne exTol exTol = Ok false /\ floatEqual exTwo exOne exOne exTol = Ok true /\
  floatEqual exTwo exOne exTol exOne = Ok true /\ floatEqual exOne exTwo exTol exTol = Ok false /\
  floatEqual exOne S754_nan exTol exTol = Ok false /\ floatEqual exOne exOne S754_nan exTol = Throw.
Proof. vm_compute. repeat split. Qed.

(* ---- C53 ---- *)
Theorem C53_integers_words : forall st lower upper count sep file vs,
  spaceSensitive st = false -> 0 <= count -> sep = 32 \/ sep = 10 ->
  (integerWords st lower upper count sep file = Ret vs [] <->
   alen vs = count /\ Forall (fun v => is_i64 v /\ lower <= v < upper) vs /\
   exists ts, Forall2 decimalOf ts vs /\ wordsOf file ts).
Proof. exact integerWords_spec. Qed.
Print Assumptions C53_integers_words.
Theorem C53_integers_else : forall st lower upper count sep file, 0 <= count -> sep = 32 \/ sep = 10 ->
  (exists vs, integerWords st lower upper count sep file = Ret vs []) \/
  integerWords st lower upper count sep file = Exit (onFail st).
Proof. exact integerWords_else. Qed.
Print Assumptions C53_integers_else.
Theorem C53_strings_words : forall st count sep file vs,
  spaceSensitive st = false -> 0 <= count -> sep = 32 \/ sep = 10 ->
  (stringWords st count sep file = Ret vs [] <->
   exists ts, alen ts = count /\ vs = map (folded (caseSensitive st)) ts /\ wordsOf file ts).
Proof. exact stringWords_spec. Qed.
Print Assumptions C53_strings_words.
Theorem C53_strings_else : forall st count sep file, 0 <= count -> sep = 32 \/ sep = 10 ->
  (exists vs, stringWords st count sep file = Ret vs []) \/
  stringWords st count sep file = Exit (onFail st).
Proof. exact stringWords_else. Qed.
Print Assumptions C53_strings_else.
Example C53_ex :
  let st := mkCfg false false 43 exTol exTol in
  integerWords st (-9) 9 2 32 [10; 49; 9; 32; 45; 50] = Ret [1; -2] [] /\
  integerWords st (-9) 9 2 32 [49; 32; 45; 50; 32; 51] = Exit 43 /\
  stringWords st 1 32 [32; 65; 98; 10; 10] = Ret [[97; 98]] [].
Proof. vm_compute. repeat split. Qed.

(* ---- C54 ---- *)
Theorem C54_expectString : forall st e s rest, token e ->
  (expectString st e s = Ret tt rest <->
   exists raw, nextToken (spaceSensitive st) s raw rest /\ folded (caseSensitive st) raw = folded (caseSensitive st) e).
Proof. exact expectString_spec. Qed.
Print Assumptions C54_expectString.
Theorem C54_expectString_raises : forall st e s, expectString st e s = Raise <-> ~ token e.
Proof. exact expectString_raises. Qed.
Print Assumptions C54_expectString_raises.
Theorem C54_expectInt : forall st e s rest,
  expectInt st e s = Ret tt rest <->
  exists t, nextToken (spaceSensitive st) s t rest /\ decimalOf t e /\ is_i64 e.
Proof. exact expectInt_spec. Qed.
Print Assumptions C54_expectInt.
Theorem C54_expectInt_else : forall st e s,
  (exists u rest, expectInt st e s = Ret u rest) \/ expectInt st e s = Exit (onFail st).
Proof. exact safe_expectInt. Qed.
Print Assumptions C54_expectInt_else.
Example C54_ex :
  expectString (mkCfg false false 43 exTol exTol) [89; 101; 115] [32; 89; 69; 115; 10] = Ret tt [10] /\
  expectString exCfg [89; 101; 115] [89; 69; 115; 10] = Exit 43 /\
  expectString exCfg [89; 32] [89] = Raise /\
  expectInt exCfg 12 [49; 50] = Ret tt [] /\ expectInt exCfg 12 [49; 51] = Exit 43.
Proof. vm_compute. repeat split. Qed.
