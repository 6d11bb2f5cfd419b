(* C91: lists of values and reads that log. *)
From Coq Require Import String.
From Verif Require Import Base SeqModel RegexModel RegexProofs FloatModel InputModel InputSpec InputProofs2 InputProofs3 InputClient InitModel InitSpec DecimalModel
  ConstraintModel ConstraintSpec ConstraintProofs ReadModel ReadSpec ReadProofs ReadProofs2.
From Coq Require Import ZArith List Lia.
Import ListNotations.
Open Scope Z_scope.

Theorem C91_string : forall st p l u s v r, stringReLen st p l u s = Ret v r <->
  exists t, nextToken (spaceSensitive st) s t r /\ v = folded (caseSensitive st) t /\ lang p v /\ l <= alen v < u.
Proof. exact stringReLen_item. Qed.
Print Assumptions C91_string.
Theorem C91_strings : forall st count sep s vs r, strings st count sep s = Ret vs r <->
  separator sep /\ alen vs = count /\ listed (spaceSensitive st) sep (fun t v => v = folded (caseSensitive st) t) s vs r.
Proof. exact strings_list. Qed.
Print Assumptions C91_strings.
Theorem C91_strings_pattern : forall st p count sep s vs r, stringsRe st p count sep s = Ret vs r <->
  separator sep /\ alen vs = count /\ listed (spaceSensitive st) sep (fun t v => v = folded (caseSensitive st) t /\ lang p v) s vs r.
Proof. exact stringsRe_list. Qed.
Print Assumptions C91_strings_pattern.
Theorem C91_strings_length : forall st l u count sep s vs r, stringsLen st l u count sep s = Ret vs r <->
  separator sep /\ alen vs = count /\ listed (spaceSensitive st) sep (fun t v => v = folded (caseSensitive st) t /\ l <= alen v < u) s vs r.
Proof. exact stringsLen_list. Qed.
Print Assumptions C91_strings_length.
Theorem C91_strings_both : forall st p l u count sep s vs r, stringsReLen st p l u count sep s = Ret vs r <->
  separator sep /\ alen vs = count /\ listed (spaceSensitive st) sep (fun t v => v = folded (caseSensitive st) t /\ lang p v /\ l <= alen v < u) s vs r.
Proof. exact stringsReLen_list. Qed.
Print Assumptions C91_strings_both.
Theorem C91_integers : forall st count sep s vs r, integers st count sep s = Ret vs r <->
  separator sep /\ alen vs = count /\ listed (spaceSensitive st) sep (fun t v => decimalOf t v /\ is_i64 v) s vs r.
Proof. exact integers_list. Qed.
Print Assumptions C91_integers.
Theorem C91_integers_in : forall st l u count sep s vs r, integersIn st l u count sep s = Ret vs r <->
  separator sep /\ alen vs = count /\ listed (spaceSensitive st) sep (fun t v => decimalOf t v /\ is_i64 v /\ l <= v < u) s vs r.
Proof. exact integersIn_list. Qed.
Print Assumptions C91_integers_in.
Theorem C91_reals : forall st parse count sep s vs r, reals st parse count sep s = Ret vs r <-> separator sep /\ alen vs = count /\
  listed (spaceSensitive st) sep (fun t v => realToken (folded (caseSensitive st) t) /\ parse (folded (caseSensitive st) t) = Some v) s vs r.
Proof. exact reals_list. Qed.
Print Assumptions C91_reals.
Theorem C91_reals_in : forall st parse, goodTol (floatAbsTol st) -> goodTol (floatRelTol st) -> forall l u count sep s vs r, realsIn st parse l u count sep s = Ret vs r <->
  separator sep /\ alen vs = count /\ listed (spaceSensitive st) sep (fun t v => realToken (folded (caseSensitive st) t) /\
    parse (folded (caseSensitive st) t) = Some v /\ nearRange (floatAbsTol st) (floatRelTol st) l u v) s vs r.
Proof. exact realsIn_list. Qed.
Print Assumptions C91_reals_in.
Theorem C91_reals_strict : forall st parse l u a b count sep s vs r, realsStrict st parse l u a b count sep s = Ret vs r <-> separator sep /\ alen vs = count /\
  listed (spaceSensitive st) sep (fun t v => (exists k, strictReal t k /\ a <= k < b) /\ parse t = Some v /\ SFleb l v = true /\ SFltb v u = true) s vs r.
Proof. exact realsStrict_list. Qed.
Print Assumptions C91_reals_strict.
(* otherwise the program ends with the exit code of the stream; only wrong calls are errors *)
Theorem C91_else : forall st parse, goodTol (floatAbsTol st) -> goodTol (floatRelTol st) -> forall count sep s,
  listResult (onFail st) (strings st count sep s) sep count /\ (forall p, listResult (onFail st) (stringsRe st p count sep s) sep count) /\
  (forall l u, listResult (onFail st) (stringsLen st l u count sep s) sep count) /\ (forall p l u, listResult (onFail st) (stringsReLen st p l u count sep s) sep count) /\
  listResult (onFail st) (integers st count sep s) sep count /\ (forall l u, listResult (onFail st) (integersIn st l u count sep s) sep count) /\
  listResult (onFail st) (reals st parse count sep s) sep count /\ (forall l u, listResult (onFail st) (realsIn st parse l u count sep s) sep count) /\
  (forall l u a b, listResult (onFail st) (realsStrict st parse l u a b count sep s) sep count).
Proof. exact lists_else. Qed.
Print Assumptions C91_else.

(* a read that logs reads the same and logs each value once, in order *)
Theorem C91_log_integer : forall st eps l u c s v d r, integerLog st eps l u c s = Ret (v, d) r <-> integerIn st l u s = Ret v r /\ logOne eps c (LogInt TInteger l u v) = Ok d.
Proof. intros st eps l u. exact (thenLog_iff eps _ _ _). Qed.
Print Assumptions C91_log_integer.
Theorem C91_log_string : forall st eps l u c s v d r, stringLog st eps l u c s = Ret (v, d) r <-> stringLen st l u s = Ret v r /\ logOne eps c (LogInt (TContainer 0) l u (alen v)) = Ok d.
Proof. intros st eps l u. exact (thenLog_iff eps _ _ _). Qed.
Print Assumptions C91_log_string.
Theorem C91_log_string_pattern : forall st eps p l u c s v d r, stringReLog st eps p l u c s = Ret (v, d) r <->
  stringReLen st p l u s = Ret v r /\ logOne eps c (LogInt (TContainer 0) l u (alen v)) = Ok d.
Proof. intros st eps p l u. exact (thenLog_iff eps _ _ _). Qed.
Print Assumptions C91_log_string_pattern.
Theorem C91_log_real : forall st parse eps l u c s v d r, realLog st parse eps l u c s = Ret (v, d) r <-> realIn st parse l u s = Ret v r /\ logOne eps c (LogReal l u v) = Ok d.
Proof. intros st parse eps l u. exact (thenLog_iff eps _ _ _). Qed.
Print Assumptions C91_log_real.
Theorem C91_log_real_strict : forall st parse eps l u a b c s v d r, realStrictLog st parse eps l u a b c s = Ret (v, d) r <->
  realStrict st parse l u a b s = Ret v r /\ logOne eps c (LogReal l u v) = Ok d.
Proof. intros st parse eps l u a b. exact (thenLog_iff eps _ _ _). Qed.
Print Assumptions C91_log_real_strict.
Theorem C91_log_integers : forall st eps l u c count sep s vs d r, integersLog st eps l u c count sep s = Ret (vs, d) r <->
  integersIn st l u count sep s = Ret vs r /\ logs eps c (map (LogInt TInteger l u) vs) d.
Proof. intros st eps l u. exact (manyLog_iff st eps _ _ _). Qed.
Print Assumptions C91_log_integers.
Theorem C91_log_strings : forall st eps l u c count sep s vs d r, stringsLog st eps l u c count sep s = Ret (vs, d) r <->
  stringsLen st l u count sep s = Ret vs r /\ logs eps c (map (fun v => LogInt (TContainer 0) l u (alen v)) vs) d.
Proof. intros st eps l u. exact (manyLog_iff st eps _ _ _). Qed.
Print Assumptions C91_log_strings.
Theorem C91_log_strings_pattern : forall st eps p l u c count sep s vs d r, stringsReLog st eps p l u c count sep s = Ret (vs, d) r <->
  stringsReLen st p l u count sep s = Ret vs r /\ logs eps c (map (fun v => LogInt (TContainer 0) l u (alen v)) vs) d.
Proof. intros st eps p l u. exact (manyLog_iff st eps _ _ _). Qed.
Print Assumptions C91_log_strings_pattern.
Theorem C91_log_reals : forall st parse eps l u c count sep s vs d r, realsLog st parse eps l u c count sep s = Ret (vs, d) r <->
  realsIn st parse l u count sep s = Ret vs r /\ logs eps c (map (LogReal l u) vs) d.
Proof. intros st parse eps l u. exact (manyLog_iff st eps _ _ _). Qed.
Print Assumptions C91_log_reals.
Theorem C91_log_reals_strict : forall st parse eps l u a b c count sep s vs d r, realsStrictLog st parse eps l u a b c count sep s = Ret (vs, d) r <->
  realsStrict st parse l u a b count sep s = Ret vs r /\ logs eps c (map (LogReal l u) vs) d.
Proof. intros st parse eps l u a b. exact (manyLog_iff st eps _ _ _). Qed.
Print Assumptions C91_log_reals_strict.

(* the log never gets in the way of a constraint with values of the same type *)
Theorem C91_log_quiet : forall st eps c l u count sep s, is_i64 u -> separator sep -> 0 <= count ->
  (suits c TInteger -> readResult (onFail st) (integerLog st eps l u c s) /\ readResult (onFail st) (integersLog st eps l u c count sep s)) /\
  (suits c (TContainer 0) -> readResult (onFail st) (stringLog st eps l u c s) /\ readResult (onFail st) (stringsLog st eps l u c count sep s) /\
     forall p, readResult (onFail st) (stringReLog st eps p l u c s) /\ readResult (onFail st) (stringsReLog st eps p l u c count sep s)).
Proof. exact quiet_logs. Qed.
Print Assumptions C91_log_quiet.
Theorem C91_log_quiet_real : forall st parse eps, goodTol eps -> goodTol (floatAbsTol st) -> goodTol (floatRelTol st) -> forall c l u count sep s, separator sep -> 0 <= count -> suits c TReal ->
  readResult (onFail st) (realLog st parse eps l u c s) /\ readResult (onFail st) (realsLog st parse eps l u c count sep s) /\
  forall a b, readResult (onFail st) (realStrictLog st parse eps l u a b c s) /\ readResult (onFail st) (realsStrictLog st parse eps l u a b c count sep s).
Proof. exact quiet_real_logs. Qed.
Print Assumptions C91_log_quiet_real.

(* after a list the constraint has the least and the greatest value, and whether the bounds were met *)
Theorem C91_summary_integers : forall st eps, goodTol eps -> forall l u count sep s vs d r, 0 < count -> integersLog st eps l u newConstraint count sep s = Ret (vs, d) r ->
  exists b, d = mkConstraint (VInt b) (Some TInteger) /\ boundsOf l u vs b.
Proof. intros st. exact (integers_summary st (fun _ => None)). Qed.
Print Assumptions C91_summary_integers.
Theorem C91_summary_strings : forall st eps, goodTol eps -> forall l u count sep s vs d r, 0 < count -> stringsLog st eps l u newConstraint count sep s = Ret (vs, d) r ->
  exists b, d = mkConstraint (VInt b) (Some (TContainer 0)) /\ boundsOf l u (map (@alen Z) vs) b.
Proof. intros st. exact (strings_summary st (fun _ => None)). Qed.
Print Assumptions C91_summary_strings.
Theorem C91_summary_strings_pattern : forall st eps, goodTol eps -> forall p l u count sep s vs d r, 0 < count -> stringsReLog st eps p l u newConstraint count sep s = Ret (vs, d) r ->
  exists b, d = mkConstraint (VInt b) (Some (TContainer 0)) /\ boundsOf l u (map (@alen Z) vs) b.
Proof. intros st. exact (stringsRe_summary st (fun _ => None)). Qed.
Print Assumptions C91_summary_strings_pattern.
Theorem C91_summary_reals : forall st parse eps, goodTol eps -> goodTol (floatAbsTol st) -> goodTol (floatRelTol st) -> (forall t v, parse t = Some v -> number v) ->
  forall l u count sep s vs d r, number l -> number u -> 0 < count ->
  realsLog st parse eps l u newConstraint count sep s = Ret (vs, d) r -> exists b, d = mkConstraint (VReal b) (Some TReal) /\ summaryReal eps (map (fun v => (l, u, v)) vs) b.
Proof. exact reals_summary. Qed.
Print Assumptions C91_summary_reals.
Theorem C91_summary_reals_strict : forall st parse eps, goodTol eps -> forall l u a b count sep s vs d r, number l -> number u -> 0 < count ->
  realsStrictLog st parse eps l u a b newConstraint count sep s = Ret (vs, d) r -> exists b, d = mkConstraint (VReal b) (Some TReal) /\ summaryReal eps (map (fun v => (l, u, v)) vs) b.
Proof. exact realsStrict_summary. Qed.
Print Assumptions C91_summary_reals_strict.

Definition loose : cfg := mkCfg false false 43 DEFAULT_EPS DEFAULT_EPS.
Definition someEps : real := DEFAULT_EPS.
Example C91_ex_lists :
  strings exCfg 2 32 (text "a bC d") = Ret [text "a"; text "bC"] (text " d") /\ strings loose 2 32 (text "a   bC d") = Ret [text "a"; text "bc"] (text " d") /\
  strings exCfg 2 32 (text "a  bC d") = Exit 43 /\ strings exCfg 2 44 (text "a,b") = Raise /\ strings exCfg (-1) 32 (text "a") = Raise /\
  integers exCfg 3 10 (text "1" ++ [10] ++ text "-2" ++ [10] ++ text "3") = Ret [1; -2; 3] [] /\
  stringsReLen exCfg (RPlus (RLit 97)) 1 3 2 32 (text "a aa aaa") = Ret [text "a"; text "aa"] (text " aaa") /\
  stringsReLen exCfg (RPlus (RLit 97)) 1 3 3 32 (text "a aa aaa") = Exit 43 /\
  reals loose decimalReal 2 32 (text "1e-6 .5") = Ret [DEFAULT_EPS; S754_finite false 9223372036854775808 (-64)] [].
Proof. vm_compute. repeat split. Qed.
(* bounds 1 <= x <= 2: half an epsilon outside is accepted *)
Example C91_ex_reals : goodTol (floatAbsTol loose) /\ goodTol (floatRelTol loose) /\ goodTol someEps /\
  match realsIn loose decimalReal exOne exTwo 3 32 (text "0.9999995 2.0 1.5") with Ret vs [] => alen vs | _ => 0 end = 3 /\
  realsIn loose decimalReal exOne exTwo 1 32 (text "0.99") = Exit 43 /\
  realsStrict loose decimalReal exOne exTwo 0 2 2 32 (text "1 1.5") = Ret [exOne; S754_finite false 13835058055282163712 (-63)] [].
Proof. vm_compute. repeat split. Qed.
Example C91_ex_logs : is_i64 11 /\ suits newConstraint TInteger /\ suits newConstraint (TContainer 0) /\
  integersLog exCfg someEps 1 11 newConstraint 3 32 (text "4 10 7") = Ret ([4; 10; 7], mkConstraint (VInt (mkBounds false true 4 10 1 10)) (Some TInteger)) [] /\
  stringsLog exCfg someEps 1 5 newConstraint 2 32 (text "a bcd") = Ret ([text "a"; text "bcd"], mkConstraint (VInt (mkBounds true false 1 3 1 4)) (Some (TContainer 0))) [] /\
  integersLog exCfg someEps 1 11 newConstraint 3 32 (text "4 11 7") = Exit 43.
Proof. split; [vm_compute; split; discriminate|]. split; [left; split; reflexivity|]. split; [left; split; reflexivity|]. vm_compute. repeat split. Qed.
Example C91_ex_log_reals : suits newConstraint TReal /\ number exOne /\ number exTwo /\
  realsStrictLog exCfg decimalReal someEps exOne exTwo 0 2 newConstraint 2 32 (text "1 1.5") =
    Ret ([exOne; S754_finite false 13835058055282163712 (-63)], mkConstraint (VReal (mkBounds true false exOne (S754_finite false 13835058055282163712 (-63)) exOne exTwo)) (Some TReal)) [].
Proof. split; [left; split; reflexivity|]. split; [discriminate|]. split; [discriminate|]. vm_compute. reflexivity. Qed.
