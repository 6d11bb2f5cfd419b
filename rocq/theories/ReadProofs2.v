From Verif Require Import Base BaseLemmas Tac SeqModel RegexModel RegexProofs FloatModel InputModel InputSpec InputProofs InputProofs2 InputProofs3
  ConstraintModel ConstraintSpec ConstraintProofs ReadModel ReadSpec ReadProofs.
From Coq Require Import ZArith List Lia.
Import ListNotations.
Open Scope Z_scope.

Section Functions.
  Variable st : cfg.
  Variable parse : list Z -> option real.
  Variable eps : real.
  Let ss := spaceSensitive st.
  Let fold_ := folded (caseSensitive st).
  Lemma strings_list : forall count sep s vs r, strings st count sep s = Ret vs r <-> separator sep /\ alen vs = count /\ listed ss sep (fun t v => v = fold_ t) s vs r.
  Proof. intros. apply many_listed, string_item. Qed.
  Lemma stringsRe_list : forall p count sep s vs r, stringsRe st p count sep s = Ret vs r <-> separator sep /\ alen vs = count /\ listed ss sep (fun t v => v = fold_ t /\ lang p v) s vs r.
  Proof. intros. apply many_listed, stringRe_item. Qed.
  Lemma stringsLen_list : forall l u count sep s vs r, stringsLen st l u count sep s = Ret vs r <-> separator sep /\ alen vs = count /\ listed ss sep (fun t v => v = fold_ t /\ l <= alen v < u) s vs r.
  Proof. intros. apply many_listed, stringLen_item. Qed.
  Lemma stringsReLen_list : forall p l u count sep s vs r, stringsReLen st p l u count sep s = Ret vs r <->
    separator sep /\ alen vs = count /\ listed ss sep (fun t v => v = fold_ t /\ lang p v /\ l <= alen v < u) s vs r.
  Proof. intros. apply many_listed, stringReLen_item. Qed.
  Lemma integers_list : forall count sep s vs r, integers st count sep s = Ret vs r <-> separator sep /\ alen vs = count /\ listed ss sep (fun t v => decimalOf t v /\ is_i64 v) s vs r.
  Proof. intros. apply many_listed, integer_item. Qed.
  Lemma integersIn_list : forall l u count sep s vs r, integersIn st l u count sep s = Ret vs r <-> separator sep /\ alen vs = count /\ listed ss sep (fun t v => decimalOf t v /\ is_i64 v /\ l <= v < u) s vs r.
  Proof. intros. apply many_listed, integerIn_item. Qed.
  Lemma reals_list : forall count sep s vs r, reals st parse count sep s = Ret vs r <-> separator sep /\ alen vs = count /\ listed ss sep (fun t v => realToken (fold_ t) /\ parse (fold_ t) = Some v) s vs r.
  Proof. intros. apply many_listed, real_item. Qed.
  Lemma realsIn_list : goodTol (floatAbsTol st) -> goodTol (floatRelTol st) -> forall l u count sep s vs r, realsIn st parse l u count sep s = Ret vs r <->
    separator sep /\ alen vs = count /\ listed ss sep (fun t v => realToken (fold_ t) /\ parse (fold_ t) = Some v /\ nearRange (floatAbsTol st) (floatRelTol st) l u v) s vs r.
  Proof. intros. apply many_listed, realIn_item; auto. Qed.
  Lemma realsStrict_list : forall l u a b count sep s vs r, realsStrict st parse l u a b count sep s = Ret vs r <->
    separator sep /\ alen vs = count /\ listed ss sep (fun t v => (exists k, strictReal t k /\ a <= k < b) /\ parse t = Some v /\ SFleb l v = true /\ SFltb v u = true) s vs r.
  Proof. intros. apply many_listed, realStrict_item. Qed.

  Lemma lists_else : goodTol (floatAbsTol st) -> goodTol (floatRelTol st) -> forall count sep s,
    listResult (onFail st) (strings st count sep s) sep count /\ (forall p, listResult (onFail st) (stringsRe st p count sep s) sep count) /\
    (forall l u, listResult (onFail st) (stringsLen st l u count sep s) sep count) /\ (forall p l u, listResult (onFail st) (stringsReLen st p l u count sep s) sep count) /\
    listResult (onFail st) (integers st count sep s) sep count /\ (forall l u, listResult (onFail st) (integersIn st l u count sep s) sep count) /\
    listResult (onFail st) (reals st parse count sep s) sep count /\ (forall l u, listResult (onFail st) (realsIn st parse l u count sep s) sep count) /\
    (forall l u a b, listResult (onFail st) (realsStrict st parse l u a b count sep s) sep count).
  Proof.
    intros TA TR count sep s. split; [|split; [|split; [|split; [|split; [|split; [|split; [|split]]]]]]]; intros; apply many_result.
    - apply safe_string.
    - apply safe_stringRe.
    - apply safe_stringLen.
    - apply safe_reLen.
    - apply safe_integer.
    - apply safe_integerIn.
    - apply safe_readReal.
    - apply safe_realIn; auto.
    - apply safe_realStrict.
  Qed.

  Hypothesis G : goodTol eps.
  (* the log accepts what was read *)
  Lemma integer_logs : forall l u c s v r, is_i64 u -> suits c TInteger -> integerIn st l u s = Ret v r -> exists d, logOne eps c (LogInt TInteger l u v) = Ok d /\ suits d TInteger.
  Proof. intros l u c s v r U S H. apply integerIn_item in H as (t & _ & _ & I & B). apply log_int_suits; auto; [discriminate|]. unfold is_i64 in *. lia. Qed.
  Lemma string_logs : forall l u c s v r, is_i64 u -> suits c STRING -> stringLen st l u s = Ret v r -> exists d, logOne eps c (LogInt STRING l u (alen v)) = Ok d /\ suits d STRING.
  Proof. intros l u c s v r U S H. apply stringLen_item in H as (t & _ & _ & B). apply log_int_suits; auto; [discriminate|]. unfold is_i64, I64_MIN, I64_MAX, alen in *. lia. Qed.
  Lemma stringRe_logs : forall p l u c s v r, is_i64 u -> suits c STRING -> stringReLen st p l u s = Ret v r -> exists d, logOne eps c (LogInt STRING l u (alen v)) = Ok d /\ suits d STRING.
  Proof. intros p l u c s v r U S H. apply stringReLen_item in H as (t & _ & _ & _ & B). apply log_int_suits; auto; [discriminate|]. unfold is_i64, I64_MIN, I64_MAX, alen in *. lia. Qed.
  Lemma logs_quiet : forall c l u count sep, is_i64 u -> separator sep -> 0 <= count ->
    (suits c TInteger -> safe st (integerLog st eps l u c) /\ safe st (integersLog st eps l u c count sep)) /\
    (suits c STRING -> safe st (stringLog st eps l u c) /\ safe st (stringsLog st eps l u c count sep) /\
       forall p, safe st (stringReLog st eps p l u c) /\ safe st (stringsReLog st eps p l u c count sep)).
  Proof.
    intros c l u count sep U S C. split; intros H.
    - assert (Q := fun c s v r => integer_logs l u c s v r U). split; [apply (thenLog_safe st eps _ _ _ (fun c => suits c TInteger))|apply (manyLog_safe st eps _ _ _ (fun c => suits c TInteger))]; auto using safe_integerIn.
    - assert (Q := fun c s v r => string_logs l u c s v r U). split; [apply (thenLog_safe st eps _ _ _ (fun c => suits c STRING)); auto using safe_stringLen|].
      split; [apply (manyLog_safe st eps _ _ _ (fun c => suits c STRING)); auto using safe_stringLen|]. intros p.
      assert (Q' := fun c s v r => stringRe_logs p l u c s v r U). split; [apply (thenLog_safe st eps _ _ _ (fun c => suits c STRING))|apply (manyLog_safe st eps _ _ _ (fun c => suits c STRING))]; auto using safe_reLen.
  Qed.
  Lemma real_logs_quiet : goodTol (floatAbsTol st) -> goodTol (floatRelTol st) -> forall c l u count sep, separator sep -> 0 <= count -> suits c TReal ->
    safe st (realLog st parse eps l u c) /\ safe st (realsLog st parse eps l u c count sep) /\
    forall a b, safe st (realStrictLog st parse eps l u a b c) /\ safe st (realsStrictLog st parse eps l u a b c count sep).
  Proof.
    intros TA TR c l u count sep S C H. assert (Q : forall c v, suits c TReal -> exists d, logOne eps c (LogReal l u v) = Ok d /\ suits d TReal) by (intros; apply log_real_suits; auto).
    split; [apply (thenLog_safe st eps _ _ _ (fun c => suits c TReal)); eauto using safe_realIn|]. split; [apply (manyLog_safe st eps _ _ _ (fun c => suits c TReal)); eauto using safe_realIn|].
    intros a b. split; [apply (thenLog_safe st eps _ _ _ (fun c => suits c TReal))|apply (manyLog_safe st eps _ _ _ (fun c => suits c TReal))]; eauto using safe_realStrict.
  Qed.

  (* the summary after the list *)
  Lemma integers_summary : forall l u count sep s vs d r, 0 < count -> integersLog st eps l u newConstraint count sep s = Ret (vs, d) r ->
    exists b, d = mkConstraint (VInt b) (Some TInteger) /\ boundsOf l u vs b.
  Proof.
    intros l u count sep s vs d r C H. apply manyLog_iff in H as (M & L). apply integersIn_list in M as (_ & A & _). apply (logs_ints eps G) in L; auto; [discriminate|]. intros ->. unfold alen in A. cbn in A. lia.
  Qed.
  Lemma lengths_calls : forall l u (vs : list (list Z)), map (fun t => LogInt STRING l u (alen t)) vs = map (LogInt STRING l u) (map (@alen Z) vs).
  Proof. intros. rewrite map_map. reflexivity. Qed.
  Lemma strings_summary : forall l u count sep s vs d r, 0 < count -> stringsLog st eps l u newConstraint count sep s = Ret (vs, d) r ->
    exists b, d = mkConstraint (VInt b) (Some STRING) /\ boundsOf l u (map (@alen Z) vs) b.
  Proof.
    intros l u count sep s vs d r C H. apply manyLog_iff in H as (M & L). apply stringsLen_list in M as (_ & A & _). rewrite lengths_calls in L. apply (logs_ints eps G) in L; auto; [discriminate|].
    destruct vs; [unfold alen in A; cbn in A; lia|discriminate].
  Qed.
  Lemma stringsRe_summary : forall p l u count sep s vs d r, 0 < count -> stringsReLog st eps p l u newConstraint count sep s = Ret (vs, d) r ->
    exists b, d = mkConstraint (VInt b) (Some STRING) /\ boundsOf l u (map (@alen Z) vs) b.
  Proof.
    intros p l u count sep s vs d r C H. apply manyLog_iff in H as (M & L). apply stringsReLen_list in M as (_ & A & _). rewrite lengths_calls in L. apply (logs_ints eps G) in L; auto; [discriminate|].
    destruct vs; [unfold alen in A; cbn in A; lia|discriminate].
  Qed.
  Lemma listed_Forall : forall A (P : list Z -> A -> Prop) (Q : A -> Prop) b sep s vs r, (forall t v, P t v -> Q v) -> listed b sep P s vs r -> Forall Q vs.
  Proof. intros A P Q b sep s vs r H L. induction L; constructor; eauto. Qed.
  Lemma reals_summary : goodTol (floatAbsTol st) -> goodTol (floatRelTol st) -> (forall t v, parse t = Some v -> number v) -> forall l u count sep s vs d r, number l -> number u -> 0 < count ->
    realsLog st parse eps l u newConstraint count sep s = Ret (vs, d) r -> exists b, d = mkConstraint (VReal b) (Some TReal) /\ summaryReal eps (map (fun v => (l, u, v)) vs) b.
  Proof.
    intros TA TR NP l u count sep s vs d r NL NU C H. apply manyLog_iff in H as (M & L). apply realsIn_list in M as (_ & A & M); auto. apply (logs_reals eps G) in L; auto.
    - eapply listed_Forall; [|exact M]. intros t v (_ & Q & _). eauto.
    - intros ->. unfold alen in A. cbn in A. lia.
  Qed.
  Lemma realsStrict_summary : forall l u a b count sep s vs d r, number l -> number u -> 0 < count ->
    realsStrictLog st parse eps l u a b newConstraint count sep s = Ret (vs, d) r -> exists b, d = mkConstraint (VReal b) (Some TReal) /\ summaryReal eps (map (fun v => (l, u, v)) vs) b.
  Proof.
    intros l u a b count sep s vs d r NL NU C H. apply manyLog_iff in H as (M & L). apply realsStrict_list in M as (_ & A & M); auto. apply (logs_reals eps G) in L; auto.
    - eapply listed_Forall; [|exact M]. intros t v (_ & _ & Q & _) ->. apply nan_le in Q. discriminate.
    - intros ->. unfold alen in A. cbn in A. lia.
  Qed.
End Functions.
Lemma quiet_logs : forall st eps c l u count sep s, is_i64 u -> separator sep -> 0 <= count ->
  (suits c TInteger -> readResult (onFail st) (integerLog st eps l u c s) /\ readResult (onFail st) (integersLog st eps l u c count sep s)) /\
  (suits c (TContainer 0) -> readResult (onFail st) (stringLog st eps l u c s) /\ readResult (onFail st) (stringsLog st eps l u c count sep s) /\
     forall p, readResult (onFail st) (stringReLog st eps p l u c s) /\ readResult (onFail st) (stringsReLog st eps p l u c count sep s)).
Proof.
  intros st eps c l u count sep s U S C. destruct (logs_quiet st (fun _ => None) eps c l u count sep U S C) as (A & B). split; intros H.
  - destruct (A H) as (A1 & A2). split; [apply A1|apply A2].
  - destruct (B H) as (B1 & B2 & B3). split; [apply B1|]. split; [apply B2|]. intros p. destruct (B3 p) as (B4 & B5). split; [apply B4|apply B5].
Qed.
Lemma quiet_real_logs : forall st parse eps, goodTol eps -> goodTol (floatAbsTol st) -> goodTol (floatRelTol st) -> forall c l u count sep s, separator sep -> 0 <= count -> suits c TReal ->
  readResult (onFail st) (realLog st parse eps l u c s) /\ readResult (onFail st) (realsLog st parse eps l u c count sep s) /\
  forall a b, readResult (onFail st) (realStrictLog st parse eps l u a b c s) /\ readResult (onFail st) (realsStrictLog st parse eps l u a b c count sep s).
Proof.
  intros st parse eps G TA TR c l u count sep s S C H. destruct (real_logs_quiet st parse eps G TA TR c l u count sep S C H) as (A & B & D).
  split; [apply A|]. split; [apply B|]. intros a b. destruct (D a b) as (D1 & D2). split; [apply D1|apply D2].
Qed.
