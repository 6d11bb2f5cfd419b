From Verif Require Import Base BaseLemmas Tac SeqModel RegexModel RegexProofs FloatModel InputModel InputSpec InputProofs InputProofs2 InputProofs3
  ConstraintModel ConstraintSpec ConstraintProofs ReadModel ReadSpec.
From Coq Require Import ZArith List Lia.
Import ListNotations.
Open Scope Z_scope.

Section Lists.
  Variable st : cfg.
  Lemma sep_iff : forall sep call, checkSeparator st sep = Some call -> separator sep /\ forall s u r, call s = Ret u r <-> separated (spaceSensitive st) sep s r.
  Proof.
    intros sep call H. unfold checkSeparator in H. destruct (Z.eqb_spec sep 32) as [->|N]; [|destruct (Z.eqb_spec sep 10) as [->|N']; [|discriminate]].
    - injection H as <-. split; [left; auto|]. intros s u r. destruct u. unfold separated. destruct (spaceSensitive st) eqn:SS; [apply space_iff; auto|]. unfold space. rewrite SS. unfold rret. split; [intros H; inv H; auto|intros ->; auto].
    - injection H as <-. split; [right; auto|]. intros s u r. destruct u. unfold separated. destruct (spaceSensitive st) eqn:SS; [apply newline_iff; auto|]. unfold newline. rewrite SS. unfold rret. split; [intros H; inv H; auto|intros ->; auto].
  Qed.
  Lemma sep_some : forall sep, separator sep -> exists call, checkSeparator st sep = Some call.
  Proof. intros sep [->| ->]; cbn; eauto. Qed.
  Lemma sep_none : forall sep, ~ separator sep -> checkSeparator st sep = None.
  Proof. intros sep N. destruct (checkSeparator st sep) eqn:E; auto. apply sep_iff in E as (S & _). contradiction. Qed.

  Variable A : Type.
  Variable item : rd A.
  Lemma many_result : (safe st item) -> forall count sep s, listResult (onFail st) (many st item count sep s) sep count.
  Proof.
    intros SI count sep s. destruct (Z.lt_ge_cases count 0) as [L|G].
    - right. split; [|lia]. unfold many. destruct (checkSeparator st sep); auto. replace (count <? 0) with true by lia. auto.
    - destruct (checkSeparator st sep) as [call|] eqn:C.
      + destruct (sep_iff sep call C) as (S & _). destruct (safe_many st A item count sep SI G S s) as [H|H]; left; [left|right]; auto.
      + right. split; [unfold many; rewrite C; auto|]. intros (S & _). destruct (sep_some sep S) as (c & E). congruence.
  Qed.
  Variable P : list Z -> A -> Prop.
  Hypothesis item_spec : forall s v r, item s = Ret v r <-> exists t, nextToken (spaceSensitive st) s t r /\ P t v.
  Lemma repeat_listed : forall sep call, (forall s u r, call s = Ret u r <-> separated (spaceSensitive st) sep s r) ->
    forall n s vs r, repeatRead n item call s = Ret vs r <-> length vs = n /\ listed (spaceSensitive st) sep P s vs r.
  Proof.
    intros sep call SC. induction n as [|n IH]; intros s vs r; cbn [repeatRead].
    - unfold rret. split; [intros H; inv H; split; [auto|constructor]|]. intros (L & H). destruct vs; [|discriminate]. inversion H; subst; auto.
    - unfold rbind. split.
      + destruct (item s) as [v m| |] eqn:I; [|discriminate..]. apply item_spec in I as (t & NT & PT). destruct n as [|n].
        * cbn [repeatRead]. unfold rret. intros H. inv H. split; auto. eapply listed_last; eauto.
        * destruct (call m) as [u m'| |] eqn:SE; [|discriminate..]. apply SC in SE. destruct (repeatRead (S n) item call m') as [l r'| |] eqn:R; [|discriminate..].
          unfold rret. intros H. inv H. apply IH in R as (L & R). destruct l as [|w l]; [discriminate|]. split; [cbn in *; lia|]. eapply listed_more; eauto.
      + intros (L & H). inversion H as [|? t v ? NT PT|? t v m m' w l ? NT PT S R]; subst; [discriminate| |].
        * cbn in L. assert (n = 0%nat) by lia. subst n. rewrite (proj2 (item_spec s v r) (ex_intro _ t (conj NT PT))). reflexivity.
        * cbn in L. destruct n as [|n]; [lia|]. rewrite (proj2 (item_spec s v m) (ex_intro _ t (conj NT PT))).
          destruct (call m) as [u m2| |] eqn:E.
          -- assert (S2 := proj2 (SC m u m') S). rewrite E in S2. inv S2. assert (R2 : repeatRead (Datatypes.S n) item call m' = Ret (w :: l) r) by (apply IH; split; [cbn; congruence|auto]). rewrite R2. reflexivity.
          -- assert (S2 := proj2 (SC m tt m') S). congruence.
          -- assert (S2 := proj2 (SC m tt m') S). congruence.
  Qed.
  Lemma many_listed : forall count sep s vs r, many st item count sep s = Ret vs r <-> separator sep /\ alen vs = count /\ listed (spaceSensitive st) sep P s vs r.
  Proof.
    intros count sep s vs r. unfold many. destruct (checkSeparator st sep) as [call|] eqn:C.
    - destruct (sep_iff sep call C) as (S & SC). unfold alen. destruct (Z.ltb_spec count 0).
      + split; [discriminate|]. intros (_ & L & _). lia.
      + rewrite (repeat_listed sep call SC). split; [intros (L & H1); split; [auto|]; split; [lia|auto]|intros (_ & L & H1); split; [lia|auto]].
    - split; [discriminate|]. intros (S & _). destruct (sep_some sep S) as (c & E). congruence.
  Qed.
End Lists.

(* ---- the items ---- *)
Section Items.
  Variable st : cfg.
  Variable parse : list Z -> option real.
  Lemma string_item : forall s v r, string st s = Ret v r <-> exists t, nextToken (spaceSensitive st) s t r /\ v = folded (caseSensitive st) t.
  Proof. intros. rewrite string_spec. reflexivity. Qed.
  Lemma stringRe_item : forall p s v r, stringRe st p s = Ret v r <-> exists t, nextToken (spaceSensitive st) s t r /\ v = folded (caseSensitive st) t /\ lang p v.
  Proof. intros. rewrite stringRe_spec, string_item, regex_match_lang. split; [intros ((t & N & E) & M); eauto|intros (t & N & E & M); eauto]. Qed.
  Lemma stringLen_item : forall l u s v r, stringLen st l u s = Ret v r <-> exists t, nextToken (spaceSensitive st) s t r /\ v = folded (caseSensitive st) t /\ l <= alen v < u.
  Proof. intros. apply stringLen_spec. Qed.
  Lemma stringReLen_item : forall p l u s v r, stringReLen st p l u s = Ret v r <-> exists t, nextToken (spaceSensitive st) s t r /\ v = folded (caseSensitive st) t /\ lang p v /\ l <= alen v < u.
  Proof.
    intros. unfold stringReLen, rbind, check, rret, fail. split.
    - destruct (stringLen st l u s) as [w m| |] eqn:E; [|discriminate..]. destruct (regex_match w p) eqn:M; cbn [negb]; [|discriminate]. intros H. inv H. apply stringLen_item in E as (t & N & F & B). apply regex_match_lang in M. exists t. auto.
    - intros (t & N & F & M & B). assert (E : stringLen st l u s = Ret v r) by (apply stringLen_item; eauto). rewrite E. apply regex_match_lang in M. rewrite M. reflexivity.
  Qed.
  Lemma integer_item : forall s v r, integer st s = Ret v r <-> exists t, nextToken (spaceSensitive st) s t r /\ decimalOf t v /\ is_i64 v.
  Proof. intros. apply integer_spec. Qed.
  Lemma integerIn_item : forall l u s v r, integerIn st l u s = Ret v r <-> exists t, nextToken (spaceSensitive st) s t r /\ decimalOf t v /\ is_i64 v /\ l <= v < u.
  Proof. intros. apply integerIn_spec. Qed.
  Lemma real_item : forall s v r, readReal st parse s = Ret v r <-> exists t, nextToken (spaceSensitive st) s t r /\ realToken (folded (caseSensitive st) t) /\ parse (folded (caseSensitive st) t) = Some v.
  Proof. intros. apply readReal_spec. Qed.
  Lemma nan_le : forall l v, SFleb l v = true -> isnan v = false.
  Proof. intros l v H. destruct v; auto. destruct l as [[]|[]| |[]]; discriminate. Qed.
  Lemma realIn_item : goodTol (floatAbsTol st) -> goodTol (floatRelTol st) -> forall l u s v r, realIn st parse l u s = Ret v r <->
    exists t, nextToken (spaceSensitive st) s t r /\ realToken (folded (caseSensitive st) t) /\ parse (folded (caseSensitive st) t) = Some v /\ nearRange (floatAbsTol st) (floatRelTol st) l u v.
  Proof.
    intros TA TR l u s v r. assert (K : forall w m, (readReal st parse s = Ret w m -> (realIn st parse l u s = Ret v r <-> w = v /\ m = r /\ nearRange (floatAbsTol st) (floatRelTol st) l u v))).
    { intros w m E. unfold realIn, rbind. rewrite E. unfold rlift, nearRange, rret, fail. destruct (floatEqual_total w l _ _ TA TR) as (b1 & E1). destruct (floatEqual_total w u _ _ TA TR) as (b2 & E2). rewrite E1.
      destruct b1; [split; [intros H; inv H; auto|intros (-> & -> & _); auto]|]. rewrite E2. destruct b2; [split; [intros H; inv H; auto|intros (-> & -> & _); auto]|].
      destruct (SFleb l w) eqn:L; [rewrite (nan_le l w L)|destruct (isnan w); (split; [discriminate|intros (-> & _ & [H|[H|(H & _)]]); congruence])]. cbn [orb negb].
      destruct (SFltb w u) eqn:U; cbn [negb]; [split; [intros H; inv H; auto 9|intros (-> & -> & _); auto]|]. split; [discriminate|intros (-> & _ & [H|[H|(_ & H)]]); congruence]. }
    split.
    - intros H. destruct (readReal st parse s) as [w m| |] eqn:E; [|unfold realIn, rbind in H; rewrite E in H; discriminate..]. apply (K w m eq_refl) in H as (-> & -> & N). apply real_item in E as (t & NT & T & Q). exists t. auto.
    - intros (t & NT & T & Q & N). assert (E : readReal st parse s = Ret v r) by (apply real_item; eauto). apply (K v r E). auto.
  Qed.
  Lemma realStrict_item : forall l u a b s v r, realStrict st parse l u a b s = Ret v r <->
    exists t, nextToken (spaceSensitive st) s t r /\ (exists k, strictReal t k /\ a <= k < b) /\ parse t = Some v /\ SFleb l v = true /\ SFltb v u = true.
  Proof. intros. rewrite realStrict_spec. split; [intros (t & k & N & K & B & Q); exists t; split; [auto|]; split; [exists k; auto|auto]|intros (t & N & (k & K & B) & Q); exists t, k; auto]. Qed.
  Lemma safe_reLen : forall p l u, safe st (stringReLen st p l u).
  Proof. intros. apply safe_bind; [apply safe_stringLen|]. intros t. apply safe_bind; [apply safe_check|]. intros. apply safe_ret. Qed.
  Lemma safe_realIn : goodTol (floatAbsTol st) -> goodTol (floatRelTol st) -> forall l u, safe st (realIn st parse l u).
  Proof.
    intros TA TR l u. apply safe_bind; [apply safe_readReal|]. intros v s. unfold rbind, rlift. destruct (floatEqual_total v l _ _ TA TR) as (b1 & ->). destruct b1; [apply safe_ret|].
    destruct (floatEqual_total v u _ _ TA TR) as (b2 & ->). destruct b2; [apply safe_ret|]. destruct (isnan v || negb (SFleb l v) || negb (SFltb v u)); [apply safe_fail|apply safe_ret].
  Qed.
End Items.

(* ---- logging ---- *)
Section Logging.
  Variable st : cfg.
  Variable eps : real.
  Variable A : Type.
  Variable item : rd A.
  Variable call : A -> logCall.
  Lemma thenLog_iff : forall c s v d r, thenLog eps item call c s = Ret (v, d) r <-> item s = Ret v r /\ logOne eps c (call v) = Ok d.
  Proof.
    intros c s v d r. unfold thenLog, rbind, rlift, rret. split.
    - destruct (item s) as [w m| |]; [|discriminate..]. destruct (logOne eps c (call w)) as [e| | |] eqn:E; try discriminate. intros H. inv H. auto.
    - intros (-> & ->). reflexivity.
  Qed.
  Lemma logs_cons_inv : forall c x l e, logs eps c (x :: l) e -> exists d, logOne eps c x = Ok d /\ logs eps d l e.
  Proof. intros c x l e H. inversion H; subst. eauto. Qed.
  Lemma logs_nil_inv : forall c e, logs eps c [] e -> e = c.
  Proof. intros c e H. inversion H; auto. Qed.
  Lemma repeatLog_iff : forall n sepCall c s vs d r, repeatLog n (thenLog eps item call) sepCall c s = Ret (vs, d) r <-> repeatRead n item sepCall s = Ret vs r /\ logs eps c (map call vs) d.
  Proof.
    induction n as [|n IH]; intros sepCall c s vs d r; cbn [repeatLog repeatRead].
    - unfold rret. split; [intros H; inv H; split; [auto|constructor]|]. intros (H & L). inv H. apply logs_nil_inv in L. subst. auto.
    - unfold rbind at 1 4. split.
      + destruct (thenLog eps item call c s) as [(x, e) m| |] eqn:T; [|discriminate..]. apply thenLog_iff in T as (I & O). rewrite I. unfold rbind.
        destruct (match n with O => rret tt | S _ => sepCall end m) as [u m'| |] eqn:S; [|discriminate..].
        destruct (repeatLog n (thenLog eps item call) sepCall e m') as [(l, f) r'| |] eqn:R; [|discriminate..]. unfold rret. intros H. inv H.
        apply IH in R as (R & L). rewrite R. split; auto. econstructor; eauto.
      + intros (R & L). destruct (item s) as [x m| |] eqn:I; [|discriminate..]. unfold rbind in R. destruct (match n with O => rret tt | S _ => sepCall end m) as [u m'| |] eqn:S; [|discriminate..].
        destruct (repeatRead n item sepCall m') as [l r'| |] eqn:RR; [|discriminate..]. unfold rret in R. inv R. cbn [map] in L. apply logs_cons_inv in L as (e & O & L).
        rewrite (proj2 (thenLog_iff c s x e m) (conj I O)). unfold rbind. rewrite S. rewrite (proj2 (IH sepCall e m' l d r) (conj RR L)). reflexivity.
  Qed.
  Lemma manyLog_iff : forall c count sep s vs d r, manyLog st (thenLog eps item call) c count sep s = Ret (vs, d) r <-> many st item count sep s = Ret vs r /\ logs eps c (map call vs) d.
  Proof.
    intros. unfold manyLog, many. destruct (checkSeparator st sep) as [sc|]; [|split; [discriminate|intros (H & _); discriminate]]. destruct (count <? 0); [split; [discriminate|intros (H & _); discriminate]|]. apply repeatLog_iff.
  Qed.
  (* logging does not get in the way *)
  Variable good : constraint -> Prop.
  Hypothesis log_good : forall c s v r, good c -> item s = Ret v r -> exists d, logOne eps c (call v) = Ok d /\ good d.
  Hypothesis item_safe : safe st item.
  Lemma thenLog_safe : forall c, good c -> safe st (thenLog eps item call c).
  Proof.
    intros c G s. unfold thenLog, rbind, rlift, rret. destruct (item_safe s) as [(v & r & E)|E]; rewrite E; auto. destruct (log_good c s v r G E) as (d & -> & _). eauto.
  Qed.
  Lemma safe_then : forall B C (m : rd B) (k : B -> rd C), safe st m -> (forall a s r, m s = Ret a r -> safe st (k a)) -> safe st (rbind m k).
  Proof. intros B C m k M K s. unfold rbind. destruct (M s) as [(a & r & E)|E]; rewrite E; auto. apply (K a s r E). Qed.
  Lemma repeatLog_safe : forall n sepCall c, good c -> safe st sepCall -> safe st (repeatLog n (thenLog eps item call) sepCall c).
  Proof.
    induction n as [|n IH]; intros sepCall c G SS; cbn [repeatLog]; [apply safe_ret|]. apply safe_then; [apply thenLog_safe; auto|]. intros (x & e) s m E.
    apply thenLog_iff in E as (I & O). assert (G' : good e). { destruct (log_good c s x m G I) as (d & O' & G'). congruence. }
    apply safe_bind; [destruct n; [apply safe_ret|exact SS]|]. intros _. apply safe_bind; [apply IH; auto|]. intros (l & f). apply safe_ret.
  Qed.
  Lemma manyLog_safe : forall c count sep, good c -> separator sep -> 0 <= count -> safe st (manyLog st (thenLog eps item call) c count sep).
  Proof.
    intros c count sep G S C. unfold manyLog. replace (count <? 0) with false by lia. destruct S as [->| ->]; cbn [checkSeparator Z.eqb Pos.eqb]; apply repeatLog_safe; auto using safe_space, safe_newline.
  Qed.
End Logging.

(* ---- what is logged ---- *)
Lemma log_int_suits : forall eps c x lower upper v, x <> TReal -> is_i64 (upper - 1) -> suits c x -> exists d, logOne eps c (LogInt x lower upper v) = Ok d /\ suits d x.
Proof.
  intros eps c x lower upper v X I S. cbn [logOne]. unfold updateInt. rewrite chk_Ok by auto. cbn [bind].
  assert (ST : sameType x x = true) by (destruct x; cbn; auto; apply Nat.eqb_refl).
  assert (S' : (ctype c = None /\ cbound c = VNone) \/ ctype c = Some x /\ exists b, cbound c = VInt b) by (destruct x; auto; congruence).
  assert (R : forall d, ctype d = Some x -> (exists b, cbound d = VInt b) -> suits d x) by (intros d D1 D2; destruct x; cbn; auto; congruence).
  destruct S' as [(T & B)|(T & b & B)].
  - rewrite T. unfold boundsNew, boundsUpdate, eqInt. cbn. rewrite ST. cbn. eexists. split; [reflexivity|]. apply R; cbn; eauto.
  - rewrite T. cbn [bind]. rewrite T, ST. cbn [judgeAssert bind]. rewrite B. unfold boundsUpdate, eqInt. cbn. eexists. split; [reflexivity|]. apply R; cbn; eauto.
Qed.
Lemma log_real_suits : forall eps, goodTol eps -> forall c lower upper v, suits c TReal -> exists d, logOne eps c (LogReal lower upper v) = Ok d /\ suits d TReal.
Proof.
  intros eps G c lower upper v S. cbn [logOne]. unfold updateReal. cbn in S. destruct S as [(T & B)|(T & b & B)].
  - rewrite T. unfold boundsNew. destruct (boundsUpdate_real eps G (mkBounds false false v v lower upper) lower upper v) as (b & ->). cbn. destruct (boundsUpdate_real eps G b lower upper v) as (b' & ->). cbn. eexists. split; [reflexivity|]. right. cbn. eauto.
  - rewrite T. cbn [bind]. rewrite T. cbn. rewrite B. destruct (boundsUpdate_real eps G b lower upper v) as (b' & ->). cbn. eexists. split; [reflexivity|]. right. cbn. eauto.
Qed.
Lemma logs_cinv : forall eps, goodTol eps -> forall l c pre d, cinv eps c pre -> Forall callOk l -> logs eps c l d -> cinv eps d (pre ++ l).
Proof.
  intros eps G. induction l as [|x l IH]; intros c pre d I F L; [apply logs_nil_inv in L; subst; rewrite app_nil_r; auto|].
  inversion F; subst. apply logs_cons_inv in L as (e & O & L). destruct (logOne_step eps G c pre x I H1) as [(c' & O' & I' & _)|(N & _)]; [|exfalso; eapply N; eauto].
  replace (pre ++ x :: l) with ((pre ++ [x]) ++ l) by (rewrite <- app_assoc; reflexivity). apply (IH e); auto. congruence.
Qed.
Lemma logs_ints : forall eps, goodTol eps -> forall x lower upper vs d, x <> TReal -> vs <> [] -> logs eps newConstraint (map (LogInt x lower upper) vs) d ->
  exists b, d = mkConstraint (VInt b) (Some x) /\ boundsOf lower upper vs b.
Proof.
  intros eps G x lower upper vs d X NE L. assert (CK : Forall callOk (map (LogInt x lower upper) vs)) by (apply Forall_forall; intros c I; apply in_map_iff in I as (v & <- & _); auto).
  assert (I := logs_cinv eps G _ _ [] d (cinv_new eps) CK L). cbn [app] in I. destruct I as (_ & H). destruct d as [bd ty]. cbn [ctype cbound] in H.
  assert (IC : intCalls (map (LogInt x lower upper) vs) = map (fun v => (lower, upper, v)) vs) by (clear; unfold intCalls, realCalls; induction vs as [|w l IH]; [reflexivity|]; cbn [map flat_map app]; rewrite IH; reflexivity).
  assert (TX : exists b, ty = Some x /\ bd = VInt b /\ sumInt (intCalls (map (LogInt x lower upper) vs)) b).
  { destruct vs as [|v vs]; [congruence|]. destruct ty as [[| |k]|].
    - destruct H as (b & -> & S & T & _). exists b. split; auto. f_equal. symmetry. apply (T (LogInt x lower upper v)); [left; auto|auto].
    - destruct H as (b & _ & _ & T & _). exfalso. apply X. apply (T (LogInt x lower upper v)); [left; auto|auto].
    - destruct H as (b & -> & S & T & _). exists b. split; auto. f_equal. symmetry. apply (T (LogInt x lower upper v)); [left; auto|auto].
    - destruct H as (_ & H). specialize (H (LogInt x lower upper v) (or_introl eq_refl)). discriminate. }
  destruct TX as (b & -> & -> & S). exists b. split; auto. rewrite IC in S. apply sumInt_spec in S as (S1 & S2 & S3 & S4 & S5 & S6). rewrite !map_map in *. cbn [fst snd] in *. rewrite map_id in *.
  destruct S1 as (A1 & B1), S2 as (A2 & B2), S3 as (A3 & _), S4 as (A4 & _). unfold boundsOf. split; auto. split; auto.
  split; [apply Forall_forall; intros v V; specialize (B1 v V); specialize (B2 v V); lia|].
  split; [apply in_map_iff in A3 as (? & <- & _); auto|]. split; [apply in_map_iff in A4 as (? & <- & _); auto|].
  split; [rewrite S5|rewrite S6]; split.
  - intros (lo & up & v & I & ->). apply in_map_iff in I as (w & E & I). inv E. auto.
  - intros I. exists lower, upper, lower. split; auto. apply in_map_iff. eauto.
  - intros (lo & up & v & I & ->). apply in_map_iff in I as (w & E & I). inv E. auto.
  - intros I. exists lower, upper, (upper - 1). split; auto. apply in_map_iff. eauto.
Qed.
Lemma logs_reals : forall eps, goodTol eps -> forall lower upper vs d, number lower -> number upper -> Forall number vs -> vs <> [] -> logs eps newConstraint (map (LogReal lower upper) vs) d ->
  exists b, d = mkConstraint (VReal b) (Some TReal) /\ summaryReal eps (map (fun v => (lower, upper, v)) vs) b.
Proof.
  intros eps G lower upper vs d NL NU NV NE L. assert (CK : Forall callOk (map (LogReal lower upper) vs)) by (apply Forall_forall; intros c I; apply in_map_iff in I as (v & <- & I); rewrite Forall_forall in NV; cbn; auto).
  assert (I := logs_cinv eps G _ _ [] d (cinv_new eps) CK L). cbn [app] in I. destruct I as (_ & H). destruct d as [bd ty]. cbn [ctype cbound] in H.
  assert (IC : realCalls (map (LogReal lower upper) vs) = map (fun v => (lower, upper, v)) vs) by (clear; unfold intCalls, realCalls; induction vs as [|w l IH]; [reflexivity|]; cbn [map flat_map app]; rewrite IH; reflexivity).
  destruct vs as [|v vs]; [congruence|]. destruct ty as [[| |k]|].
  - destruct H as (b & _ & _ & T & _). specialize (T (LogReal lower upper v) TReal (or_introl eq_refl) eq_refl). discriminate.
  - destruct H as (b & -> & S & _). exists b. split; auto. rewrite IC in S. apply sumReal_spec. auto.
  - destruct H as (b & _ & _ & T & _). specialize (T (LogReal lower upper v) TReal (or_introl eq_refl) eq_refl). discriminate.
  - destruct H as (_ & H). specialize (H (LogReal lower upper v) (or_introl eq_refl)). discriminate.
Qed.
