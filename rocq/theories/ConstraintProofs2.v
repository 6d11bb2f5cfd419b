(* The whole log: every line summarises the calls of its name. *)
From Verif Require Import Base BaseLemmas Tac SeqModel FloatModel InputSpec InputProofs InputProofs3 InputProofs4 ArgsModel ArgsProofs
  ConstraintModel ConstraintSpec ConstraintProofs.

Lemma existsb_streq : forall n l, existsb (streq n) l = true <-> In n l.
Proof.
  intros n l. rewrite existsb_exists. split.
  - intros (x & I & E). apply streq_iff in E. subst. auto.
  - intro I. exists n. split; auto. apply streq_refl.
Qed.
Lemma in_firsts : forall l seen n, In n (firsts seen l) <-> In n l /\ ~ In n seen.
Proof.
  induction l as [|m l IH]; simpl; intros seen n; [tauto|]. destruct (existsb (streq m) seen) eqn:E.
  - apply existsb_streq in E. rewrite IH. split; [tauto|]. intros [[->|H] N]; tauto.
  - assert (~ In m seen) by (rewrite <- existsb_streq, E; discriminate). simpl. rewrite IH. simpl. split.
    + intros [->|[H1 H2]]; tauto.
    + intros [[->|H1] H2]; auto. destruct (list_eq_dec Z.eq_dec m n); [auto|tauto].
Qed.
Lemma firsts_nodup : forall l seen, NoDup (firsts seen l).
Proof.
  induction l as [|m l IH]; simpl; intro seen; [constructor|]. destruct (existsb (streq m) seen); auto.
  constructor; auto. rewrite in_firsts. simpl. tauto.
Qed.
Lemma firsts_snoc : forall l seen n, firsts seen (l ++ [n]) =
  if existsb (streq n) (l ++ seen) then firsts seen l else firsts seen l ++ [n].
Proof.
  induction l as [|m l IH]; simpl; intros seen n.
  - destruct (existsb (streq n) seen); auto.
  - rewrite !IH. destruct (existsb (streq m) seen) eqn:E.
    + destruct (streq n m) eqn:Q; simpl; auto. apply streq_iff in Q. subst.
      replace (existsb (streq m) (l ++ seen)) with true; auto. symmetry. rewrite existsb_app, E, orb_true_r. auto.
    + rewrite !existsb_app. simpl. rewrite (orb_assoc (existsb (streq n) l)), (orb_comm (existsb (streq n) l)), <- orb_assoc.
      destruct (streq n m || (existsb (streq n) l || existsb (streq n) seen)); auto.
Qed.

Lemma callsOf_snoc_same : forall n ops c, callsOf n (ops ++ [(n, c)]) = callsOf n ops ++ [c].
Proof. intros. unfold callsOf. rewrite filter_app, map_app. simpl. rewrite streq_refl. auto. Qed.
Lemma callsOf_snoc_other : forall n m ops c, n <> m -> callsOf n (ops ++ [(m, c)]) = callsOf n ops.
Proof. intros. unfold callsOf. rewrite filter_app, map_app. simpl. rewrite (streq_neq n m) by auto. apply app_nil_r. Qed.
Lemma callsOf_fresh : forall n ops, ~ In n (map fst ops) -> callsOf n ops = [].
Proof.
  intros n ops. induction ops as [|[m c] ops IH]; simpl; intro H; auto. unfold callsOf. simpl. rewrite streq_neq by (intro; subst; tauto).
  apply IH. tauto.
Qed.
Lemma in_callsOf : forall n ops c, In c (callsOf n ops) <-> In (n, c) ops.
Proof.
  intros. unfold callsOf. rewrite in_map_iff. split.
  - intros ([m d] & E & I). apply filter_In in I as [I Q]. simpl in *. apply streq_iff in Q. subst. auto.
  - intro I. exists (n, c). split; auto. apply filter_In. split; auto. apply streq_refl.
Qed.

Lemma NoDup_snoc : forall A (l : list A) x, NoDup l -> ~ In x l -> NoDup (l ++ [x]).
Proof.
  intros A l x N. induction N as [|y l N D IH]; simpl; intro H; constructor; auto.
  - constructor.
  - intro I. apply in_app_or in I as [I|[->|[]]]; tauto.
Qed.

Section Log.
  Variable eps : real.
  Hypothesis epsGood : goodTol eps.

  (* the logger holds names, with the calls ops *)
  Definition linv (g : logger) (names : list str) (ops : list (str * logCall)) : Prop :=
    length (byName g) = length names /\ length (constraints g) = length names /\ NoDup names /\
    forall i n, nth_error names i = Some n -> nth_error (byName g) i = Some (n, Z.of_nat i) /\
      exists c, nth_error (constraints g) i = Some c /\ cinv eps c (callsOf n ops).

  Lemma linv_keys : forall g names ops, linv g names ops -> keys (byName g) = names.
  Proof.
    intros g names ops (L & _ & _ & H). apply nth_ext with (d := []) (d' := []).
    - unfold keys. rewrite map_length. auto.
    - unfold keys. rewrite map_length, L. intros i I. destruct (nth_error names i) as [n|] eqn:E.
      + destruct (H i n E) as [B _]. rewrite (nth_error_nth names i [] E).
        apply (nth_error_nth (map fst (byName g)) i []). rewrite nth_error_map, B. auto.
      + apply nth_error_None in E. lia.
  Qed.

  Lemma access_step : forall g ops name, linv g (firsts [] (map fst ops)) ops -> token name ->
    exists g' i, access g name = Ok (g', Z.of_nat i) /\ linv g' (firsts [] (map fst ops ++ [name])) ops /\
      nth_error (firsts [] (map fst ops ++ [name])) i = Some name.
  Proof.
    intros g ops name INV T. pose proof INV as (L1 & L2 & ND & H). pose proof (linv_keys _ _ _ INV) as KE.
    apply isToken_iff in T. unfold access. rewrite T. cbn [judgeAssert bind].
    rewrite firsts_snoc, app_nil_r. destruct (lookup name (byName g)) as [id|] eqn:LK.
    - apply lookup_some in LK as LI. assert (KI : In name (keys (byName g))) by (unfold keys; apply in_map_iff; exists (name, id); auto).
      rewrite KE in KI. apply in_firsts in KI as KI'. destruct KI' as [K1 _]. apply existsb_streq in K1. rewrite K1.
      apply In_nth_error in LI as (i & LI). exists g, i. assert (I : (i < length (byName g))%nat) by (apply nth_error_Some; congruence).
      destruct (nth_error (firsts [] (map fst ops)) i) as [n|] eqn:E; [|apply nth_error_None in E; lia].
      destruct (H i n E) as [B _]. rewrite LI in B. inv B. auto.
    - apply lookup_none in LK. rewrite KE in LK. rewrite in_firsts in LK.
      assert (NI : ~ In name (map fst ops)) by (intro; apply LK; simpl; tauto).
      destruct (existsb (streq name) (map fst ops)) eqn:E; [apply existsb_streq in E; tauto|].
      exists (mkLogger (byName g ++ [(name, alen (constraints g))]) (constraints g ++ [newConstraint])), (length (constraints g)).
      split; [reflexivity|]. split.
      + unfold linv. cbn [byName constraints]. rewrite !app_length, L1, L2. split; [auto|]. split; [auto|]. split.
        * apply NoDup_snoc; auto. intro I. apply in_firsts in I as [I _]. auto.
        * intros i n Q. destruct (Nat.lt_ge_cases i (length (firsts [] (map fst ops)))) as [J|J].
          -- rewrite nth_error_app1 in Q by auto. rewrite !nth_error_app1 by lia. auto.
          -- rewrite nth_error_app2 in Q by auto. rewrite !nth_error_app2 by lia. rewrite L1, L2.
             destruct (i - length (firsts [] (map fst ops)))%nat as [|k] eqn:D; simpl in Q; [|destruct k; discriminate]. inv Q. simpl.
             split; [unfold alen; rewrite L2; do 2 f_equal; lia|]. exists newConstraint. split; auto.
             rewrite callsOf_fresh by auto. apply cinv_new.
      + rewrite nth_error_app2 by lia. replace (_ - _)%nat with 0%nat by lia. reflexivity.
  Qed.

  Lemma aget_nth : forall A (l : list A) i a, nth_error l i = Some a -> aget l (Z.of_nat i) = Ok a.
  Proof. intros. unfold aget. destruct (Z.of_nat i <? 0) eqn:E; [lia|]. rewrite Nat2Z.id, H. auto. Qed.

  Definition opFits (ops : list (str * logCall)) (op : str * logCall) : Prop :=
    token (fst op) /\ callFits (snd op) /\ typeFits (callsOf (fst op) ops) (snd op).

  Lemma logStep_step : forall g ops op, linv g (firsts [] (map fst ops)) ops -> callOk (snd op) ->
    (exists g', logStep eps g op = Ok g' /\ linv g' (firsts [] (map fst (ops ++ [op]))) (ops ++ [op]) /\ opFits ops op) \/
    ((forall g', logStep eps g op <> Ok g') /\ ~ opFits ops op).
  Proof.
    intros g ops [name call] INV CK. cbn [fst snd] in *. destruct (isToken name) eqn:TK.
    2:{ right. unfold logStep, access. cbn [fst]. rewrite TK. split; [discriminate|]. intros [T _]. cbn [fst] in T. apply isToken_iff in T. congruence. }
    apply isToken_iff in TK. destruct (access_step g ops name INV TK) as (g1 & i & A & INV1 & NI).
    unfold logStep. cbn [fst snd]. rewrite A. cbn [bind]. pose proof INV1 as (L1 & L2 & ND & H).
    destruct (H i name NI) as (BI & c & CI & CV). rewrite (aget_nth _ _ _ _ CI). cbn [bind].
    destruct (logOne_step eps epsGood c (callsOf name ops) call CV CK) as [(c' & E & CV' & F & TF)|[N NF]].
    - left. rewrite E. cbn [bind]. assert (I : (i < length (constraints g1))%nat) by (apply nth_error_Some; congruence).
      rewrite aset_Ok by (unfold alen; lia). cbn [bind]. rewrite Nat2Z.id. eexists. split; [reflexivity|]. split.
      + rewrite map_app. cbn [map fst]. unfold linv. cbn [byName constraints]. rewrite upd_length. split; [auto|]. split; [auto|]. split; [auto|].
        intros j n J. destruct (H j n J) as (BJ & d & DJ & DV). split; auto. destruct (Nat.eq_dec i j) as [<-|NE].
        * rewrite NI in J. inv J. exists c'. split; [apply nth_error_upd_same; auto|]. rewrite callsOf_snoc_same. auto.
        * exists d. split; [rewrite nth_error_upd_other; auto|]. rewrite callsOf_snoc_other; auto.
          intro Q. subst n. apply NE. apply (proj1 (NoDup_nth_error _) ND); [rewrite <- L2; auto|congruence].
      + split; auto.
    - right. split.
      + intros g'. destruct (logOne eps c call) as [c'| | |] eqn:E; try discriminate. exfalso. eapply N; eauto.
      + intros (_ & F). apply NF. exact F.
  Qed.

  Fixpoint opsFit (before ops : list (str * logCall)) : Prop :=
    match ops with [] => True | op :: ops' => opFits before op /\ opsFit (before ++ [op]) ops' end.
  Lemma logRun_step : forall ops g before, linv g (firsts [] (map fst before)) before -> Forall (fun op => callOk (snd op)) ops ->
    (exists g', logRun eps g ops = Ok g' /\ linv g' (firsts [] (map fst (before ++ ops))) (before ++ ops) /\ opsFit before ops) \/
    ((forall g', logRun eps g ops <> Ok g') /\ ~ opsFit before ops).
  Proof.
    induction ops as [|op ops IH]; intros g before INV F; cbn [logRun opsFit].
    - left. exists g. rewrite app_nil_r. auto.
    - inv F. destruct (logStep_step g before op INV H1) as [(g1 & E & INV1 & OF)|[N NF]].
      + rewrite E. cbn [bind]. destruct (IH g1 (before ++ [op]) INV1 H2) as [(g' & R & INV' & FS)|[N NF]].
        * left. exists g'. rewrite <- app_assoc in INV'. auto.
        * right. split; auto. tauto.
      + right. split; [|tauto]. intros g'. destruct (logStep eps g op) eqn:E; try discriminate. exfalso. eapply N; eauto.
  Qed.

  Lemma opsFit_iff : forall ops before, (forall n, oneType (callsOf n before)) ->
    (opsFit before ops <-> Forall (fun op => token (fst op) /\ callFits (snd op)) ops /\ forall n, oneType (callsOf n (before ++ ops))).
  Proof.
    induction ops as [|op ops IH]; intros before OT; cbn [opsFit].
    - rewrite app_nil_r. split; auto.
    - assert (ONE : typeFits (callsOf (fst op) before) (snd op) <-> forall n, oneType (callsOf n (before ++ [op]))).
      { destruct op as [m c]. cbn [fst snd]. split.
        - intros TF n. destruct (list_eq_dec Z.eq_dec n m) as [->|NE]; [|rewrite callsOf_snoc_other; auto].
          rewrite callsOf_snoc_same. intros a b s t A B TA TB. apply in_app_or in A. apply in_app_or in B.
          destruct A as [A|[<-|[]]]; destruct B as [B|[<-|[]]].
          + apply (OT m a b s t); auto.
          + eapply TF; eauto.
          + symmetry. eapply TF; eauto.
          + congruence.
        - intros O x s t I E1 E2. specialize (O m). rewrite callsOf_snoc_same in O. eapply (O x c); eauto; apply in_or_app; simpl; auto. }
      assert (SUB : (forall n, oneType (callsOf n (before ++ op :: ops))) -> forall n, oneType (callsOf n (before ++ [op]))).
      { intros O n a b s t A B. apply (O n a b s t); apply in_callsOf.
        - apply in_callsOf in A. apply in_app_or in A as [A|[A|[]]]; apply in_or_app; simpl; auto.
        - apply in_callsOf in B. apply in_app_or in B as [B|[B|[]]]; apply in_or_app; simpl; auto. }
      assert (AP : before ++ op :: ops = (before ++ [op]) ++ ops) by (rewrite <- app_assoc; auto). split.
      + intros [(T & F & TF) R]. pose proof (proj1 ONE TF) as TF'. apply IH in R as [R1 R2]; [|exact TF']. rewrite AP. split; [constructor; auto|auto].
      + intros [R1 R2]. inv R1. pose proof (SUB R2) as O. split; [split; [tauto|split; [tauto|exact (proj2 ONE O)]]|].
        apply IH; [auto|]. rewrite <- AP. auto.
  Qed.

  Lemma linv_empty : linv emptyLogger (firsts [] (map fst (@nil (str * logCall)))) [].
  Proof. unfold linv. cbn. split; [auto|]. split; [auto|]. split; [constructor|]. intros [|i] n H; discriminate. Qed.

  Lemma upd_app_mid : forall A (a b : list A) x y, upd (a ++ x :: b) (length a) y = a ++ y :: b.
  Proof. induction a as [|z a IH]; simpl; intros; auto. rewrite IH. auto. Qed.
  Lemma fillNames_ok : forall m dn, (forall i n id, nth_error m i = Some (n, id) -> id = Z.of_nat (length dn + i)) ->
    fillNames m (dn ++ repeat [] (length m)) = Ok (dn ++ keys m).
  Proof.
    induction m as [|[n id] m IH]; intros dn H; cbn [fillNames length repeat].
    - auto.
    - pose proof (H 0%nat n id eq_refl) as E. rewrite Nat.add_0_r in E. subst id.
      rewrite aset_Ok by (unfold alen; rewrite app_length; simpl; lia). cbn [bind]. rewrite Nat2Z.id, upd_app_mid.
      change (n :: repeat [] (length m)) with ([n] ++ repeat [] (length m)). rewrite app_assoc, IH.
      + rewrite <- app_assoc. auto.
      + intros i k id Q. rewrite app_length. simpl. rewrite (H (Datatypes.S i) k id Q). f_equal. lia.
  Qed.
  Lemma isLogged_iff : forall l, isLogged l = true <-> logged l.
  Proof.
    intro l. unfold isLogged, logged. rewrite existsb_exists. split; intros (c & I & H); exists c; split; auto; destruct c; congruence.
  Qed.
  Lemma realCalls_none : forall l t, t <> TReal -> (forall x s, In x l -> callType x = Some s -> s = t) -> realCalls l = [].
  Proof.
    induction l as [|c l IH]; intros t N H; auto. simpl. rewrite (IH t N) by (intros x s I; apply H; right; auto).
    destruct c; auto. exfalso. apply N. symmetry. apply (H (LogReal lower upper v)); simpl; auto.
  Qed.
  Lemma intCalls_none : forall l, Forall callOk l -> (forall x s, In x l -> callType x = Some s -> s = TReal) -> intCalls l = [].
  Proof.
    induction 1 as [|c l C F IH]; intros H; auto. simpl. rewrite IH by (intros x s I; apply H; right; auto).
    destruct c; auto. exfalso. apply C. apply (H (LogInt x lower upper v)); simpl; auto.
  Qed.
  Lemma cinv_logged : forall c l, cinv eps c l -> isLogged l = match ctype c with Some _ => true | None => false end.
  Proof.
    intros c l INV. destruct (ctype c) as [t|] eqn:E.
    - apply isLogged_iff. destruct (cinv_type eps c l t INV E) as (x & I & Q). exists x. split; auto. intro; subst; discriminate.
    - destruct INV as [_ H]. rewrite E in H. destruct H as [_ H]. destruct (isLogged l) eqn:Q; auto.
      apply isLogged_iff in Q as (x & I & N). exfalso. auto.
  Qed.
  Lemma cinv_line : forall c l n ops t, cinv eps c (callsOf n ops) -> l = callsOf n ops -> ctype c = Some t -> lineOk eps ops (n, cbound c).
  Proof.
    intros c l n ops t [F H] -> E. rewrite E in H. unfold lineOk. cbn [fst snd]. destruct t.
    - destruct H as (b & -> & SM & A & _). split; [apply sumInt_spec; auto|]. eapply realCalls_none; [|eauto]. discriminate.
    - destruct H as (b & -> & SM & A & _). split; [apply sumReal_spec; auto|]. apply intCalls_none; auto.
    - destruct H as (b & -> & SM & A & _). split; [apply sumInt_spec; auto|]. eapply realCalls_none; [|eauto]. discriminate.
  Qed.
  Lemma writeLoop_ok : forall names cs ops, length cs = length names ->
    (forall i n, nth_error names i = Some n -> exists c, nth_error cs i = Some c /\ cinv eps c (callsOf n ops)) ->
    exists lines, writeLoop names cs = Ok lines /\ map fst lines = filter (fun n => isLogged (callsOf n ops)) names /\
      Forall (lineOk eps ops) lines.
  Proof.
    induction names as [|n names IH]; intros cs ops L H; cbn [writeLoop].
    - exists []. auto.
    - destruct cs as [|c cs]; [discriminate|]. destruct (H 0%nat n eq_refl) as (c' & E & CV). inv E.
      destruct (IH cs ops) as (lines & -> & M & F); [simpl in L; lia|intros i k I; apply (H (Datatypes.S i) k I)|].
      cbn [bind filter]. rewrite (cinv_logged c' _ CV). destruct (ctype c') as [t|] eqn:T.
      + eexists. split; [reflexivity|]. cbn [map fst]. rewrite M. split; auto. constructor; auto. eapply cinv_line; eauto.
      + exists lines. auto.
  Qed.

  (* a run succeeds exactly for token names, one type per name and bounds without overflow *)
  Lemma log_succeeds : forall ops, Forall (fun op => callOk (snd op)) ops ->
    ((exists g, logRun eps emptyLogger ops = Ok g) <->
     Forall (fun op => token (fst op) /\ callFits (snd op)) ops /\ forall n, oneType (callsOf n ops)).
  Proof.
    intros ops F. pose proof (opsFit_iff ops [] ) as Q. rewrite app_nil_l in Q. rewrite <- Q by (intros n c d s t []).
    destruct (logRun_step ops emptyLogger [] linv_empty F) as [(g & R & _ & OF)|[N NF]].
    - split; eauto.
    - split; [intros (g & R); exfalso; eapply N; eauto|tauto].
  Qed.
  Lemma log_write : forall ops g, Forall (fun op => callOk (snd op)) ops -> logRun eps emptyLogger ops = Ok g ->
    exists lines, write g = Ok lines /\
      map fst lines = filter (fun n => isLogged (callsOf n ops)) (firsts [] (map fst ops)) /\ Forall (lineOk eps ops) lines.
  Proof.
    intros ops g F R. destruct (logRun_step ops emptyLogger [] linv_empty F) as [(g' & R' & INV & _)|[N _]]; [|exfalso; eapply N; eauto].
    rewrite R in R'. inv R'. rewrite app_nil_l in INV. pose proof (linv_keys _ _ _ INV) as KE. destruct INV as (L1 & L2 & ND & H).
    unfold write. pose proof (fillNames_ok (byName g') []) as FN. rewrite !app_nil_l in FN. rewrite FN; clear FN.
    - cbn [bind]. rewrite KE. apply writeLoop_ok; [lia|]. intros i n I. apply (H i n I).
    - intros i n id I. simpl. assert (J : (i < length (byName g'))%nat) by (apply nth_error_Some; congruence).
      destruct (nth_error (firsts [] (map fst ops)) i) as [m|] eqn:E; [|apply nth_error_None in E; lia].
      destruct (H i m E) as [B _]. congruence.
  Qed.
  (* a second type for a name is an assertion failure *)
  Lemma log_throws : forall ops op t x, Forall (fun op => callOk (snd op)) (ops ++ [op]) ->
    (exists g, logRun eps emptyLogger ops = Ok g) -> token (fst op) -> callFits (snd op) ->
    In x (callsOf (fst op) ops) -> callType x = Some t -> callType (snd op) <> Some t -> callType (snd op) <> None ->
    logRun eps emptyLogger (ops ++ [op]) = Throw.
  Proof.
    intros ops [name call] t x F (g & R) T CF XI XT CT CN. cbn [fst snd] in *. apply Forall_app in F as [F _].
    destruct (logRun_step ops emptyLogger [] linv_empty F) as [(g' & R' & INV & _)|[N _]]; [|exfalso; eapply N; eauto].
    rewrite R in R'. inv R'. rewrite app_nil_l in INV.
    assert (APP : forall a b h h', logRun eps h a = Ok h' -> logRun eps h (a ++ b) = logRun eps h' b).
    { induction a as [|o a IH]; cbn [logRun app]; intros b h h' Q; [congruence|]. destruct (logStep eps h o); try discriminate. cbn [bind] in *. eauto. }
    rewrite (APP _ _ _ _ R). cbn [logRun]. destruct (access_step g' ops name INV T) as (g1 & i & A & (_ & _ & _ & H) & NI).
    unfold logStep. cbn [fst snd]. rewrite A. cbn [bind]. destruct (H i name NI) as (_ & c & CI & CV). rewrite (aget_nth _ _ _ _ CI). cbn [bind].
    assert (TY : ctype c = Some t).
    { destruct CV as [_ CV]. destruct (ctype c) as [[| |k]|] eqn:E.
      - destruct CV as (_ & _ & _ & A' & _). rewrite (A' x t XI XT). auto.
      - destruct CV as (_ & _ & _ & A' & _). rewrite (A' x t XI XT). auto.
      - destruct CV as (_ & _ & _ & A' & _). rewrite (A' x t XI XT). auto.
      - destruct CV as [_ A']. rewrite (A' x XI) in XT. discriminate. }
    assert (ST : forall s, callType call = Some s -> sameType t s = false).
    { intros s E. destruct (sameType t s) eqn:Q; auto. apply sameType_iff in Q. congruence. }
    destruct call as [|s lo up v|lo up v]; cbn [logOne callType] in *; [congruence| |].
    - unfold updateInt, chk. simpl in CF. apply in_i64_iff in CF. rewrite CF. cbn [bind]. rewrite TY. cbn [bind]. rewrite TY, (ST s eq_refl). reflexivity.
    - unfold updateReal. rewrite TY. cbn [bind]. rewrite TY, (ST TReal eq_refl). reflexivity.
  Qed.
End Log.
