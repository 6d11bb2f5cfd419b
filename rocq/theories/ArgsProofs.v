(* The command line parser against ArgsSpec. *)
From Verif Require Import Base Tac SeqModel RegexModel InputModel InputSpec InputProofs InputProofs3 InputProofs4 ArgsModel ArgsSpec ArgsClient.

Lemma streq_iff : forall a b, streq a b = true <-> a = b.
Proof. intros. unfold streq. destruct (list_eq_dec Z.eq_dec a b); split; congruence. Qed.
Lemma streq_refl : forall a, streq a a = true.
Proof. intro. apply streq_iff. auto. Qed.
Lemma streq_neq : forall a b, a <> b -> streq a b = false.
Proof. intros. unfold streq. destruct (list_eq_dec Z.eq_dec a b); congruence. Qed.

Lemma isCommand_iff : forall a, isCommand a = true <-> isCmd a.
Proof.
  intro a. unfold isCommand, isCmd. split.
  - intro H. apply andb_true_iff in H as [H1 H2]. apply streq_iff in H2.
    destruct a as [|x [|y [|z l]]]; simpl in H2; try discriminate. inv H2. eauto.
  - intros (x & l & ->). apply andb_true_iff. split; [unfold alen; simpl length; lia|apply streq_refl].
Qed.
Lemma isCommand_false : forall a, isCommand a = false <-> ~ isCmd a.
Proof. intro. rewrite <- isCommand_iff. destruct (isCommand a); split; congruence. Qed.

(* ---- maps ---- *)
Definition keys {A} (m : list (str * A)) : list str := map fst m.
Lemma lookup_none : forall A k (m : list (str * A)), lookup k m = None <-> ~ In k (keys m).
Proof.
  induction m as [|[k' a] m IH]; simpl; [tauto|]. destruct (streq k k') eqn:E.
  - apply streq_iff in E. subst. split; [discriminate|tauto].
  - rewrite IH. assert (k <> k') by (intros ->; rewrite streq_refl in E; discriminate). split; [intros H0 [H1|H1]; congruence|tauto].
Qed.
Lemma lookup_in : forall A k (m : list (str * A)) a, NoDup (keys m) -> In (k, a) m -> lookup k m = Some a.
Proof.
  induction m as [|[k' a'] m IH]; simpl; intros a N H; [tauto|]. inv N. destruct H as [H|H].
  - inv H. rewrite streq_refl. auto.
  - rewrite streq_neq; [auto|]. intros ->. apply H2. change k' with (fst (k', a)). apply in_map. auto.
Qed.
Lemma lookup_some : forall A k (m : list (str * A)) a, lookup k m = Some a -> In (k, a) m.
Proof.
  induction m as [|[k' a'] m IH]; simpl; intros a H; [discriminate|]. destruct (streq k k') eqn:E.
  - apply streq_iff in E. inv H. auto.
  - auto.
Qed.
Lemma lookup_snoc : forall A k k' (m : list (str * A)) a,
  lookup k (m ++ [(k', a)]) = match lookup k m with Some b => Some b | None => if streq k k' then Some a else None end.
Proof. induction m as [|[x b] m IH]; simpl; intros; auto. destruct (streq k x); auto. Qed.

(* ---- the loop without the check for duplicates ---- *)
Fixpoint groups (args : list str) (i : Z) (cmd : str) (first count : Z) : list (str * (Z * Z)) :=
  match args with
  | [] => [(cmd, (first, count))]
  | a :: args' =>
    if isCommand a then (cmd, (first, count)) :: groups args' (i + 1) a (i + 1) 0
    else groups args' (i + 1) cmd first (count + 1)
  end.
Fixpoint emplaceAll (args : list str) (i : Z) (ts : list (str * Z)) : list (str * Z) :=
  match args with [] => ts | a :: args' => emplaceAll args' (i + 1) (emplace ts a (i + 1)) end.

Lemma groups_keys : forall args i cmd first count, keys (groups args i cmd first count) = cmd :: filter isCommand args.
Proof.
  induction args as [|a args IH]; simpl; intros; auto. destruct (isCommand a); simpl; [|apply IH]. f_equal. apply IH.
Qed.
Lemma groups_cons : forall args i cmd first count, exists n g,
  groups args i cmd first count = (cmd, (first, n)) :: g.
Proof.
  induction args as [|a args IH]; simpl; intros; [eauto|]. destruct (isCommand a); eauto.
Qed.

Lemma parseLoop_Ok : forall args i cmd first count cs ts,
  NoDup (keys cs ++ cmd :: filter isCommand args) ->
  parseLoop args i cmd first count cs ts = Ok (cs ++ groups args i cmd first count, emplaceAll args i ts).
Proof.
  induction args as [|a args IH]; intros i cmd first count cs ts N; cbn [parseLoop groups emplaceAll filter].
  - simpl in N. unfold addCommand.
    assert (L : lookup cmd cs = None).
    { apply lookup_none. apply NoDup_remove_2 in N. rewrite app_nil_r in N. auto. }
    rewrite L. reflexivity.
  - cbv zeta. cbn [filter] in N. destruct (isCommand a) eqn:E.
    + assert (L : lookup cmd cs = None).
      { apply lookup_none. intro H. apply NoDup_remove_2 in N. apply N. apply in_or_app. auto. }
      unfold addCommand. rewrite L. cbn [judgeAssert bind].
      rewrite IH; [rewrite <- app_assoc; reflexivity|].
      unfold keys. rewrite map_app, <- app_assoc. exact N.
    + rewrite IH; auto.
Qed.
Lemma NoDup_mid : forall A (l1 l2 : list A) a, In a l1 -> ~ NoDup (l1 ++ a :: l2).
Proof.
  intros A l1 l2 a I N. apply NoDup_remove_2 in N. apply N. apply in_or_app. auto.
Qed.
Lemma parseLoop_Throw : forall args i cmd first count cs ts,
  NoDup (keys cs) -> ~ NoDup (keys cs ++ cmd :: filter isCommand args) ->
  parseLoop args i cmd first count cs ts = Throw.
Proof.
  induction args as [|a args IH]; intros i cmd first count cs ts NC N; cbn [parseLoop filter] in *.
  - unfold addCommand. destruct (lookup cmd cs) eqn:L; [reflexivity|]. exfalso. apply N.
    apply lookup_none in L. apply NoDup_Add with (a := cmd) (l := keys cs); [|auto].
    pose proof (Add_app cmd (keys cs) []) as Q. rewrite app_nil_r in Q. exact Q.
  - cbv zeta. destruct (isCommand a) eqn:E; [|apply IH; auto].
    unfold addCommand. destruct (lookup cmd cs) eqn:L; [reflexivity|]. cbn [judgeAssert bind]. apply IH.
    + unfold keys. rewrite map_app. simpl. apply lookup_none in L.
      apply NoDup_Add with (a := cmd) (l := keys cs); [|auto].
      pose proof (Add_app cmd (keys cs) []) as Q. rewrite app_nil_r in Q. exact Q.
    + unfold keys. rewrite map_app, <- app_assoc. exact N.
Qed.

Lemma nil_not_cmd : ~ isCmd [].
Proof. intros (x & l & H). discriminate. Qed.
Lemma nodup_nil : forall args, NoDup ([] :: filter isCommand args) <-> NoDup (filter isCommand args).
Proof.
  intro. split; [intro H; inv H; auto|]. intro H. constructor; auto. intro I. apply filter_In in I as [_ I].
  apply isCommand_iff in I. apply nil_not_cmd; auto.
Qed.
Lemma str_nodup_dec : forall l : list str, NoDup l \/ ~ NoDup l.
Proof.
  intro l. destruct (ListDec.NoDup_dec (list_eq_dec Z.eq_dec) l); auto.
Qed.

Lemma dup_iff : forall args, ~ NoDup (filter isCommand args) <-> dupCommand args.
Proof.
  induction args as [|a args IH]; simpl.
  - split; [intro H; exfalso; apply H; constructor|]. intros (c & l1 & l2 & l3 & _ & E). destruct l1; discriminate.
  - destruct (isCommand a) eqn:E.
    + split.
      * intro H. destruct (in_dec (list_eq_dec Z.eq_dec) a args) as [I|I].
        -- apply in_split in I as (l2 & l3 & ->). exists a, [], l2, l3. split; [apply isCommand_iff; auto|reflexivity].
        -- assert (D : ~ NoDup (filter isCommand args)).
           { intro N. apply H. constructor; auto. intro J. apply filter_In in J as [J _]. auto. }
           apply IH in D as (c & l1 & l2 & l3 & C & ->). exists c, (a :: l1), l2, l3. auto.
      * intros (c & l1 & l2 & l3 & C & Q) N. inv N. destruct l1 as [|x l1]; inv Q.
        -- apply H1. apply filter_In. split; auto. apply in_or_app. right. left. auto.
        -- apply (proj2 IH); [|exact H2]. exists c, l1, l2, l3. auto.
    + rewrite IH. split.
      * intros (c & l1 & l2 & l3 & C & ->). exists c, (a :: l1), l2, l3. auto.
      * intros (c & l1 & l2 & l3 & C & Q). destruct l1 as [|x l1]; inv Q.
        -- apply isCommand_false in E. tauto.
        -- exists c, l1, l2, l3. auto.
Qed.

Lemma parser_total : forall args,
  (dupCommand args /\ commandParser args = Throw) \/
  (~ dupCommand args /\ exists p, commandParser args = Ok p).
Proof.
  intro args. unfold commandParser. destruct (str_nodup_dec (filter isCommand args)) as [N|N].
  - right. split; [intro D; apply dup_iff in D; auto|]. rewrite parseLoop_Ok; [simpl; eauto|]. apply nodup_nil; auto.
  - left. split; [apply dup_iff; auto|]. rewrite parseLoop_Throw; [reflexivity|constructor|].
    simpl. rewrite nodup_nil. auto.
Qed.
Lemma parser_form : forall args p, commandParser args = Ok p ->
  p = mkParser args (groups args 0 [] 0 0) (emplaceAll args 0 []) /\ NoDup (keys (groups args 0 [] 0 0)).
Proof.
  intros args p H. unfold commandParser in H. destruct (str_nodup_dec (filter isCommand args)) as [N|N].
  - rewrite parseLoop_Ok in H by (apply nodup_nil; auto). simpl in H. inv H. split; auto.
    rewrite groups_keys. apply nodup_nil; auto.
  - rewrite parseLoop_Throw in H; [discriminate|constructor|]. simpl. rewrite nodup_nil. auto.
Qed.

(* ---- groups ---- *)
Lemma groups_sound : forall args i cmd first count full p1 p2 c f n,
  full = p1 ++ p2 ++ args -> alen p1 = first -> alen p2 = count -> i = first + count ->
  Forall (fun a => ~ isCmd a) p2 -> (cmd <> [] -> exists p, p1 = p ++ [cmd]) ->
  In (c, (f, n)) (groups args i cmd first count) ->
  exists a ps b, full = a ++ ps ++ b /\ alen a = f /\ alen ps = n /\ Forall (fun x => ~ isCmd x) ps /\
    match b with [] => True | d :: _ => isCmd d end /\ (c <> [] -> exists a', a = a' ++ [c]).
Proof.
  induction args as [|x args IH]; intros i cmd first count full p1 p2 c f n E L1 L2 I F P H; cbn [groups] in H.
  - destruct H as [H|[]]. inv H. exists p1, p2, []. auto 10.
  - destruct (isCommand x) eqn:C.
    + destruct H as [H|H].
      * inv H. exists p1, p2, (x :: args). apply isCommand_iff in C. auto 10.
      * eapply (IH (i + 1) x (i + 1) 0 full (p1 ++ p2 ++ [x]) []); [..|exact H]; auto.
        -- rewrite E, <- !app_assoc. reflexivity.
        -- unfold alen in *. rewrite !app_length. simpl. lia.
        -- lia.
        -- intros _. exists (p1 ++ p2). rewrite <- app_assoc. reflexivity.
    + eapply (IH (i + 1) cmd first (count + 1) full p1 (p2 ++ [x])); [..|exact H]; auto.
      * rewrite E, <- !app_assoc. reflexivity.
      * unfold alen in *. rewrite app_length. simpl. lia.
      * lia.
      * apply Forall_app. split; auto. constructor; auto. apply isCommand_false; auto.
Qed.

Lemma noCmd_prefix : forall (ps ps' post post' : list str),
  Forall (fun a => ~ isCmd a) ps -> Forall (fun a => ~ isCmd a) ps' ->
  match post with [] => True | d :: _ => isCmd d end -> match post' with [] => True | d :: _ => isCmd d end ->
  ps ++ post = ps' ++ post' -> ps = ps'.
Proof.
  induction ps as [|x ps IH]; intros ps' post post' F F' P P' E.
  - destruct ps' as [|y ps']; auto. simpl in E. subst post. inv F'. tauto.
  - destruct ps' as [|y ps'].
    + simpl in E. subst post'. inv F. tauto.
    + simpl in E. inv E. inv F. inv F'. f_equal. eauto.
Qed.
Lemma once_split : forall (c : str) l1 l2 m1 m2, isCmd c -> NoDup (filter isCommand (l1 ++ c :: l2)) ->
  l1 ++ c :: l2 = m1 ++ c :: m2 -> l1 = m1 /\ l2 = m2.
Proof.
  intros c l1. induction l1 as [|x l1 IH]; intros l2 m1 m2 C N E.
  - destruct m1 as [|y m1]; simpl in E; [inv E; auto|]. inv E. exfalso. simpl in N. apply isCommand_iff in C. rewrite C in N.
    inv N. apply H1. apply filter_In. split; auto. apply in_or_app. right. left. auto.
  - destruct m1 as [|y m1]; simpl in E.
    + inv E. exfalso. simpl in N. pose proof C as C'. apply isCommand_iff in C. rewrite C in N. inv N. apply H1.
      apply filter_In. split; auto. apply in_or_app. right. left. auto.
    + inv E. destruct (IH l2 m1 m2 C) as [-> ->]; auto. simpl in N. destruct (isCommand y); [inv N; auto|auto].
Qed.

(* ---- what a command shows ---- *)
Lemma aget_app : forall A (a b c : list A) i x, nth_error b (Z.to_nat i) = Some x -> 0 <= i ->
  aget (a ++ b ++ c) (alen a + i) = Ok x.
Proof.
  intros A a b c i x H I. unfold aget, alen. replace (Z.of_nat (length a) + i <? 0) with false by lia.
  replace (Z.to_nat (Z.of_nat (length a) + i)) with (length a + Z.to_nat i)%nat by lia.
  rewrite nth_error_app2 by lia. replace (length a + Z.to_nat i - length a)%nat with (Z.to_nat i) by lia.
  rewrite nth_error_app1; [rewrite H; auto|]. apply nth_error_Some. congruence.
Qed.
Lemma slice_app : forall n a b c, (n <= length b)%nat ->
  slice (a ++ b ++ c) (alen a) n = Ok (firstn n b).
Proof.
  induction n as [|n IH]; intros a b c L; [reflexivity|]. destruct b as [|x b]; [simpl in L; lia|].
  cbn [slice firstn]. replace (alen a) with (alen a + 0) at 1 by lia. rewrite (aget_app _ a (x :: b) c 0 x) by (auto; lia). cbn [bind].
  specialize (IH (a ++ [x]) b c). simpl in L.
  replace (a ++ (x :: b) ++ c) with ((a ++ [x]) ++ b ++ c) by (rewrite <- app_assoc; reflexivity).
  replace (alen a + 1) with (alen (a ++ [x])) by (unfold alen; rewrite app_length; simpl; lia).
  rewrite IH by lia. reflexivity.
Qed.
Lemma make_shows : forall raw a ps b, raw = a ++ ps ++ b ->
  exists c, makeCommand raw (alen a) (alen ps) = Ok c /\ cfound c = true /\ shows c ps.
Proof.
  intros raw a ps b ->. unfold makeCommand.
  assert (T : (if alen ps =? 0 then Ok None else let! s := aget (a ++ ps ++ b) (alen a) in Ok (Some s)) = Ok (hd_error ps)).
  { destruct ps as [|x ps]; [reflexivity|]. replace (alen (x :: ps) =? 0) with false by (unfold alen; simpl length; lia).
    replace (alen a) with (alen a + 0) by lia. rewrite (aget_app _ a (x :: ps) b 0 x) by (auto; lia). reflexivity. }
  rewrite T. cbn [bind]. replace (0 <=? alen ps) with true by (unfold alen; lia). cbn [judgeAssert bind].
  eexists. split; [reflexivity|]. split; [reflexivity|]. unfold shows, parameterCount, parameter, asStrings. cbn [ccount craw cfirst ctoken].
  split; [auto|]. split; [|split; [auto|split]].
  - intro i. destruct (0 <=? i) eqn:I; [|reflexivity]. cbn [andb]. destruct (i <? alen ps) eqn:J.
    + destruct (nth_error ps (Z.to_nat i)) as [s|] eqn:Q.
      * rewrite (aget_app _ a ps b i s) by (auto; lia). reflexivity.
      * apply nth_error_None in Q. unfold alen in J. lia.
    + f_equal. symmetry. apply nth_error_None. unfold alen in J. lia.
  - rewrite slice_app by (unfold alen; lia). unfold alen. rewrite Nat2Z.id, firstn_all. reflexivity.
  - intro n. destruct (n <=? length ps)%nat eqn:N.
    + replace (Z.of_nat n <=? alen ps) with true by (unfold alen; lia). cbn [judgeAssert bind]. apply slice_app. lia.
    + replace (Z.of_nat n <=? alen ps) with false by (unfold alen; lia). reflexivity.
Qed.
Lemma none_shows : forall raw, shows (noCommand raw) [].
Proof.
  intro. unfold shows, noCommand, parameterCount, parameter, asStrings. cbn [ccount craw cfirst ctoken].
  split; [reflexivity|]. split; [|split; [reflexivity|split; [reflexivity|]]].
  - intro i. replace ((0 <=? i) && (i <? 0)) with false by lia. destruct (0 <=? i); [destruct (Z.to_nat i)|]; reflexivity.
  - intro n. destruct n; reflexivity.
Qed.

Lemma group_exists : forall args c, In c args -> isCmd c -> exists ps, groupOf args c ps.
Proof.
  intros args c I C. apply in_split in I as (pre & l & ->).
  assert (S1 : exists ps post, l = ps ++ post /\ Forall (fun a => ~ isCmd a) ps /\ match post with [] => True | d :: _ => isCmd d end).
  { clear. induction l as [|x l (ps & post & -> & F & P)]; [exists [], []; auto|]. destruct (isCommand x) eqn:E.
    - exists [], (x :: ps ++ post). apply isCommand_iff in E. auto.
    - exists (x :: ps), post. split; auto. split; auto. constructor; auto. apply isCommand_false; auto. }
  destruct S1 as (ps & post & -> & F & P). exists ps, pre, post. auto.
Qed.

Lemma getCommand_found : forall args p c ps, commandParser args = Ok p -> token c -> groupOf args c ps ->
  exists cmd, getCommand p c = Ok cmd /\ cfound cmd = true /\ shows cmd ps.
Proof.
  intros args p c ps H T (pre & post & E & C & F & P). apply parser_form in H as [-> N].
  unfold getCommand. apply isToken_iff in T. rewrite T. cbn [judgeAssert bind commands raw].
  destruct (lookup c (groups args 0 [] 0 0)) as [[f n]|] eqn:L.
  - apply lookup_some in L.
    destruct (groups_sound args 0 [] 0 0 args [] [] c f n) as (a & qs & b & E2 & A & Q & G & B & X); auto; [congruence|].
    destruct X as (a' & ->). { intros ->. apply (nil_not_cmd C). }
    assert (NF : NoDup (filter isCommand args)) by (rewrite groups_keys in N; inv N; auto).
    assert (EQ : pre ++ c :: ps ++ post = a' ++ c :: qs ++ b).
    { rewrite <- E, E2, <- app_assoc. reflexivity. }
    rewrite E in NF. destruct (once_split c pre (ps ++ post) a' (qs ++ b) C NF EQ) as [-> EQ2].
    apply noCmd_prefix in EQ2; auto. subst qs.
    rewrite <- A, <- Q. apply make_shows with (b := b). auto.
  - exfalso. apply lookup_none in L. apply L. rewrite groups_keys. right. apply filter_In. split; [|apply isCommand_iff; auto].
    rewrite E. apply in_or_app. right. left. auto.
Qed.
Lemma getCommand_absent : forall args p c, commandParser args = Ok p -> token c -> ~ (isCmd c /\ In c args) ->
  exists cmd, getCommand p c = Ok cmd /\ cfound cmd = false /\ shows cmd [].
Proof.
  intros args p c H T A. apply parser_form in H as [-> N].
  unfold getCommand. pose proof T as [NE _]. apply isToken_iff in T. rewrite T. cbn [judgeAssert bind commands raw].
  assert (L : lookup c (groups args 0 [] 0 0) = None).
  { apply lookup_none. rewrite groups_keys. intros [I|I]; [congruence|]. apply filter_In in I as [I1 I2]. apply isCommand_iff in I2. tauto. }
  rewrite L. eexists. split; [reflexivity|]. split; [reflexivity|]. apply none_shows.
Qed.
Lemma getCommand_throws : forall p c, ~ token c -> getCommand p c = Throw.
Proof. intros p c T. unfold getCommand. rewrite <- isToken_iff in T. destruct (isToken c); [exfalso; auto|reflexivity]. Qed.

(* ---- raw access ---- *)
Lemma emplaceAll_lookup : forall args i ts t,
  lookup t (emplaceAll args i ts) =
  match lookup t ts with
  | Some k => Some k
  | None => match List.find (fun x => streq t (snd x)) (combine (map (fun k => i + Z.of_nat k) (seq 1 (length args))) args) with
            | Some (k, _) => Some k | None => None end
  end.
Proof.
  induction args as [|a args IH]; intros i ts t; cbn [emplaceAll]; [simpl; destruct (lookup t ts); auto|].
  rewrite IH. unfold emplace. cbn [length seq map combine List.find snd].
  assert (Q : combine (map (fun k => i + 1 + Z.of_nat k) (seq 1 (length args))) args =
              combine (map (fun k => i + Z.of_nat k) (seq 2 (length args))) args).
  { f_equal. rewrite <- (seq_shift (length args) 1), map_map. apply map_ext. intro. lia. }
  rewrite Q. destruct (lookup a ts) eqn:LA.
  - destruct (lookup t ts) eqn:LT; [reflexivity|]. rewrite streq_neq; [reflexivity|]. intros ->. congruence.
  - rewrite lookup_snoc. destruct (lookup t ts) eqn:LT; [reflexivity|]. destruct (streq t a); reflexivity.
Qed.
Lemma tokens_first : forall pre t ps, ~ In t pre -> lookup t (emplaceAll (pre ++ t :: ps) 0 []) = Some (alen pre + 1).
Proof.
  intros pre t ps N. rewrite emplaceAll_lookup. cbn [lookup].
  assert (G : forall i (pre : list str), ~ In t pre ->
    List.find (fun x => streq t (snd x)) (combine (map (fun k => 0 + Z.of_nat k) (seq i (length (pre ++ t :: ps)))) (pre ++ t :: ps)) =
    Some (Z.of_nat i + alen pre, t)).
  { clear. intros i pre. revert i. induction pre as [|x pre IH]; intros i N; cbn [app length seq map combine List.find snd].
    - rewrite streq_refl. unfold alen. simpl length. f_equal; f_equal; lia.
    - rewrite streq_neq by (intros ->; apply N; left; auto). rewrite IH by (intro; apply N; right; auto).
      unfold alen. simpl length. f_equal; f_equal; lia. }
  rewrite G by auto. f_equal. lia.
Qed.
Lemma tokens_absent : forall args t, ~ In t args -> lookup t (emplaceAll args 0 []) = None.
Proof.
  intros args t N. rewrite emplaceAll_lookup. cbn [lookup].
  assert (G : forall (l : list Z) (a : list str), ~ In t a -> List.find (fun x => streq t (snd x)) (combine l a) = None).
  { clear. induction l as [|k l IH]; intros [|x a] N; auto. cbn [combine List.find snd].
    rewrite streq_neq by (intros ->; apply N; left; auto). apply IH. intro. apply N. right. auto. }
  rewrite G; auto.
Qed.
Lemma getRaw_found : forall args p t ps, commandParser args = Ok p -> token t -> afterFirst args t ps ->
  exists cmd, getRaw p t = Ok cmd /\ cfound cmd = true /\ shows cmd ps.
Proof.
  intros args p t ps H T (pre & -> & NI). apply parser_form in H as [-> N].
  unfold getRaw. apply isToken_iff in T. rewrite T. cbn [judgeAssert bind tokens raw]. rewrite tokens_first by auto.
  replace (alen pre + 1) with (alen (pre ++ [t])) by (unfold alen; rewrite app_length; simpl; lia).
  replace (alen (pre ++ t :: ps) - alen (pre ++ [t])) with (alen ps) by (unfold alen; rewrite !app_length; simpl; lia).
  apply make_shows with (b := []). rewrite app_nil_r, <- app_assoc. reflexivity.
Qed.
Lemma getRaw_absent : forall args p t, commandParser args = Ok p -> token t -> ~ In t args ->
  exists cmd, getRaw p t = Ok cmd /\ cfound cmd = false /\ shows cmd [].
Proof.
  intros args p t H T NI. apply parser_form in H as [-> N].
  unfold getRaw. apply isToken_iff in T. rewrite T. cbn [judgeAssert bind tokens raw]. rewrite tokens_absent by auto.
  eexists. split; [reflexivity|]. split; [reflexivity|]. apply none_shows.
Qed.
Lemma afterFirst_exists : forall args t, In t args -> exists ps, afterFirst args t ps.
Proof.
  induction args as [|a args IH]; simpl; intros t H; [tauto|]. destruct (list_eq_dec Z.eq_dec a t) as [->|D].
  - exists args, []. auto.
  - destruct H as [H|H]; [congruence|]. destruct (IH t H) as (ps & pre & -> & N). exists ps, (a :: pre). split; auto.
    intros [Q|Q]; congruence || tauto.
Qed.
Lemma getRawAll_shows : forall args p, commandParser args = Ok p ->
  exists cmd, getRawAll p = Ok cmd /\ cfound cmd = true /\ shows cmd args.
Proof.
  intros args p H. apply parser_form in H as [-> N]. unfold getRawAll. cbn [raw].
  apply (make_shows args [] args []). rewrite app_nil_r. reflexivity.
Qed.

(* ---- integer parameters ---- *)
Lemma parseArg_iff : forall s v, parseArg s = Ok v <-> integerArg s v.
Proof.
  assert (FC : forall t v, from_chars t = Some (v, []) <->
    exists neg ds, Forall digit ds /\ ds <> [] /\ t = optMinus neg ++ showDigits ds /\ v = (if neg : bool then - value ds else value ds) /\ is_i64 v).
  { assert (DV : forall s acc w r, digitsValue acc s = (w, r) -> r = [] ->
       exists ds, Forall digit ds /\ s = showDigits ds /\ w = valueFrom acc ds).
    { induction s as [|c s IH]; cbn [digitsValue]; intros acc w r H R; subst r.
      - inv H. exists []. auto.
      - destruct (isDigit c) eqn:D; [|inv H].
        destruct (IH _ _ _ H eq_refl) as (ds & F & E & V). apply isDigit_iff in D.
        exists ((c - 48) :: ds). split; [constructor; auto; unfold digit; lia|]. split; [cbn [showDigits map]; f_equal; [lia|exact E]|].
        cbn [valueFrom]. rewrite V. f_equal. lia. }
    intros t v. unfold from_chars. split.
    - cbv zeta. remember (match t with [] => false | c :: _ => c =? c_minus end) as neg.
      destruct (if neg then tl t else t) as [|c u] eqn:E; [discriminate|]. destruct (isDigit c) eqn:D; [|discriminate].
      destruct (digitsValue 0 (c :: u)) as [w r] eqn:V. destruct (in_i64 (if neg then - w else w)) eqn:I; [|discriminate].
      intro H. inv H. destruct (DV _ _ _ _ V eq_refl) as (ds & F & E2 & ->). apply in_i64_iff in I.
      remember (match t with [] => false | c :: _ => c =? c_minus end) as neg. exists neg, ds.
      split; [auto|]. split; [intros ->; discriminate|]. split; [|auto].
      rewrite <- E2, <- E. destruct t as [|x t]; [subst neg; discriminate|]. destruct neg; [|reflexivity].
      symmetry in Heqneg. apply Z.eqb_eq in Heqneg. subst x. reflexivity.
    - intros (neg & ds & F & N & -> & -> & I). destruct ds as [|d ds]; [congruence|].
      pose proof F as F'. inv F'. destruct (showDigits_head d ds H1) as (E1 & E2 & E3). apply in_i64_iff in I.
      destruct neg; cbn [optMinus app showDigits map tl].
      + change (45 =? c_minus) with true. cbv iota zeta. rewrite E3.
        change ((48 + d) :: map (fun d : Z => 48 + d) ds) with (showDigits (d :: ds)).
        rewrite digitsValue_show by auto. fold (value (d :: ds)). rewrite I. reflexivity.
      + cbv iota zeta. rewrite E2. cbv iota. rewrite E3.
        change ((48 + d) :: map (fun d : Z => 48 + d) ds) with (showDigits (d :: ds)).
        rewrite digitsValue_show by auto. fold (value (d :: ds)). rewrite I. reflexivity. }
  assert (PI : forall s v, parseInteger s = Some v <-> exists plus t, s = (if plus : bool then [43] else []) ++ t /\ from_chars t = Some (v, [])).
  { intros s v. unfold parseInteger. split.
    - destruct s as [|c s]; [discriminate|]. destruct (c =? c_plus) eqn:E.
      + apply Z.eqb_eq in E. subst c. destruct (from_chars s) as [[w [|x r]]|] eqn:Q; try discriminate. intro H. inv H.
        exists true, s. auto.
      + destruct (from_chars (c :: s)) as [[w [|x r]]|] eqn:Q; try discriminate. intro H. inv H. exists false, (c :: s). auto.
    - intros ([] & t & -> & H).
      + cbn [app]. change (43 =? c_plus) with true. cbv iota. rewrite H. reflexivity.
      + cbn [app]. destruct t as [|c t]; [discriminate|]. destruct (c =? c_plus) eqn:E; [|rewrite H; reflexivity].
        apply Z.eqb_eq in E. subst c. discriminate. }
  intros s v. unfold parseArg, integerArg. destruct (parseInteger s) as [w|] eqn:P.
  - assert (Q : w = v <-> parseInteger s = Some v) by (rewrite P; split; congruence).
    split.
    + intro H. inv H. apply PI in P as (plus & t & -> & H). apply FC in H as (neg & ds & F & N & -> & V & I).
      exists plus, neg, ds. auto 10.
    + intros (plus & neg & ds & F & N & E & V & I). f_equal. apply Q. apply PI. exists plus, (optMinus neg ++ showDigits ds).
      split; auto. apply FC. exists neg, ds. auto 10.
  - split; [discriminate|]. intros (plus & neg & ds & F & N & E & V & I). exfalso.
    assert (parseInteger s = Some v); [|congruence]. apply PI. exists plus, (optMinus neg ++ showDigits ds).
    split; auto. apply FC. exists neg, ds. auto 10.
Qed.
Lemma parseArg_throw : forall s, (forall v, ~ integerArg s v) -> parseArg s = Throw.
Proof.
  intros s H. destruct (parseArg s) eqn:E; auto.
  - exfalso. apply (H a). apply parseArg_iff. auto.
  - unfold parseArg in E. destruct (parseInteger s); discriminate.
  - unfold parseArg in E. destruct (parseInteger s); discriminate.
Qed.
Lemma asIntegerOr_iff : forall c ps d v, shows c ps ->
  (asIntegerOr (ctoken c) d = Ok v <-> match ps with [] => v = d | s :: _ => integerArg s v end).
Proof.
  intros c ps d v (_ & _ & T & _). rewrite T. destruct ps as [|s ps]; simpl.
  - split; [intro H; inv H; auto|intros ->; auto].
  - unfold asInteger, asString, bind. apply parseArg_iff.
Qed.
Lemma asIntegers_iff : forall c ps vs, shows c ps -> (asIntegers c None = Ok vs <-> Forall2 integerArg ps vs).
Proof.
  intros c ps vs (_ & _ & _ & A & _). unfold asIntegers. rewrite A. cbn [bind]. clear. revert vs.
  induction ps as [|s ps IH]; cbn [parseAll]; intro vs.
  - split; [intro H; inv H; constructor|intro H; inv H; reflexivity].
  - split.
    + destruct (parseArg s) eqn:E; try discriminate. cbn [bind]. destruct (parseAll ps) eqn:E2; try discriminate. cbn [bind].
      intro H. inv H. constructor; [apply parseArg_iff; auto|apply IH; auto].
    + intro H. inv H. apply parseArg_iff in H2. rewrite H2. cbn [bind]. apply IH in H4. rewrite H4. reflexivity.
Qed.

Lemma rawAt_spec : forall args p i, commandParser args = Ok p ->
  rawAt p i = match (if 0 <=? i then nth_error args (Z.to_nat i) else None) with Some s => Ok s | None => Throw end.
Proof.
  intros args p i H. apply parser_form in H as [-> N]. unfold rawAt. cbn [raw]. unfold alen, aget. destruct (0 <=? i) eqn:E; [|reflexivity].
  cbn [andb]. destruct (i <? Z.of_nat (length args)) eqn:L; cbn [judgeAssert bind].
  - replace (i <? 0) with false by lia. destruct (nth_error args (Z.to_nat i)) eqn:Q; auto. apply nth_error_None in Q. lia.
  - destruct (nth_error args (Z.to_nat i)) eqn:Q; auto. exfalso. apply Z.ltb_ge in L.
    assert (Z.to_nat i < length args)%nat by (apply nth_error_Some; congruence). lia.
Qed.
