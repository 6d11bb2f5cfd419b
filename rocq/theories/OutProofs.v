From Verif Require Import Base Tac SeqModel PassModel InputSpec RegexModel InputModel InputProofs InputProofs2 InputProofs3 InputProofs4 InputClient OutModel OutSpec.

Lemma value_snoc : forall ds acc d, valueFrom acc (ds ++ [d]) = 10 * valueFrom acc ds + d.
Proof. induction ds as [|x ds IH]; intros acc d; cbn [app valueFrom]; auto. Qed.

Lemma show_ok : forall fuel z acc, 0 <= z < 10 ^ Z.of_nat fuel -> (0 < fuel)%nat ->
  exists ds, PassModel.showDigits fuel z acc = showDigits ds ++ acc /\ canonicalDigits ds /\ value ds = z /\ (z <> 0 -> exists d ds', ds = d :: ds' /\ d <> 0).
Proof.
  induction fuel as [|fuel IH]; intros z acc Z0 F; [lia|]. cbn [PassModel.showDigits].
  pose proof (Z.mod_pos_bound z 10 ltac:(lia)) as M. pose proof (Z.div_mod z 10 ltac:(lia)) as D.
  assert (Dg : digit (z mod 10)) by (unfold digit; lia).
  destruct (Z.eqb_spec (z / 10) 0) as [E|E].
  - exists [z mod 10]. split; [reflexivity|]. split; [|split].
    + split; [constructor; auto|]. destruct (Z.eq_dec (z mod 10) 0) as [->|N]; [left; auto|]. right. exists (z mod 10), []. auto.
    + cbn. lia.
    + intro N. exists (z mod 10), []. split; auto. lia.
  - assert (B : 0 <= z / 10 < 10 ^ Z.of_nat fuel).
    { split; [apply Z.div_pos; lia|]. apply Z.div_lt_upper_bound; [lia|]. rewrite Nat2Z.inj_succ, Z.pow_succ_r in Z0 by lia. lia. }
    assert (F0 : (0 < fuel)%nat). { destruct fuel; [|lia]. cbn in B. lia. }
    destruct (IH (z / 10) ((48 + z mod 10) :: acc) B F0) as (ds & E1 & (F1 & _) & V1 & N1).
    destruct (N1 E) as (d & ds' & -> & ND).
    exists ((d :: ds') ++ [z mod 10]). split; [|split; [|split]].
    + rewrite E1. unfold showDigits. rewrite map_app, <- app_assoc. reflexivity.
    + split; [apply Forall_app; split; auto|]. right. exists d, (ds' ++ [z mod 10]). auto.
    + unfold value in *. rewrite value_snoc, V1. lia.
    + intros _. exists d, (ds' ++ [z mod 10]). auto.
Qed.

Lemma show_decimal : forall v, is_i64 v -> decimalOf (showInteger v) v.
Proof.
  intros v I. unfold is_i64, I64_MIN, I64_MAX, two63 in I. unfold showInteger. destruct (Z.ltb_spec v 0).
  - destruct (show_ok 20 (- v) []) as (ds & E & C & V & _); [change (10 ^ Z.of_nat 20) with 100000000000000000000; lia|lia|].
    exists ds. split; auto. right. rewrite E, app_nil_r. split; auto. lia.
  - destruct (show_ok 20 v []) as (ds & E & C & V & _); [change (10 ^ Z.of_nat 20) with 100000000000000000000; lia|lia|].
    exists ds. split; auto. left. rewrite E, app_nil_r. auto.
Qed.

(* ---- join ---- *)
Lemma joinLoop_joined : forall f sep l, sep <> NOSEP ->
  joinLoop f sep true l = joined sep (map f l) /\
  (l <> [] -> joinLoop f sep false l = sep :: joined sep (map f l)).
Proof.
  intros f sep l N. assert (E : (sep =? NOSEP) = false) by lia.
  assert (G : forall l, l <> [] -> joinLoop f sep false l = sep :: joined sep (map f l)).
  { clear l. induction l as [|x l IH]; intro H; [contradiction|]. cbn [joinLoop map]. rewrite E. cbn [negb andb app]. f_equal.
    destruct l as [|y l]; [cbn [joinLoop map joined]; apply app_nil_r|]. rewrite IH by discriminate. reflexivity. }
  split; auto. destruct l as [|x l]; auto. cbn [joinLoop negb andb app map].
  destruct l as [|y l]; [cbn [joinLoop map joined]; apply app_nil_r|]. rewrite G by discriminate. reflexivity.
Qed.

Lemma join_joined : forall l sep, sep <> 0 -> join l sep = joined sep (map put l).
Proof. intros l sep N. apply (joinLoop_joined put sep l N). Qed.

Lemma join_nosep : forall l, join l 0 = concat (map put l).
Proof.
  intro l. unfold join. generalize true as b. induction l as [|x l IH]; intro b; auto. cbn [joinLoop map concat].
  change (0 =? NOSEP) with true. rewrite andb_false_r. cbn [app]. rewrite IH. reflexivity.
Qed.

Lemma put_seq : forall l, put (ISeq l) = joined 32 (map put l).
Proof. intro l. cbn [put]. apply joinLoop_joined. discriminate. Qed.

(* induction that reaches into the sequences *)
Lemma item_ind' : forall P : item -> Prop, (forall n, P (IInt n)) -> (forall b, P (IBool b)) -> (forall s, P (IText s)) ->
  (forall a b, P a -> P b -> P (IPair a b)) -> (forall l, Forall P l -> P (ISeq l)) -> forall x, P x.
Proof.
  intros P H1 H2 H3 H4 H5. fix IH 1. intros [n|b|s|a b|l]; [apply H1|apply H2|apply H3|apply H4; apply IH|].
  apply H5. induction l as [|x l IHl]; constructor; [apply IH|exact IHl].
Qed.

Lemma joined_app : forall sep a b, a <> [] -> b <> [] -> joined sep (a ++ b) = joined sep a ++ sep :: joined sep b.
Proof.
  intros sep a b NA NB. induction a as [|x a IH]; [contradiction|]. destruct a as [|y a].
  - cbn [app]. destruct b; [contradiction|]. reflexivity.
  - change (joined sep ((x :: y :: a) ++ b)) with (x ++ sep :: joined sep ((y :: a) ++ b)). rewrite IH by discriminate.
    change (joined sep (x :: y :: a)) with (x ++ sep :: joined sep (y :: a)). rewrite <- app_assoc. reflexivity.
Qed.

Lemma inhabited_leaves : forall x, inhabited x -> leaves x <> [].
Proof.
  induction x as [n|b|s|a b IHa IHb|l IH] using item_ind'; intro H; try discriminate; cbn [leaves].
  - inversion H as [| | |a' b' A B|]; subst. intro C. apply app_eq_nil in C as (C & _). apply IHa; auto.
  - inversion H as [| | | |l' N F]; subst. destruct l as [|x l]; [contradiction|].
    apply Forall_inv in IH. apply Forall_inv in F. cbn beta in IH. cbn [flat_map]. intro C. apply app_eq_nil in C as (C & _). apply IH; auto.
Qed.
Lemma put_leaves_nonempty : forall x, inhabited x -> map put (leaves x) <> [].
Proof. intros x H C. apply map_eq_nil in C. eapply inhabited_leaves; eauto. Qed.

Lemma put_inhabited : forall x, inhabited x -> put x = joined 32 (map put (leaves x)).
Proof.
  induction x as [n|b|s|a b IHa IHb|l IH] using item_ind'; intro H; auto.
  - inversion H as [| | |a' b' A B|]; subst.
    cbn [put leaves]. rewrite map_app, joined_app by (apply put_leaves_nonempty; auto). rewrite IHa, IHb by auto. reflexivity.
  - inversion H as [| | | |l' N F]; subst. rewrite put_seq. cbn [leaves]. clear H N. induction l as [|x l IHl]; auto.
    inversion IH as [|x' l' I1 I2]; subst. inversion F as [|x' l' F1 F2]; subst.
    destruct l as [|y l]; [cbn [map joined flat_map]; rewrite app_nil_r; auto|].
    change (joined 32 (map put (x :: y :: l))) with (put x ++ 32 :: joined 32 (map put (y :: l))).
    rewrite IHl by auto. cbn [flat_map]. rewrite (map_app put (leaves x)), joined_app.
    + rewrite I1 by auto. reflexivity.
    + apply put_leaves_nonempty. auto.
    + rewrite map_app. intro C. apply app_eq_nil in C as (C & _). apply Forall_inv in F2. apply put_leaves_nonempty in F2. contradiction.
Qed.

(* ---- tokens, also with empty parts ---- *)
Lemma words_lead : forall s ts ws, Forall whitespace ws -> wordsOf s ts -> wordsOf (ws ++ s) ts.
Proof.
  intros s ts ws W H. destruct H as [ws' W'|ws' t s ts W' T E H].
  - constructor. apply Forall_app. auto.
  - rewrite app_assoc. constructor; auto. apply Forall_app. auto.
Qed.
Lemma words_app : forall s ts s' ts', wordsOf s ts -> wordsOf s' ts' -> endsToken s' -> wordsOf (s ++ s') (ts ++ ts').
Proof.
  intros s ts s' ts' H H' E. induction H as [ws W|ws t s ts W T En H IH].
  - cbn [app]. apply words_lead; auto.
  - cbn [app]. rewrite <- !app_assoc. constructor; auto. destruct s; auto.
Qed.
Lemma words_token : forall t, token t -> wordsOf t [t].
Proof.
  intros t T. replace t with ([] ++ t ++ []) at 1 by (cbn [app]; apply app_nil_r). constructor; auto; [exact I|constructor; constructor].
Qed.
Lemma words_sep : forall s ts, wordsOf s ts -> wordsOf (32 :: s) ts.
Proof. intros s ts H. apply (words_lead s ts [32]); auto. constructor; auto. unfold whitespace. auto. Qed.

Definition tokenLeaf (x : item) : Prop :=
  match x with IInt n => is_i64 n | IBool _ => True | IText s => token s | _ => False end.

Lemma leaf_token : forall x, tokenLeaf x -> token (put x).
Proof.
  intros [n|b|s|a b|l] H; cbn [tokenLeaf] in H; try contradiction; cbn [put]; auto.
  - apply show_decimal in H. apply decimal_plain in H. apply H.
  - destruct b; (split; [discriminate|]); repeat constructor; unfold whitespace; lia.
Qed.

Lemma put_words : forall x, Forall tokenLeaf (leaves x) -> wordsOf (put x) (map put (leaves x)).
Proof.
  induction x as [n|b|s|a b IHa IHb|l IH] using item_ind'; intro H; cbn [leaves] in *.
  - inv H. apply words_token. apply leaf_token. auto.
  - inv H. apply words_token. apply leaf_token. auto.
  - inv H. apply words_token. apply leaf_token. auto.
  - apply Forall_app in H as (A & B). cbn [put]. rewrite map_app. apply words_app; auto.
    + apply words_sep. auto.
    + cbn. unfold whitespace. auto.
  - rewrite put_seq. induction l as [|x l IHl]; [constructor; constructor|]. inv IH. cbn [flat_map] in *. apply Forall_app in H as (A & B).
    rewrite map_app. destruct l as [|y l].
    + cbn [map joined flat_map]. rewrite app_nil_r. auto.
    + change (joined 32 (map put (x :: y :: l))) with (put x ++ 32 :: joined 32 (map put (y :: l))).
      apply words_app; auto; [apply words_sep; auto|]. cbn. unfold whitespace. auto.
Qed.

(* ---- reading back ---- *)
Lemma ints_decimal : forall vs, Forall is_i64 vs -> Forall2 decimalOf (map put (map IInt vs)) vs.
Proof. intros vs F. induction F; cbn [map]; constructor; auto. apply show_decimal. auto. Qed.

Lemma integers_back : forall st lower upper sep vs, sep = 32 \/ sep = 10 -> spaceSensitive st = true ->
  Forall (fun v => is_i64 v /\ lower <= v < upper) vs ->
  integerFile st lower upper (alen vs) sep (join (map IInt vs) sep ++ [10]) = Ret vs [].
Proof.
  intros st lower upper sep vs S SS F. apply integerFile_spec; auto; [unfold alen; lia|]. split; auto. split; auto.
  exists (map put (map IInt vs)). split.
  - apply ints_decimal. eapply Forall_impl; [|exact F]. tauto.
  - rewrite join_joined by lia. reflexivity.
Qed.

Lemma item_back : forall st lower upper count sep x vs, sep = 32 \/ sep = 10 -> spaceSensitive st = false ->
  leaves x = map IInt vs -> Forall (fun v => is_i64 v /\ lower <= v < upper) vs -> alen vs = count ->
  integerWords st lower upper count sep (put x) = Ret vs [].
Proof.
  intros st lower upper count sep x vs S SS L F C. apply integerWords_spec; auto; [unfold alen in C; lia|]. split; auto. split; auto.
  exists (map put (map IInt vs)). split.
  - apply ints_decimal. eapply Forall_impl; [|exact F]. tauto.
  - rewrite <- L. apply put_words. rewrite L. apply Forall_map. eapply Forall_impl; [|exact F]. cbn. tauto.
Qed.

Lemma nested_back : forall st lower upper x vs, spaceSensitive st = true -> inhabited x ->
  leaves x = map IInt vs -> Forall (fun v => is_i64 v /\ lower <= v < upper) vs ->
  integerFile st lower upper (alen vs) 32 (put x ++ [10]) = Ret vs [].
Proof.
  intros st lower upper x vs SS IH L F. rewrite put_inhabited, L by auto. rewrite <- join_joined by lia. apply integers_back; auto.
Qed.

Lemma strings_back : forall st sep ts, sep = 32 \/ sep = 10 -> spaceSensitive st = true -> Forall plainToken ts ->
  stringFile st (alen ts) sep (join (map IText ts) sep ++ [10]) = Ret (map (folded (caseSensitive st)) ts) [].
Proof.
  intros st sep ts S SS F. apply stringFile_spec; auto; [unfold alen; lia|]. exists ts. split; auto. split; auto. split; auto.
  rewrite join_joined by lia. rewrite map_map. cbn [put]. rewrite map_id. reflexivity.
Qed.

Lemma decimals_shown : forall ts vs, Forall2 decimalOf ts vs -> Forall is_i64 vs -> ts = map put (map IInt vs).
Proof.
  intros ts vs F. induction F as [|t v ts vs D F IH]; intro I; auto. inversion I as [|v' vs' I1 I2]; subst. cbn [map].
  rewrite <- IH by auto. f_equal. eapply decimal_unique; [exact D|]. apply show_decimal. auto.
Qed.

Lemma line_iff : forall st lower upper n s l r, spaceSensitive st = true ->
  (integersIn st lower upper n 32 s = Ret l (10 :: r) <->
   n = alen l /\ Forall (fun v => is_i64 v /\ lower <= v < upper) l /\ s = join (map IInt l) 32 ++ 10 :: r).
Proof.
  intros st lower upper n s l r SS. rewrite join_joined by lia. unfold integersIn, many, checkSeparator.
  change (32 =? 32) with true. cbv iota. destruct (Z.ltb_spec n 0) as [N|N].
  { split; [discriminate|]. intros (-> & _). unfold alen in N. lia. }
  rewrite (repeat_strict Z (integerIn st lower upper) (fun t v => decimalOf t v /\ is_i64 v /\ lower <= v < upper)) with (sep := 32);
    [|intros; rewrite integerIn_spec, SS; reflexivity|unfold whitespace; auto|apply space_iff; auto].
  split.
  - intros (ts & L & F & _ & E & _). apply F2_and in F as (F & G).
    assert (T : ts = map put (map IInt l)) by (apply decimals_shown; auto; eapply Forall_impl; [|exact G]; cbn beta; tauto). subst ts.
    rewrite !map_length in L. unfold alen. split; [lia|]. auto.
  - intros (L & G & E). exists (map put (map IInt l)). rewrite !map_length. unfold alen in L. split; [lia|].
    split; [apply F2_and; split; auto; apply ints_decimal; eapply Forall_impl; [|exact G]; cbn beta; tauto|]. split; [|split; auto].
    + apply Forall_map. apply Forall_map. eapply Forall_impl; [|exact G]. intros v (I & _). eapply decimal_plain. apply show_decimal. exact I.
    + intros _. cbn. unfold whitespace. lia.
Qed.

Lemma lines_iff : forall st lower upper lens file lines, spaceSensitive st = true ->
  (readLines st lower upper lens file = Ret lines [] <->
   lens = map alen lines /\ Forall (Forall (fun v => is_i64 v /\ lower <= v < upper)) lines /\ file = writeLines lines).
Proof.
  intros st lower upper lens file lines SS. revert file lines. induction lens as [|n lens IH]; intros file lines; cbn [readLines].
  - unfold rbind. split.
    + destruct (eof st file) as [u r| |] eqn:E; [|discriminate..]. apply eof_iff in E as (-> & ->); auto.
      unfold rret. intro H. inv H. auto.
    + intros (L & _ & ->). destruct lines; [|discriminate]. change (writeLines []) with (@nil Z). rewrite (proj2 (eof_iff st SS [] tt [])) by auto. reflexivity.
  - unfold rbind. split.
    + destruct (integersIn st lower upper n 32 file) as [l r| |] eqn:E; [|discriminate..].
      destruct (newline st r) as [[] r'| |] eqn:E2; [|discriminate..]. apply newline_iff in E2; auto. subst r.
      destruct (readLines st lower upper lens r') as [ls r''| |] eqn:E3; [|discriminate..].
      unfold rret. intro H. inv H. apply IH in E3 as (-> & F & ->). apply line_iff in E as (-> & G & ->); auto.
      split; auto. split; auto. cbn [writeLines flat_map]. rewrite <- app_assoc. reflexivity.
    + intros (L & F & ->). destruct lines as [|l lines]; [discriminate|]. cbn [map] in L. inversion L; subst. inversion F; subst.
      cbn [writeLines flat_map]. fold (writeLines lines). rewrite <- app_assoc.
      rewrite (proj2 (line_iff st lower upper (alen l) _ l (writeLines lines) SS)) by auto.
      rewrite (proj2 (newline_iff st SS _ (writeLines lines)) eq_refl).
      rewrite (proj2 (IH (writeLines lines) lines)) by auto. reflexivity.
Qed.

Lemma put_words' : forall x,
  Forall (fun y => match y with IInt n => is_i64 n | IText s => token s | _ => True end) (leaves x) ->
  wordsOf (put x) (map put (leaves x)).
Proof.
  intros x H. apply put_words.
  assert (L : Forall (fun y => match y with IPair _ _ | ISeq _ => False | _ => True end) (leaves x)).
  { clear. induction x as [n|b|s|a b IHa IHb|l IH] using item_ind'; cbn [leaves]; try (constructor; auto).
    - apply Forall_app. auto.
    - induction IH; cbn [flat_map]; auto. apply Forall_app. auto. }
  revert H L. generalize (leaves x). clear. intros l H L. induction H as [|y l Y H IH]; constructor; inversion L; subst; auto.
  destruct y; cbn [tokenLeaf]; auto.
Qed.

Lemma empty_part : exists x vs,
  leaves x = map IInt vs /\ put x = [49; 32; 32; 50] /\
  integerFile exCfg 0 9 (alen vs) 32 (put x ++ [10]) = Exit 43 /\
  integerWords (mkCfg false true 43 exTol exTol) 0 9 (alen vs) 32 (put x) = Ret vs [].
Proof. exists (ISeq [ISeq [IInt 1]; ISeq []; ISeq [IInt 2]]), [1; 2]. vm_compute. auto. Qed.
