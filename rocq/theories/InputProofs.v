(* Number tokens and token reading against InputSpec. *)
From Verif Require Import Base Tac SeqModel RegexModel FloatModel InputModel InputSpec RegexProofs.

Local Arguments Z.add : simpl never.
Local Arguments Z.sub : simpl never.
Local Arguments Z.mul : simpl never.

(* ---- digits ---- *)
Lemma isDigit_iff : forall c, isDigit c = true <-> 48 <= c <= 57.
Proof. intro. unfold isDigit. lia. Qed.

Definition unDigits (s : list Z) : list Z := map (fun c => c - 48) s.
Lemma show_un : forall s, showDigits (unDigits s) = s.
Proof. induction s; simpl; f_equal; auto; lia. Qed.
Lemma un_show : forall s, unDigits (showDigits s) = s.
Proof. induction s; simpl; f_equal; auto; lia. Qed.
Lemma digits_un : forall s, Forall (fun c => isDigit c = true) s -> Forall digit (unDigits s).
Proof. induction 1; simpl; constructor; auto. apply isDigit_iff in H. unfold digit. lia. Qed.
Lemma digits_show : forall s, Forall digit s -> Forall (fun c => isDigit c = true) (showDigits s).
Proof. induction 1; simpl; constructor; auto. apply isDigit_iff. unfold digit in H. lia. Qed.

Lemma valueFrom_nonneg : forall ds acc, Forall digit ds -> 0 <= acc -> acc <= valueFrom acc ds.
Proof.
  induction ds as [|d ds IH]; simpl; intros acc H A; [lia|]. inv H. unfold digit in *.
  specialize (IH (10 * acc + d) H3). lia.
Qed.
Lemma value_pos : forall d ds, Forall digit (d :: ds) -> d <> 0 -> 0 < value (d :: ds).
Proof.
  intros d ds H D. inv H. unfold value. cbn [valueFrom]. unfold digit in *.
  pose proof (valueFrom_nonneg ds (10 * 0 + d) H3). lia.
Qed.

Lemma digitsValue_show : forall ds acc, Forall digit ds ->
  digitsValue acc (showDigits ds) = (valueFrom acc ds, []).
Proof.
  induction ds as [|d ds IH]; simpl; intros acc H; auto. inv H.
  assert (E : isDigit (48 + d) = true) by (apply isDigit_iff; unfold digit in *; lia). rewrite E.
  rewrite IH by auto. f_equal. f_equal. lia.
Qed.

(* ---- the integer pattern ---- *)
Definition integerToken (s : list Z) : Prop :=
  exists ds, canonicalDigits ds /\ (s = showDigits ds \/ (s = 45 :: showDigits ds /\ ds <> [0])).

Lemma integer_regex : forall s, regex_match s INTEGER_REGEX = true <-> integerToken s.
Proof.
  intro s. rewrite regex_match_lang. unfold INTEGER_REGEX, RDigit19, RDigit.
  rewrite lang_alt, lang_lit, lang_cat. split.
  - intros [->|(s1 & s2 & -> & H1 & H2)].
    + exists [0]. split; [|left; reflexivity]. split; [repeat constructor; unfold digit; lia|auto].
    + apply lang_cat in H2 as (s3 & s4 & -> & H3 & H4). apply lang_chr in H3 as (c & -> & Hc).
      apply lang_star_chr in H4. unfold isDigit19 in Hc. exists ((c - 48) :: unDigits s4).
      assert (C : canonicalDigits ((c - 48) :: unDigits s4)).
      { split; [constructor; [unfold digit; lia|apply digits_un; auto]|].
        right. exists (c - 48), (unDigits s4). split; [auto|lia]. }
      split; [exact C|]. apply lang_opt in H1 as [H1|H1].
      * apply lang_lit in H1. subst s1. right. split.
        -- simpl. rewrite show_un. unfold c_minus. repeat f_equal; lia.
        -- intro E. inv E. lia.
      * subst s1. left. simpl. rewrite show_un. f_equal. lia.
  - assert (G : forall d ds', Forall digit (d :: ds') -> d <> 0 ->
       lang (RCat (RChr isDigit19) (RStar (RChr isDigit))) (showDigits (d :: ds'))).
    { intros d ds' F D. inv F. unfold digit in *. simpl.
      apply (l_cat _ _ [48 + d] (showDigits ds')).
      - constructor. unfold isDigit19. lia.
      - apply lang_star_chr, digits_show; auto. }
    intros (ds & [F C] & H). destruct H as [->|[-> N]].
    + destruct C as [->|(d & ds' & -> & D)]; [left; reflexivity|right].
      exists [], (showDigits (d :: ds')). split; [reflexivity|]. split; [apply lang_opt; auto|]. apply G; auto.
    + destruct C as [->|(d & ds' & -> & D)]; [congruence|right].
      exists [45], (showDigits (d :: ds')). split; [reflexivity|]. split; [|apply G; auto].
      apply lang_opt. left. apply lang_lit. reflexivity.
Qed.

Lemma showDigits_head : forall d (ds : list Z), digit d ->
  (48 + d =? c_plus) = false /\ (48 + d =? c_minus) = false /\ isDigit (48 + d) = true.
Proof. intros. unfold digit, c_plus, c_minus, isDigit in *. lia. Qed.

Lemma canonical_value0 : forall ds, canonicalDigits ds -> value ds = 0 -> ds = [0].
Proof.
  intros ds [F [->|(d & ds' & -> & D)]] V; auto.
  pose proof (value_pos d ds' F D). lia.
Qed.
Lemma canonical_nonneg : forall ds, canonicalDigits ds -> 0 <= value ds.
Proof. intros ds [F _]. apply (valueFrom_nonneg ds 0); auto; lia. Qed.
Lemma canonical_cons : forall ds, canonicalDigits ds -> exists d ds', ds = d :: ds' /\ digit d.
Proof.
  intros ds [F [->|(d & ds' & -> & D)]]; inv F; eauto.
Qed.

Lemma parse_show : forall ds, canonicalDigits ds ->
  parseInteger (showDigits ds) = if in_i64 (value ds) then Some (value ds) else None.
Proof.
  intros ds C. pose proof C as [F _]. destruct (canonical_cons ds C) as (d & ds' & E & D).
  subst ds. destruct (showDigits_head d ds' D) as (E1 & E2 & E3).
  unfold parseInteger, from_chars. cbn [showDigits map]. rewrite E1, E2. cbv iota zeta. rewrite E3.
  change ((48 + d) :: map (fun d : Z => 48 + d) ds') with (showDigits (d :: ds')).
  rewrite digitsValue_show by auto. fold (value (d :: ds')). destruct (in_i64 (value (d :: ds'))); reflexivity.
Qed.
Lemma parse_minus : forall ds, canonicalDigits ds ->
  parseInteger (45 :: showDigits ds) = if in_i64 (- value ds) then Some (- value ds) else None.
Proof.
  intros ds C. pose proof C as [F _]. destruct (canonical_cons ds C) as (d & ds' & E & D).
  subst ds. destruct (showDigits_head d ds' D) as (E1 & E2 & E3).
  unfold parseInteger, from_chars. change (45 =? c_plus) with false. change (45 =? c_minus) with true. cbv iota zeta. cbn [tl].
  cbn [showDigits map]. change (45 =? c_minus) with true. cbv iota. rewrite E3.
  change ((48 + d) :: map (fun d : Z => 48 + d) ds') with (showDigits (d :: ds')).
  rewrite digitsValue_show by auto. fold (value (d :: ds')). destruct (in_i64 (- value (d :: ds'))); reflexivity.
Qed.

Lemma in_i64_iff : forall v, in_i64 v = true <-> is_i64 v.
Proof. intro. unfold in_i64, is_i64. lia. Qed.

Lemma integer_token_value : forall s v,
  (regex_match s INTEGER_REGEX = true /\ parseInteger s = Some v) <-> (decimalOf s v /\ is_i64 v).
Proof.
  intros s v. rewrite integer_regex, <- in_i64_iff. split.
  - intros [(ds & C & H) P]. destruct H as [->|[-> N]].
    + rewrite parse_show in P by auto. destruct (in_i64 (value ds)) eqn:E; [|discriminate]. inv P.
      split; auto. exists ds. auto.
    + rewrite parse_minus in P by auto. destruct (in_i64 (- value ds)) eqn:E; [|discriminate]. inv P.
      split; auto. exists ds. split; auto. right. split; auto. split; auto.
      intro Z0. apply N, canonical_value0; auto. lia.
  - intros [(ds & C & H) I]. destruct H as [[-> ->]|(-> & -> & N)].
    + split; [exists ds; auto|]. rewrite parse_show, I; auto.
    + split; [|rewrite parse_minus, I; auto]. exists ds. split; auto. right. split; auto.
      intros ->. apply N. reflexivity.
Qed.

Lemma isInteger_iff : forall s v, isInteger s = (true, Some v) <-> decimalOf s v /\ is_i64 v.
Proof.
  intros. rewrite <- integer_token_value. unfold isInteger.
  destruct (regex_match s INTEGER_REGEX); simpl.
  - destruct (parseInteger s); (split; [intro H; inv H; auto|intros [_ H]; inv H; auto]).
  - split; [discriminate|intros [H _]; discriminate].
Qed.
Lemma isInteger_else : forall s, (forall v, ~ (decimalOf s v /\ is_i64 v)) -> isInteger s = (false, None).
Proof.
  intros s H. destruct (isInteger s) as [b o] eqn:E. pose proof (isInteger_iff s) as I. rewrite E in I.
  unfold isInteger in E. destruct (regex_match s INTEGER_REGEX); simpl in E; [|congruence].
  destruct (parseInteger s); [|congruence]. inv E. exfalso. eapply H. apply I. reflexivity.
Qed.

(* decimal notation is a bijection *)
Lemma valueFrom_snoc : forall ds acc d, valueFrom acc (ds ++ [d]) = 10 * valueFrom acc ds + d.
Proof. induction ds; simpl; intros; auto. Qed.
Lemma value_snoc : forall ds d, value (ds ++ [d]) = 10 * value ds + d.
Proof. intros. apply valueFrom_snoc. Qed.

Lemma canonical_exists : forall k n, 0 <= n < Z.of_nat k -> exists ds, canonicalDigits ds /\ value ds = n.
Proof.
  induction k as [|k IH]; intros n N; [lia|].
  destruct (Z_lt_le_dec n 10).
  - exists [n]. split; [|unfold value; simpl; lia]. split; [repeat constructor; unfold digit; lia|].
    destruct (Z.eq_dec n 0); [left; congruence|right; exists n, []; auto].
  - assert (N10 : n = 10 * (n / 10) + n mod 10) by dlia. assert (0 <= n mod 10 < 10) by dlia.
    assert (1 <= n / 10 < n) by dlia.
    destruct (IH (n / 10)) as (ds & [F C] & V); [lia|].
    exists (ds ++ [n mod 10]). split; [split|].
    + apply Forall_app. split; auto. repeat constructor; unfold digit; lia.
    + right. destruct C as [->|(d & ds' & -> & D)].
      * unfold value in V. simpl in V. lia.
      * exists d, (ds' ++ [n mod 10]). auto.
    + rewrite value_snoc, V. lia.
Qed.

Lemma value_inj_len : forall ds es, Forall digit ds -> Forall digit es -> length ds = length es ->
  value ds = value es -> ds = es.
Proof.
  intro ds. induction ds as [|d ds IH] using rev_ind; intros es F G L V.
  - destruct es; [auto|discriminate].
  - destruct es as [|e es _] using rev_ind; [rewrite app_length in L; simpl in L; lia|].
    rewrite !app_length in L. simpl in L. rewrite !value_snoc in V.
    apply Forall_app in F as [F1 F2]. apply Forall_app in G as [G1 G2]. inv F2. inv G2. unfold digit in *.
    assert (d = e) by lia. subst e. f_equal. apply IH; auto; lia.
Qed.
Lemma value_bounds : forall ds, Forall digit ds -> 0 <= value ds < 10 ^ alen ds.
Proof.
  intro ds. induction ds as [|d ds IH] using rev_ind; intro F.
  - unfold value, alen. simpl. lia.
  - apply Forall_app in F as [F1 F2]. inv F2. specialize (IH F1). rewrite value_snoc. unfold alen in *. rewrite app_length. simpl.
    rewrite Nat2Z.inj_add, Z.pow_add_r by lia. change (10 ^ Z.of_nat 1) with 10. unfold digit in *. lia.
Qed.
Lemma value_lower : forall d ds, Forall digit (d :: ds) -> d <> 0 -> 10 ^ alen ds <= value (d :: ds).
Proof.
  intros d ds. induction ds as [|x ds IH] using rev_ind; intros F D.
  - inv F. unfold value, alen, digit in *. simpl. lia.
  - rewrite app_comm_cons in *. apply Forall_app in F as [F1 F2]. inv F2. specialize (IH F1 D). rewrite value_snoc.
    unfold alen in *. rewrite app_length. simpl (length [x]).
    rewrite Nat2Z.inj_add, Z.pow_add_r by lia. change (10 ^ Z.of_nat 1) with 10. unfold digit in *. lia.
Qed.
Lemma canonical_length : forall ds es, canonicalDigits ds -> canonicalDigits es -> value ds = value es ->
  (length ds <= length es)%nat.
Proof.
  intros ds es [F C] [G C'] V. destruct (le_lt_dec (length ds) (length es)) as [L|L]; auto. exfalso.
  destruct C as [->|(d & ds' & -> & D)].
  - simpl in L. destruct es; simpl in L; [|lia]. destruct C' as [X|(? & ? & X & _)]; discriminate.
  - pose proof (value_lower d ds' F D). pose proof (value_bounds es G).
    assert (10 ^ alen es <= 10 ^ alen ds').
    { apply Z.pow_le_mono_r; [lia|]. unfold alen. simpl in L. lia. }
    lia.
Qed.
Lemma canonical_inj : forall ds es, canonicalDigits ds -> canonicalDigits es -> value ds = value es -> ds = es.
Proof.
  intros ds es C C' V. pose proof (canonical_length ds es C C' V). pose proof (canonical_length es ds C' C (eq_sym V)).
  destruct C, C'. apply value_inj_len; auto. lia.
Qed.

Lemma decimal_exists : forall v, exists s, decimalOf s v.
Proof.
  intro v. destruct (canonical_exists (Z.to_nat (Z.abs v + 1)) (Z.abs v)) as (ds & C & V); [lia|].
  destruct (Z_lt_le_dec v 0).
  - exists (45 :: showDigits ds), ds. split; auto. right. split; auto. split; lia.
  - exists (showDigits ds), ds. split; auto. left. split; auto. lia.
Qed.
Lemma decimal_unique : forall v s t, decimalOf s v -> decimalOf t v -> s = t.
Proof.
  intros v s t (ds & C & H) (es & C' & H').
  pose proof (canonical_nonneg ds C). pose proof (canonical_nonneg es C').
  destruct H as [[-> V]|(-> & V & N)], H' as [[-> V']|(-> & V' & N')].
  - f_equal. apply canonical_inj; auto; lia.
  - lia.
  - lia.
  - f_equal. f_equal. apply canonical_inj; auto. lia.
Qed.
Lemma decimal_value_unique : forall s v w, decimalOf s v -> decimalOf s w -> v = w.
Proof.
  intros s v w (ds & C & H) (es & C' & H').
  assert (D : forall ds es, canonicalDigits ds -> showDigits ds = 45 :: showDigits es -> False).
  { intros xs ys X E. destruct (canonical_cons xs X) as (d & xs' & -> & Hd). simpl in E. inv E. unfold digit in Hd. lia. }
  assert (I : forall ds es, showDigits ds = showDigits es -> ds = es).
  { intros xs ys E. rewrite <- (un_show xs), <- (un_show ys). f_equal; auto. }
  destruct H as [[-> V]|(-> & V & N)], H' as [[E V']|(E & V' & N')].
  - apply I in E. subst. auto.
  - exfalso. eapply D; [|exact E]. auto.
  - exfalso. eapply D; [|symmetry; exact E]. auto.
  - inv E. apply I in H0. subst. auto.
Qed.

(* ---- tokens ---- *)
Lemma isSpace_iff : forall c, isSpace c = true <-> whitespace c.
Proof. intro. unfold isSpace, whitespace. lia. Qed.
Lemma isSpace_false : forall c, isSpace c = false <-> ~ whitespace c.
Proof. intro. rewrite <- isSpace_iff. destruct (isSpace c); split; congruence. Qed.

Lemma skipWs_app : forall ws s, Forall whitespace ws -> skipWs (ws ++ s) = skipWs s.
Proof. induction 1; simpl; auto. apply isSpace_iff in H. rewrite H. auto. Qed.
Lemma skipWs_split : forall s, exists ws, s = ws ++ skipWs s /\ Forall whitespace ws.
Proof.
  induction s as [|c s (ws & E & F)]; [exists []; auto|]. simpl. destruct (isSpace c) eqn:C.
  - exists (c :: ws). split; [simpl; congruence|constructor; auto; apply isSpace_iff; auto].
  - exists []. auto.
Qed.
Lemma skipWs_head : forall s c s', skipWs s = c :: s' -> ~ whitespace c.
Proof.
  induction s as [|x s IH]; simpl; intros c s' H; [discriminate|]. destruct (isSpace x) eqn:C; [eauto|].
  inv H. apply isSpace_false; auto.
Qed.
Lemma skipWs_id : forall t s, token t -> skipWs (t ++ s) = t ++ s.
Proof.
  intros t s [N F]. destruct t as [|c t]; [congruence|]. inv F. simpl. apply isSpace_false in H1. rewrite H1. auto.
Qed.

Lemma takeToken_app : forall t s, Forall (fun c => ~ whitespace c) t -> endsToken s ->
  takeToken (t ++ s) = t /\ dropToken (t ++ s) = s.
Proof.
  induction 1 as [|c t C F IH]; intro E.
  - destruct s as [|c s]; simpl; auto. simpl in E. apply isSpace_iff in E. rewrite E. auto.
  - simpl. apply isSpace_false in C. rewrite C. destruct (IH E) as [-> ->]. auto.
Qed.
Lemma takeToken_split : forall s, s = takeToken s ++ dropToken s /\
  Forall (fun c => ~ whitespace c) (takeToken s) /\ endsToken (dropToken s).
Proof.
  induction s as [|c s (E & F & G)]; [simpl; auto|]. simpl. destruct (isSpace c) eqn:C.
  - simpl. split; auto. split; auto. apply isSpace_iff; auto.
  - simpl. split; [congruence|]. split; auto. constructor; auto. apply isSpace_false; auto.
Qed.

Lemma lower_eq : forall c, toDefaultCase c = lowerCase c.
Proof. intro. reflexivity. Qed.

Lemma string_spec : forall st s t rest,
  string st s = Ret t rest <->
  exists raw, nextToken (spaceSensitive st) s raw rest /\ t = folded (caseSensitive st) raw.
Proof.
  intros st s t rest. unfold string, noteof, rbind, skip, fail. destruct (spaceSensitive st) eqn:SP.
  - simpl. destruct s as [|c s].
    + split; [discriminate|]. intros (raw & (ws & E & _ & [N _] & _) & _).
      symmetry in E. apply app_eq_nil in E as [_ E]. apply app_eq_nil in E as [E _]. congruence.
    + cbn [isgraphPeek]. destruct ((33 <=? c) && (c <=? 126)) eqn:G; cbn [negb].
      * assert (C : isSpace c = false) by (unfold isSpace; lia).
        cbn [takeToken dropToken]. rewrite C. cbv iota.
        destruct (takeToken_split s) as (E & F & D).
        assert (FF : Forall (fun c => ~ whitespace c) (c :: takeToken s)) by (constructor; auto; apply isSpace_false; auto).
        split.
        -- intro H. inv H. exists (c :: takeToken s). split.
           ++ exists []. split; [simpl; congruence|]. split; [constructor|].
              assert (token (c :: takeToken s)) by (split; [discriminate|auto]).
              split; [auto|]. split; [auto|]. intros _. split; [auto|]. split; [auto|]. unfold graphic. lia.
           ++ unfold folded. reflexivity.
        -- intros (raw & (ws & E1 & _ & T & D1 & W) & ->). destruct (W eq_refl) as [-> _]. simpl in E1.
           destruct T as [_ T]. destruct (takeToken_app raw rest T D1) as [X Y]. rewrite <- E1 in X, Y.
           simpl in X, Y. rewrite C in X, Y. rewrite <- X, Y. reflexivity.
      * split; [discriminate|]. intros (raw & (ws & E1 & _ & T & D1 & W) & ->). destruct (W eq_refl) as [-> [_ P]].
        destruct raw as [|x raw]; [destruct P|]. simpl in E1. inv E1. unfold graphic in P. lia.
  - simpl. destruct (skipWs s) as [|c s'] eqn:K.
    + split; [discriminate|]. intros (raw & (ws & E & F & T & _) & _). exfalso.
      rewrite E, skipWs_app, skipWs_id in K by auto. destruct T as [N _].
      apply app_eq_nil in K as [K _]. congruence.
    + assert (C : isSpace c = false) by (apply isSpace_false; eapply skipWs_head; eauto).
      cbn [skipWs]. rewrite C. cbn [takeToken dropToken]. rewrite C.
      destruct (takeToken_split s') as (E & F & D).
      assert (FF : Forall (fun c => ~ whitespace c) (c :: takeToken s')) by (constructor; auto; apply isSpace_false; auto).
      split.
      * intro H. inv H. exists (c :: takeToken s'). split; [|reflexivity].
        destruct (skipWs_split s) as (ws & E1 & W). rewrite K in E1. exists ws.
        split; [rewrite E1; f_equal; simpl; congruence|]. split; [auto|].
        split; [split; [discriminate|auto]|]. split; [auto|discriminate].
      * intros (raw & (ws & E1 & W & T & D1 & _) & ->).
        rewrite E1, skipWs_app, skipWs_id in K by auto. destruct T as [_ T].
        destruct (takeToken_app raw rest T D1) as [X Y]. rewrite K in X, Y.
        simpl in X, Y. rewrite C in X, Y. rewrite <- X, Y. reflexivity.
Qed.

Lemma string_else : forall st s, (exists t rest, string st s = Ret t rest) \/ string st s = Exit (onFail st).
Proof.
  intros. unfold string, noteof, rbind, skip, fail. destruct (if spaceSensitive st then s else skipWs s); [auto|].
  destruct (spaceSensitive st && negb (isgraphPeek (z :: l))); [auto|].
  destruct (takeToken (if spaceSensitive st then z :: l else skipWs (z :: l))); eauto.
Qed.
