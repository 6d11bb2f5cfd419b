(* Reading numbers and sequences from an InputStream. *)
From Verif Require Import Base Tac SeqModel RegexModel FloatModel InputModel InputSpec RegexProofs InputProofs.

Local Arguments Z.add : simpl never.
Local Arguments Z.sub : simpl never.
Local Arguments Z.mul : simpl never.

(* ---- case folding does not change number tokens ---- *)
Definition numeric (c : Z) : Prop := c = 45 \/ c = 46 \/ 48 <= c <= 57.
Lemma fold_numeric : forall b t, Forall numeric (folded b t) -> folded b t = t.
Proof.
  intros [] t; simpl; auto. induction t as [|c t IH]; simpl; intro H; auto. inv H. f_equal; auto.
  unfold lowerCase, numeric in *. destruct ((65 <=? c) && (c <=? 90)) eqn:E; lia.
Qed.
Lemma numeric_fold : forall b t, Forall numeric t -> folded b t = t.
Proof.
  intros [] t; simpl; auto. induction 1 as [|c t C F IH]; simpl; auto. f_equal; auto.
  unfold lowerCase, numeric in *. destruct ((65 <=? c) && (c <=? 90)) eqn:E; lia.
Qed.
Lemma showDigits_numeric : forall ds, Forall digit ds -> Forall numeric (showDigits ds).
Proof. induction 1; simpl; constructor; auto. unfold numeric, digit in *. lia. Qed.
Lemma decimal_numeric : forall t v, decimalOf t v -> Forall numeric t.
Proof.
  intros t v (ds & [F _] & [[-> _]|(-> & _)]); [apply showDigits_numeric; auto|].
  constructor; [left; auto|apply showDigits_numeric; auto].
Qed.
Lemma numeric_plain : forall t, t <> [] -> Forall numeric t -> plainToken t.
Proof.
  intros t N F. split.
  - split; auto. apply Forall_impl with (2 := F). intros c. unfold numeric, whitespace. lia.
  - destruct F; [congruence|]. unfold numeric, graphic in *. lia.
Qed.
Lemma decimal_nonempty : forall t v, decimalOf t v -> t <> [].
Proof.
  intros t v (ds & C & [[-> _]|(-> & _)]); [|discriminate].
  destruct (canonical_cons ds C) as (d & ds' & -> & _). discriminate.
Qed.
Lemma decimal_plain : forall t v, decimalOf t v -> plainToken t.
Proof. intros t v D. apply numeric_plain; [eapply decimal_nonempty|eapply decimal_numeric]; eauto. Qed.

(* ---- single items ---- *)
Section Items.
  Variable st : cfg.

  Lemma stringRe_spec : forall p s t rest,
    stringRe st p s = Ret t rest <-> string st s = Ret t rest /\ regex_match t p = true.
  Proof.
    intros. unfold stringRe, check, rbind, rret, fail. destruct (string st s) as [u r| |]; [|split; [discriminate|intros []; discriminate]..].
    destruct (regex_match u p) eqn:E; simpl.
    - split; [intro H; inv H; auto|intros [H _]; auto].
    - split; [discriminate|intros [H H2]; inv H; congruence].
  Qed.

  Lemma integer_spec : forall s v rest,
    integer st s = Ret v rest <->
    exists t, nextToken (spaceSensitive st) s t rest /\ decimalOf t v /\ is_i64 v.
  Proof.
    intros. unfold integer, rbind. split.
    - destruct (stringRe st INTEGER_REGEX s) as [u r| |] eqn:E; [|discriminate..].
      apply stringRe_spec in E as [E M]. destruct (parseInteger u) as [w|] eqn:P; [|discriminate].
      intro H. inv H. apply string_spec in E as (raw & N & ->).
      destruct (proj1 (integer_token_value _ v) (conj M P)) as [D I].
      exists raw. split; [auto|]. rewrite fold_numeric in D; [auto|]. eapply decimal_numeric; eauto.
    - intros (t & N & D & I). destruct (proj2 (integer_token_value t v) (conj D I)) as [M P].
      assert (E : stringRe st INTEGER_REGEX s = Ret t rest).
      { apply stringRe_spec. split; auto. apply string_spec. exists t. split; auto. symmetry. apply numeric_fold.
        eapply decimal_numeric; eauto. }
      rewrite E, P. reflexivity.
  Qed.

  Lemma integerIn_spec : forall lower upper s v rest,
    integerIn st lower upper s = Ret v rest <->
    exists t, nextToken (spaceSensitive st) s t rest /\ decimalOf t v /\ is_i64 v /\ lower <= v < upper.
  Proof.
    intros. unfold integerIn, rbind. split.
    - destruct (integer st s) as [w r| |] eqn:E; [|discriminate..].
      destruct ((w <? lower) || (upper <=? w)) eqn:B; [discriminate|].
      intro H. inv H. apply integer_spec in E as (t & N & D & I). exists t. repeat (split; [assumption|]). lia.
    - intros (t & N & D & I & B). assert (E : integer st s = Ret v rest) by (apply integer_spec; eauto).
      rewrite E. replace ((v <? lower) || (upper <=? v)) with false by lia. reflexivity.
  Qed.

  Lemma stringLen_spec : forall lower upper s t rest,
    stringLen st lower upper s = Ret t rest <->
    exists raw, nextToken (spaceSensitive st) s raw rest /\ t = folded (caseSensitive st) raw /\
      lower <= alen t < upper.
  Proof.
    intros. unfold stringLen, rbind. split.
    - destruct (string st s) as [w r| |] eqn:E; [|discriminate..].
      destruct ((alen w <? lower) || (upper <=? alen w)) eqn:B; [discriminate|].
      intro H. inv H. apply string_spec in E as (raw & N & D). exists raw. repeat (split; [assumption|]). lia.
    - intros (raw & N & D & B). assert (E : string st s = Ret t rest) by (apply string_spec; eauto).
      rewrite E. replace ((alen t <? lower) || (upper <=? alen t)) with false by lia. reflexivity.
  Qed.

  (* ---- a read either returns or ends the program with onFail ---- *)
  Definition safe {A} (m : rd A) : Prop :=
    forall s, (exists a r, m s = Ret a r) \/ m s = Exit (onFail st).
  Lemma safe_ret : forall A (a : A), safe (rret a).
  Proof. intros A a s. left. unfold rret. eauto. Qed.
  Lemma safe_fail : forall A, safe (@fail st A).
  Proof. intros A s. right. reflexivity. Qed.
  Lemma safe_bind : forall A B (m : rd A) (f : A -> rd B), safe m -> (forall a, safe (f a)) -> safe (rbind m f).
  Proof.
    intros A B m f M F s. unfold rbind. destruct (M s) as [(a & r & ->)| ->]; [apply F|auto].
  Qed.
  Lemma safe_string : safe (string st).
  Proof. exact (string_else st). Qed.
  Lemma safe_check : forall t p, safe (check st t p).
  Proof. intros. unfold check. destruct (negb (regex_match t p)); [apply safe_fail|apply safe_ret]. Qed.
  Lemma safe_stringRe : forall p, safe (stringRe st p).
  Proof.
    intro. apply safe_bind; [apply safe_string|]. intro t. apply safe_bind; [apply safe_check|]. intro. apply safe_ret.
  Qed.
  Lemma safe_integer : safe (integer st).
  Proof.
    apply safe_bind; [apply safe_stringRe|]. intro t. destruct (parseInteger t); auto using safe_fail, safe_ret.
  Qed.
  Lemma safe_integerIn : forall l u, safe (integerIn st l u).
  Proof.
    intros. apply safe_bind; [apply safe_integer|]. intro v. destruct ((v <? l) || (u <=? v)); auto using safe_fail, safe_ret.
  Qed.
  Lemma safe_stringLen : forall l u, safe (stringLen st l u).
  Proof.
    intros. apply safe_bind; [apply safe_string|]. intro v. destruct ((alen v <? l) || (u <=? alen v)); auto using safe_fail, safe_ret.
  Qed.
  Lemma safe_noteof : safe (noteof st).
  Proof. intro s. unfold noteof, rbind, skip, fail. destruct (if spaceSensitive st then s else skipWs s); eauto. Qed.
  Lemma safe_eof : safe (eof st).
  Proof. intro s. unfold eof, rbind, skip, fail. destruct (if spaceSensitive st then s else skipWs s); eauto. Qed.
  Lemma safe_getChar : forall c, safe (getChar st c).
  Proof. intros c [|x s]; unfold getChar, fail; auto. destruct (x =? c); eauto. Qed.
  Lemma safe_space : safe (space st).
  Proof. unfold space. destruct (spaceSensitive st); [apply safe_bind; auto using safe_noteof, safe_getChar|apply safe_ret]. Qed.
  Lemma safe_newline : safe (newline st).
  Proof. unfold newline. destruct (spaceSensitive st); [apply safe_bind; auto using safe_noteof, safe_getChar|apply safe_ret]. Qed.
  Lemma safe_repeat : forall A n (item : rd A) sep, safe item -> safe sep -> safe (repeatRead n item sep).
  Proof.
    induction n as [|n IH]; intros item sep HI HS; [apply safe_ret|].
    cbn [repeatRead]. apply safe_bind; [exact HI|]. intro x. apply safe_bind; [|intros; apply safe_bind; [apply IH; auto|intro; apply safe_ret]].
    destruct n; auto using safe_ret.
  Qed.
  Lemma safe_many : forall A (item : rd A) count sep, safe item -> 0 <= count -> sep = 32 \/ sep = 10 ->
    safe (many st item count sep).
  Proof.
    intros A item count sep HI C Hs. unfold many, checkSeparator.
    replace (count <? 0) with false by lia.
    destruct Hs as [->| ->]; cbn [Z.eqb]; [change (32 =? 32) with true|change (10 =? 32) with false; change (10 =? 10) with true];
      cbv iota; apply safe_repeat; auto using safe_space, safe_newline.
  Qed.

  (* ---- sequences, space sensitive ---- *)
  Section Strict.
    Hypothesis SS : spaceSensitive st = true.

    Lemma getChar_iff : forall c s rest, getChar st c s = Ret tt rest <-> s = c :: rest.
    Proof.
      intros c [|x s] rest; unfold getChar, fail; [split; discriminate|]. destruct (x =? c) eqn:E.
      - apply Z.eqb_eq in E. subst. split; intro H; inv H; auto.
      - split; [discriminate|]. intro H. inv H. lia.
    Qed.
    Lemma space_iff : forall s rest, space st s = Ret tt rest <-> s = 32 :: rest.
    Proof.
      intros. unfold space, noteof, rbind, skip. rewrite SS. destruct s as [|x s]; [unfold fail; split; discriminate|].
      apply getChar_iff.
    Qed.
    Lemma newline_iff : forall s rest, newline st s = Ret tt rest <-> s = 10 :: rest.
    Proof.
      intros. unfold newline, noteof, rbind, skip. rewrite SS. destruct s as [|x s]; [unfold fail; split; discriminate|].
      apply getChar_iff.
    Qed.
    Lemma eof_iff : forall s u rest, eof st s = Ret u rest <-> s = [] /\ rest = [].
    Proof.
      intros s [] rest. unfold eof, rbind, skip. rewrite SS. destruct s; unfold fail.
      - split; [intro H; inv H; auto|intros [_ ->]; auto].
      - split; [discriminate|intros [H _]; discriminate].
    Qed.

    Variable A : Type.
    Variable item : rd A.
    Variable P : list Z -> A -> Prop.
    Hypothesis item_spec : forall s x rest,
      item s = Ret x rest <-> exists t, nextToken true s t rest /\ P t x.

    Lemma nextToken_true : forall s t rest, nextToken true s t rest <-> s = t ++ rest /\ plainToken t /\ endsToken rest.
    Proof.
      intros. split.
      - intros (ws & E & _ & T & N & W). destruct (W eq_refl) as [-> PT]. auto.
      - intros (E & PT & N). exists []. split; auto. split; auto. destruct PT. split; auto. split; auto.
        intros _. split; auto. split; auto.
    Qed.

    Lemma repeat_strict : forall sep sepCall, whitespace sep ->
      (forall s rest, sepCall s = Ret tt rest <-> s = sep :: rest) ->
      forall n s xs rest,
      (repeatRead n item sepCall s = Ret xs rest <->
       exists ts, length ts = n /\ Forall2 P ts xs /\ Forall plainToken ts /\ s = joined sep ts ++ rest /\
         (n <> O -> endsToken rest)).
    Proof.
      intros sep sepCall W SC. induction n as [|n IH]; intros s xs rest.
      - simpl. unfold rret. split.
        + intro H. inv H. exists []. simpl. split; auto. split; auto. split; auto. split; auto. congruence.
        + intros (ts & L & F & _ & E & _). destruct ts; [|discriminate]. inv F. reflexivity.
      - cbn [repeatRead]. unfold rbind. split.
        + destruct (item s) as [x r| |] eqn:E; [|discriminate..]. apply item_spec in E as (t & N & Hp).
          apply nextToken_true in N as (-> & PT & EN). destruct n as [|n].
          * cbn [repeatRead]. unfold rret. intro H. inv H. exists [t]. simpl. auto 10.
          * destruct (sepCall r) as [[] r'| |] eqn:E2; [|discriminate..]. apply SC in E2. subst r.
            destruct (repeatRead (S n) item sepCall r') as [l r''| |] eqn:E3; [|discriminate..].
            unfold rret. intro H. inv H. apply IH in E3 as (ts & L & F & G & -> & En).
            exists (t :: ts). split; [simpl; congruence|]. split; [constructor; auto|]. split; [constructor; auto|].
            split; [|intros _; apply En; discriminate].
            destruct ts as [|t2 ts]; [discriminate|].
            change (joined sep (t :: t2 :: ts)) with (t ++ sep :: joined sep (t2 :: ts)).
            rewrite <- app_assoc. reflexivity.
        + intros (ts & L & F & G & E & En). destruct ts as [|t ts]; [discriminate|]. inv F. inv G.
          destruct n as [|n].
          * destruct ts; [|discriminate]. inv H3. simpl.
            assert (I : item (t ++ rest) = Ret y rest).
            { apply item_spec. exists t. split; auto. apply nextToken_true. auto. }
            simpl. rewrite I. reflexivity.
          * destruct ts as [|t2 ts]; [discriminate|].
            change (joined sep (t :: t2 :: ts)) with (t ++ sep :: joined sep (t2 :: ts)).
            rewrite <- app_assoc. cbn [app].
            assert (I : item (t ++ sep :: joined sep (t2 :: ts) ++ rest) = Ret y (sep :: joined sep (t2 :: ts) ++ rest)).
            { apply item_spec. exists t. split; auto. apply nextToken_true. auto. }
            rewrite I. rewrite (proj2 (SC _ _) eq_refl).
            rewrite (proj2 (IH (joined sep (t2 :: ts) ++ rest) l' rest)); [reflexivity|].
            exists (t2 :: ts). split; [simpl in *; congruence|]. split; [auto|]. split; [auto|]. split; [auto|].
            intros _. apply En. discriminate.
    Qed.

    (* n items, a newline and the end of the file *)
    Lemma lines_strict : forall count sep file xs,
      0 <= count -> sep = 32 \/ sep = 10 ->
      ((read! l := many st item count sep in read! _ := newline st in read! _ := eof st in rret l) file = Ret xs [] <->
       exists ts, alen xs = count /\ Forall2 P ts xs /\ Forall plainToken ts /\ file = joined sep ts ++ [10]).
    Proof.
      intros count sep file xs C Hs.
      assert (M : forall s l r, many st item count sep s = Ret l r <->
        exists ts, length ts = Z.to_nat count /\ Forall2 P ts l /\ Forall plainToken ts /\ s = joined sep ts ++ r /\
          (Z.to_nat count <> O -> endsToken r)).
      { intros. unfold many, checkSeparator. replace (count <? 0) with false by lia.
        destruct Hs as [->| ->]; [change (32 =? 32) with true|change (10 =? 32) with false; change (10 =? 10) with true]; cbv iota;
          apply repeat_strict; auto using space_iff, newline_iff; unfold whitespace; lia. }
      unfold rbind. split.
      - destruct (many st item count sep file) as [l r| |] eqn:E; [|discriminate..].
        apply M in E as (ts & L & F & G & E & En).
        destruct (newline st r) as [[] r'| |] eqn:E2; [|discriminate..]. apply newline_iff in E2.
        destruct (eof st r') as [[] r''| |] eqn:E3; [|discriminate..]. apply eof_iff in E3 as [-> ->].
        unfold rret. intro H. inv H. exists ts. split; [|auto].
        unfold alen. assert (length ts = length xs) by (clear -F; induction F; simpl; congruence). lia.
      - intros (ts & L & F & G & ->).
        assert (E : many st item count sep (joined sep ts ++ [10]) = Ret xs [10]).
        { apply M. exists ts. assert (length ts = length xs) by (clear -F; induction F; simpl; congruence).
          split; [unfold alen in L; lia|]. split; auto. split; auto. split; auto. intros _. simpl. unfold whitespace. lia. }
        rewrite E. rewrite (proj2 (newline_iff [10] []) eq_refl).
        rewrite (proj2 (eof_iff [] tt []) (conj eq_refl eq_refl)). reflexivity.
    Qed.
  End Strict.

  (* ---- sequences, not space sensitive ---- *)
  Section Loose.
    Hypothesis SS : spaceSensitive st = false.
    Variable A : Type.
    Variable item : rd A.
    Variable P : list Z -> A -> Prop.
    Hypothesis item_spec : forall s x rest,
      item s = Ret x rest <-> exists t, nextToken false s t rest /\ P t x.

    Inductive takes : list Z -> list (list Z) -> list Z -> Prop :=
    | takes_nil : forall s, takes s [] s
    | takes_cons : forall s t s' ts rest, nextToken false s t s' -> takes s' ts rest -> takes s (t :: ts) rest.

    Lemma takes_words : forall s ts, (exists rest, takes s ts rest /\ Forall whitespace rest) <-> wordsOf s ts.
    Proof.
      intros. split.
      - intros (rest & T & W). induction T.
        + constructor; auto.
        + destruct H as (ws & -> & F & Tk & En & _). constructor; auto.
      - induction 1 as [ws W|ws t s ts W T En _ (rest & K & R)].
        + exists ws. split; [constructor|auto].
        + exists rest. split; [|auto]. econstructor; [|eauto]. exists ws. split; auto. split; auto. split; auto. split; auto. discriminate.
    Qed.

    Lemma repeat_loose : forall n s xs rest,
      repeatRead n item (rret tt) s = Ret xs rest <->
       exists ts, length ts = n /\ Forall2 P ts xs /\ takes s ts rest.
    Proof.
      induction n as [|n IH]; intros s xs rest.
      - simpl. unfold rret. split.
        + intro H. inv H. exists []. split; auto. split; auto. constructor.
        + intros (ts & L & F & T). destruct ts; [|discriminate]. inv F. inv T. reflexivity.
      - cbn [repeatRead]. unfold rbind.
        assert (Q : (match n with O => rret tt | S _ => rret tt end) = rret tt) by (destruct n; auto). rewrite Q. unfold rret at 1. clear Q.
        split.
        + destruct (item s) as [x r| |] eqn:E; [|discriminate..]. apply item_spec in E as (t & N & Hp).
          destruct (repeatRead n item (rret tt) r) as [l r''| |] eqn:E3; [|discriminate..].
          unfold rret. intro H. inv H. apply IH in E3 as (ts & L & F & T).
          exists (t :: ts). split; [simpl; congruence|]. split; [constructor; auto|]. econstructor; eauto.
        + intros (ts & L & F & T). destruct T as [|s t s' ts rest N T]; [discriminate|]. inv F.
          rewrite (proj2 (item_spec s y s')) by eauto.
          rewrite (proj2 (IH s' l' rest)); [reflexivity|]. simpl in L. exists ts. split; [congruence|]. auto.
    Qed.

    Lemma skipWs_nil : forall s, skipWs s = [] <-> Forall whitespace s.
    Proof.
      intros. split.
      - intro H. destruct (skipWs_split s) as (ws & E & F). rewrite H, app_nil_r in E. subst. auto.
      - intro H. rewrite <- (app_nil_r s), skipWs_app; auto.
    Qed.

    Lemma words_loose : forall count sep file xs,
      0 <= count -> sep = 32 \/ sep = 10 ->
      ((read! l := many st item count sep in read! _ := eof st in rret l) file = Ret xs [] <->
       exists ts, alen xs = count /\ Forall2 P ts xs /\ wordsOf file ts).
    Proof.
      intros count sep file xs C Hs.
      assert (M : forall s l r, many st item count sep s = Ret l r <->
        exists ts, length ts = Z.to_nat count /\ Forall2 P ts l /\ takes s ts r).
      { intros. unfold many, checkSeparator, space, newline. rewrite SS. replace (count <? 0) with false by lia.
        destruct Hs as [->| ->]; [change (32 =? 32) with true|change (10 =? 32) with false; change (10 =? 10) with true]; cbv iota;
          apply repeat_loose. }
      assert (EO : forall s u r, eof st s = Ret u r <-> Forall whitespace s /\ r = []).
      { intros s [] r. unfold eof, rbind, skip. rewrite SS, <- skipWs_nil. destruct (skipWs s); unfold fail.
        - split; [intro H; inv H; auto|intros [_ ->]; auto].
        - split; [discriminate|intros [H _]; discriminate]. }
      unfold rbind. split.
      - destruct (many st item count sep file) as [l r| |] eqn:E; [|discriminate..].
        apply M in E as (ts & L & F & T).
        destruct (eof st r) as [[] r''| |] eqn:E3; [|discriminate..]. apply EO in E3 as [W ->].
        unfold rret. intro H. inv H. exists ts. split; [|split; auto; apply takes_words; eauto].
        unfold alen. assert (length ts = length xs) by (clear -F; induction F; simpl; congruence). lia.
      - intros (ts & L & F & W). apply takes_words in W as (rest & T & W).
        assert (E : many st item count sep file = Ret xs rest).
        { apply M. exists ts. assert (length ts = length xs) by (clear -F; induction F; simpl; congruence).
          split; [unfold alen in L; lia|]. auto. }
        rewrite E. rewrite (proj2 (EO rest tt []) (conj W eq_refl)). reflexivity.
    Qed.
  End Loose.
End Items.
