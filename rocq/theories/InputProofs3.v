(* Reading reals; floatEqual. *)
From Verif Require Import Base Tac SeqModel RegexModel FloatModel InputModel InputSpec RegexProofs InputProofs InputProofs2.
Local Arguments Z.add : simpl never.
Local Arguments Z.sub : simpl never.
Local Arguments Z.mul : simpl never.

Lemma lang_star_digit : forall s, lang (RStar RDigit) s <-> exists ds, Forall digit ds /\ s = showDigits ds.
Proof.
  intro. unfold RDigit. rewrite lang_star_chr. split.
  - intro H. exists (unDigits s). split; [apply digits_un; auto|symmetry; apply show_un].
  - intros (ds & F & ->). apply digits_show; auto.
Qed.
Lemma lang_plus_digit : forall s, lang (RPlus RDigit) s <-> exists ds, Forall digit ds /\ ds <> [] /\ s = showDigits ds.
Proof.
  intro. unfold RDigit. rewrite lang_plus_chr. split.
  - intros [N H]. exists (unDigits s). split; [apply digits_un; auto|]. split; [destruct s; [congruence|discriminate]|symmetry; apply show_un].
  - intros (ds & F & N & ->). split; [destruct ds; [congruence|discriminate]|apply digits_show; auto].
Qed.
Lemma showDigits_app : forall a b, showDigits (a ++ b) = showDigits a ++ showDigits b.
Proof. intros. apply map_app. Qed.

Lemma lang_canonical : forall s, lang (RAlt (RLit c_zero) (RCat RDigit19 (RStar RDigit))) s <->
  exists ds, canonicalDigits ds /\ s = showDigits ds.
Proof.
  intro s. rewrite lang_alt, lang_lit, lang_cat. split.
  - intros [->|(s1 & s2 & -> & H1 & H2)].
    + exists [0]. split; [split; [repeat constructor; unfold digit; lia|auto]|reflexivity].
    + apply lang_chr in H1 as (c & -> & Hc). apply lang_star_digit in H2 as (ds & F & ->). unfold isDigit19 in Hc.
      exists ((c - 48) :: ds). split; [split; [constructor; auto; unfold digit; lia|right; exists (c - 48), ds; split; auto; lia]|].
      simpl. f_equal. lia.
  - intros (ds & [F [->|(d & ds' & -> & D)]] & ->); [left; reflexivity|right]. inv F. unfold digit in *.
    exists [48 + d], (showDigits ds'). split; [reflexivity|]. split; [constructor; unfold isDigit19; lia|].
    apply lang_star_digit. eauto.
Qed.

Lemma lang_minus : forall s, lang (ROpt (RLit c_minus)) s <-> exists neg, s = optMinus neg.
Proof.
  intro. rewrite lang_opt, lang_lit. split.
  - intros [->| ->]; [exists true|exists false]; reflexivity.
  - intros ([] & ->); auto.
Qed.

Lemma strict_regex : forall t, regex_match t STRICT_REAL_REGEX = true <-> exists k, strictReal t k.
Proof.
  intro t. rewrite regex_match_lang. unfold STRICT_REAL_REGEX. rewrite lang_cat. split.
  - intros (s1 & s2 & -> & H1 & H2). apply lang_minus in H1 as (neg & ->).
    apply lang_cat in H2 as (s3 & s4 & -> & H3 & H4). apply lang_canonical in H3 as (ip & C & ->).
    apply lang_cat in H4 as (s5 & s6 & -> & H5 & H6). apply lang_star_digit in H6 as (fp & F & ->).
    assert (NE : ip <> []) by (destruct (canonical_cons ip C) as (? & ? & -> & _); discriminate).
    apply lang_opt in H5 as [H5|H5].
    + apply lang_lit in H5. subst s5. exists (alen fp), neg, ip. split; [apply C|]. split; [auto|]. right. exists fp. auto 10.
    + subst s5. exists 0, neg, (ip ++ fp). split; [apply Forall_app; split; [apply C|auto]|]. split; [destruct ip; [congruence|discriminate]|].
      left. rewrite showDigits_app. auto.
  - intros (k & neg & ip & F & NE & [[-> _]|(fp & C & G & -> & _)]).
    + exists (optMinus neg), (showDigits ip). split; [auto|]. split; [apply lang_minus; eauto|]. apply lang_cat.
      destruct ip as [|d ip]; [congruence|]. inv F. destruct (Z.eq_dec d 0) as [->|D].
      * exists [48], (showDigits ip). split; [reflexivity|]. split; [apply lang_canonical; exists [0]; split; [|reflexivity]|].
        { split; [repeat constructor; unfold digit; lia|auto]. }
        apply lang_cat. exists [], (showDigits ip). split; [reflexivity|]. split; [apply lang_opt; auto|apply lang_star_digit; eauto].
      * exists (showDigits (d :: ip)), []. split; [symmetry; apply app_nil_r|].
        split; [apply lang_canonical; exists (d :: ip); split; auto; split; [constructor; auto|right; eauto]|].
        apply lang_cat. exists [], []. split; [reflexivity|]. split; [apply lang_opt; auto|apply lang_star_digit; exists []; auto].
    + exists (optMinus neg), (showDigits ip ++ 46 :: showDigits fp). split; [auto|]. split; [apply lang_minus; eauto|].
      apply lang_cat. exists (showDigits ip), (46 :: showDigits fp). split; [auto|]. split; [apply lang_canonical; eauto|].
      apply lang_cat. exists [46], (showDigits fp). split; [auto|]. split; [apply lang_opt; left; apply lang_lit; auto|apply lang_star_digit; eauto].
Qed.

Lemma find_none : forall c t, Forall (fun x => x <> c) t -> find c t = None.
Proof. induction 1; simpl; auto. replace (x =? c) with false by lia. rewrite IHForall. auto. Qed.
Lemma find_at : forall c a b, Forall (fun x => x <> c) a -> find c (a ++ c :: b) = Some (alen a).
Proof.
  intros c a b H. induction H; simpl.
  - rewrite Z.eqb_refl. reflexivity.
  - replace (x =? c) with false by lia. rewrite IHForall. simpl. unfold alen. simpl length. f_equal. lia.
Qed.
Lemma no_dot : forall neg ip, Forall digit ip -> Forall (fun x => x <> c_dot) (optMinus neg ++ showDigits ip).
Proof.
  intros. apply Forall_app. split.
  - destruct neg; repeat constructor. discriminate.
  - induction H; simpl; constructor; auto. unfold digit, c_dot in *. lia.
Qed.
Definition decimalsOf (t : list Z) : Z := match find c_dot t with None => 0 | Some dot => alen t - dot - 1 end.
Lemma strict_decimals : forall t k, strictReal t k -> decimalsOf t = k.
Proof.
  intros t k (neg & ip & F & NE & [[-> ->]|(fp & C & G & -> & ->)]); unfold decimalsOf.
  - rewrite find_none; auto. apply no_dot; auto.
  - rewrite app_assoc. change 46 with c_dot. rewrite find_at by (apply no_dot; auto).
    unfold alen, showDigits. rewrite !app_length. simpl length. rewrite !map_length. lia.
Qed.
Lemma strict_numeric : forall t k, strictReal t k -> Forall numeric t.
Proof.
  intros t k (neg & ip & F & NE & [[-> _]|(fp & C & G & -> & _)]).
  - apply Forall_app. split; [destruct neg; repeat constructor|apply showDigits_numeric; auto].
  - apply Forall_app. split; [destruct neg; repeat constructor|]. apply Forall_app. split; [apply showDigits_numeric; auto|].
    constructor; [right; left; auto|apply showDigits_numeric; auto].
Qed.

Section Reals.
  Variable st : cfg.
  Variable parseReal : list Z -> option real.

  Lemma realStrict_spec : forall lower upper minD maxD s v rest,
    realStrict st parseReal lower upper minD maxD s = Ret v rest <->
    exists t k, nextToken (spaceSensitive st) s t rest /\ strictReal t k /\ minD <= k < maxD /\
      parseReal t = Some v /\ SFleb lower v = true /\ SFltb v upper = true.
  Proof.
    intros. unfold realStrict, rbind. split.
    - destruct (stringRe st STRICT_REAL_REGEX s) as [u r| |] eqn:E; [|discriminate..].
      apply stringRe_spec in E as [E M]. fold (decimalsOf u).
      destruct ((decimalsOf u <? minD) || (maxD <=? decimalsOf u)) eqn:B; [discriminate|].
      destruct (parseReal u) as [w|] eqn:P; [|discriminate].
      destruct (isnan w || negb (SFleb lower w) || negb (SFltb w upper)) eqn:Q; [discriminate|].
      intro H. inv H. apply strict_regex in M as (k & K). apply string_spec in E as (raw & N & ->).
      assert (FE : folded (caseSensitive st) raw = raw) by (apply fold_numeric; eapply strict_numeric; eauto).
      rewrite FE in K, B, P.
      exists raw, k. split; [auto|]. split; [auto|]. apply strict_decimals in K. rewrite K in B. split; [lia|]. split; [auto|].
      destruct (SFleb lower v), (SFltb v upper), (isnan v); simpl in Q; auto; discriminate.
    - intros (t & k & N & K & B & P & L & U).
      assert (E : stringRe st STRICT_REAL_REGEX s = Ret t rest).
      { apply stringRe_spec. split; [|apply strict_regex; eauto]. apply string_spec. exists t. split; auto. symmetry. apply numeric_fold.
        eapply strict_numeric; eauto. }
      rewrite E. fold (decimalsOf t). rewrite (strict_decimals t k K).
      replace ((k <? minD) || (maxD <=? k)) with false by lia. rewrite P, L, U.
      replace (isnan v) with false; [reflexivity|]. destruct v; try reflexivity. destruct lower as [[]|[]| |[]]; discriminate.
  Qed.
  Lemma safe_realStrict : forall lower upper minD maxD, safe st (realStrict st parseReal lower upper minD maxD).
  Proof.
    intros. apply safe_bind; [apply safe_stringRe|]. intro t. cbv zeta. fold (decimalsOf t).
    destruct ((decimalsOf t <? minD) || (maxD <=? decimalsOf t)); [apply safe_fail|].
    destruct (parseReal t); [|apply safe_fail].
    destruct (isnan r || negb (SFleb lower r) || negb (SFltb r upper)); auto using safe_fail, safe_ret.
  Qed.

  Lemma real_regex : forall t, regex_match t REAL_REGEX = true <-> realToken t.
  Proof.
    assert (SG : forall s, lang RSign s <-> optSign s).
    { intro. unfold RSign, optSign. rewrite lang_opt, lang_chr. split.
      - intros [(c & -> & H)|H]; [|auto]. unfold c_plus, c_minus in H.
        apply orb_true_iff in H as [H|H]; apply Z.eqb_eq in H; subst; auto.
      - intros [H|[H|H]]; [auto|left; eexists; split; [exact H|reflexivity]..]. }
    assert (EX : forall s, lang (ROpt (RCat (RChr (fun x => (x =? 101) || (x =? 69))) (RCat RSign (RPlus RDigit)))) s <-> exponentPart s).
    { intro. unfold exponentPart. rewrite lang_opt, lang_cat. split.
      - intros [(s1 & s2 & -> & H1 & H2)|H]; [right|auto]. apply lang_chr in H1 as (e & -> & He).
        apply lang_cat in H2 as (s3 & s4 & -> & H3 & H4). apply SG in H3. apply lang_plus_digit in H4 as (ds & F & N & ->).
        exists e, s3, ds. split; [lia|]. auto.
      - intros [H|(e & sg & ds & He & S1 & F & N & ->)]; [auto|left]. exists [e], (sg ++ showDigits ds). split; [auto|].
        split; [constructor; lia|]. apply lang_cat. exists sg, (showDigits ds). split; [auto|]. split; [apply SG; auto|apply lang_plus_digit; eauto]. }
    intro t. rewrite regex_match_lang. unfold REAL_REGEX. rewrite lang_cat. split.
    - intros (sg & s2 & -> & H1 & H2). apply SG in H1. apply lang_cat in H2 as (m & ex & -> & Hm & He). apply EX in He.
      apply lang_alt in Hm as [Hm|Hm]; [|apply lang_alt in Hm as [Hm|Hm]].
      + apply lang_cat in Hm as (s3 & s4 & -> & H3 & H4). apply lang_cat in H4 as (s5 & s6 & -> & H5 & H6).
        apply lang_star_digit in H3 as (ip & F & ->). apply lang_lit in H5. apply lang_plus_digit in H6 as (fp & G & N & ->). subst s5.
        exists sg, ip, fp, true, ex. repeat (split; [auto; discriminate|]). rewrite <- !app_assoc. reflexivity.
      + apply lang_cat in Hm as (s3 & s4 & -> & H3 & H4). apply lang_plus_digit in H3 as (ip & F & N & ->). apply lang_lit in H4. subst s4.
        exists sg, ip, [], true, ex. repeat (split; [auto; discriminate|]). rewrite <- !app_assoc. reflexivity.
      + apply lang_plus_digit in Hm as (ip & F & N & ->).
        exists sg, ip, [], false, ex. repeat (split; [auto; discriminate|]). reflexivity.
    - intros (sg & ip & fp & dot & ex & Hs & F & G & Hx & N & D & ->).
      exists sg, (showDigits ip ++ (if dot then [46] else []) ++ showDigits fp ++ ex). split; [auto|]. split; [apply SG; auto|].
      apply lang_cat. exists (showDigits ip ++ (if dot then [46] else []) ++ showDigits fp), ex.
      split; [rewrite <- !app_assoc; reflexivity|]. split; [|apply EX; auto].
      destruct dot.
      + destruct (list_eq_dec Z.eq_dec fp []) as [->|NF].
        * apply l_altr, l_altl. apply lang_cat. exists (showDigits ip), [46]. split; [auto|].
          split; [apply lang_plus_digit; exists ip; repeat split; auto; tauto|apply lang_lit; auto].
        * apply l_altl. apply lang_cat. exists (showDigits ip), (46 :: showDigits fp). split; [auto|].
          split; [apply lang_star_digit; eauto|]. apply lang_cat. exists [46], (showDigits fp). split; [auto|].
          split; [apply lang_lit; auto|apply lang_plus_digit; eauto].
      + rewrite (D eq_refl) in *. simpl. rewrite app_nil_r. apply l_altr, l_altr. apply lang_plus_digit.
        exists ip. repeat split; auto; tauto.
  Qed.

  Lemma readReal_spec : forall s v rest,
    readReal st parseReal s = Ret v rest <->
    exists raw, nextToken (spaceSensitive st) s raw rest /\ realToken (folded (caseSensitive st) raw) /\
      parseReal (folded (caseSensitive st) raw) = Some v.
  Proof.
    intros. unfold readReal, rbind. split.
    - destruct (stringRe st REAL_REGEX s) as [u r| |] eqn:E; [|discriminate..].
      apply stringRe_spec in E as [E M]. destruct (parseReal u) as [w|] eqn:P; [|discriminate].
      intro H. inv H. apply string_spec in E as (raw & N & ->). apply real_regex in M. eauto.
    - intros (raw & N & R & P).
      assert (E : stringRe st REAL_REGEX s = Ret (folded (caseSensitive st) raw) rest).
      { apply stringRe_spec. split; [|apply real_regex; auto]. apply string_spec. eauto. }
      rewrite E, P. reflexivity.
  Qed.
  Lemma safe_readReal : safe st (readReal st parseReal).
  Proof.
    apply safe_bind; [apply safe_stringRe|]. intro t. destruct (parseReal t); auto using safe_fail, safe_ret.
  Qed.

  (* ---- floatEqual ---- *)
  Definition goodTol (x : real) : Prop := SFleb rzero x = true.
  Lemma floatEqual_total : forall g e a r, goodTol a -> goodTol r -> exists b, floatEqual g e a r = Ok b.
  Proof.
    intros g e a r A R. unfold floatEqual, goodTol in *. rewrite A, R. cbn [judgeAssert bind].
    destruct (isfinite g && isfinite e); eauto. destruct (isnan g && isnan e); eauto. destruct (isinf g && isinf e); eauto.
  Qed.

  Lemma expectReal_spec : forall expected s rest,
    goodTol (floatAbsTol st) -> goodTol (floatRelTol st) ->
    (expectReal st parseReal expected s = Ret tt rest <->
     exists v, readReal st parseReal s = Ret v rest /\
       floatEqual v expected (floatAbsTol st) (floatRelTol st) = Ok false).
  Proof.
    intros expected s rest A R. unfold expectReal, rbind, rlift.
    destruct (readReal st parseReal s) as [v r| |] eqn:E; [|split; [discriminate|intros (v & H & _); discriminate]..].
    destruct (floatEqual_total v expected _ _ A R) as (b & B). rewrite B. destruct b.
    - split; [discriminate|]. intros (w & H & F). inv H. congruence.
    - split; [intro H; inv H; eauto|]. intros (w & H & F). inv H. reflexivity.
  Qed.
  Lemma expectReal_equal : forall expected s rest v,
    readReal st parseReal s = Ret v rest ->
    floatEqual v expected (floatAbsTol st) (floatRelTol st) = Ok true ->
    expectReal st parseReal expected s = Exit (onFail st).
  Proof. intros expected s rest v E F. unfold expectReal, rbind, rlift. rewrite E, F. reflexivity. Qed.
End Reals.

Lemma floatEqual_refl : forall x a r, goodTol a -> goodTol r -> floatEqual x x a r = Ok true.
Proof.
  intros x a r A R. unfold floatEqual, goodTol in *. rewrite A, R. cbn [judgeAssert bind].
  destruct x as [s|s| |s m e]; cbn [isfinite isnan isinf signbit andb].
  - replace (SFabs (rsub (S754_zero s) (S754_zero s))) with rzero by (destruct s; reflexivity). rewrite A. reflexivity.
  - destruct s; reflexivity.
  - reflexivity.
  - replace (SFabs (rsub (S754_finite s m e) (S754_finite s m e))) with rzero; [rewrite A; reflexivity|].
    unfold rsub, SFsub. rewrite Z.sub_diag. reflexivity.
Qed.

Lemma floatEqual_throws : forall g e a r, floatEqual g e a r = Throw <-> ~ (goodTol a /\ goodTol r).
Proof.
  intros. unfold floatEqual, goodTol. destruct (SFleb rzero a), (SFleb rzero r); cbn [judgeAssert bind];
    (split; [|try (intros; exfalso; tauto); try reflexivity]); try (intros _ [? ?]; discriminate).
  destruct (isfinite g && isfinite e); [discriminate|]. destruct (isnan g && isnan e); [discriminate|].
  destruct (isinf g && isinf e); discriminate.
Qed.

Lemma floatEqual_classes : forall g e a r, goodTol a -> goodTol r -> isfinite g && isfinite e = false ->
  (floatEqual g e a r = Ok true <->
   (g = S754_nan /\ e = S754_nan) \/ (exists s, g = S754_infinity s /\ e = S754_infinity s)).
Proof.
  intros g e a r A R F. unfold floatEqual, goodTol in *. rewrite A, R. cbn [judgeAssert bind]. rewrite F.
  destruct g as [s|s| |s m x], e as [s'|s'| |s' m' x']; simpl in *; try discriminate F;
    split; intro H; try discriminate H; auto;
    try (destruct H as [[H1 H2]|(q & H1 & H2)]; try discriminate H1; try discriminate H2).
  - right. exists s. split; auto. destruct s, s'; simpl in H; congruence.
  - inv H1. inv H2. destruct q; reflexivity.
Qed.

(* order on the values that occur as tolerances *)
Lemma SFleb_trans : forall x y z, SFleb x y = true -> SFleb y z = true -> SFleb x z = true.
Proof.
  intros x y z. unfold SFleb.
  destruct x as [s|[]| |[] m e], y as [s'|[]| |[] m' e'], z as [s''|[]| |[] m'' e'']; simpl; try discriminate; auto;
   repeat match goal with |- context [(?a ?= ?b)%Z] => destruct (Z.compare_spec a b) end; subst; try lia; auto; try discriminate;
   repeat match goal with |- context [Pos.compare_cont Eq ?a ?b] => change (Pos.compare_cont Eq a b) with (Pos.compare a b); destruct (Pos.compare_spec a b) end;
   subst; simpl; auto; try discriminate; try lia; exfalso; lia.
Qed.
Lemma floatEqual_mono : forall g e a r a' r', SFleb a a' = true -> SFleb r r' = true ->
  floatEqual g e a r = Ok true -> floatEqual g e a' r' = Ok true.
Proof.
  intros g e a r a' r' A R H. unfold floatEqual in *.
  destruct (SFleb rzero a) eqn:GA; [|discriminate]. destruct (SFleb rzero r) eqn:GR; [|discriminate].
  rewrite (SFleb_trans _ _ _ GA A), (SFleb_trans _ _ _ GR R). cbn [judgeAssert bind] in *.
  destruct (isfinite g && isfinite e); [|exact H]. inversion H as [H1]. apply orb_true_iff in H1 as [H1|H1].
  - rewrite (SFleb_trans _ _ _ H1 A), H1. reflexivity.
  - rewrite (SFleb_trans _ _ _ H1 R), H1, !orb_true_r. reflexivity.
Qed.
