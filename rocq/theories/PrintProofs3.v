From Verif Require Import Base Tac FloatModel FloatSpec RealSpec SeqModel PassModel RegexModel InputSpec InputModel InputProofs InputProofs2 InputProofs3 InputProofs4 InputClient OutModel OutProofs FloatProofs FloatEqProofs InitModel DecimalSpec DecimalModel DecimalProofs DecimalProofs2 DecimalProofs3 PrintModel PrintSpec PrintProofs PrintProofs2.
From Coq Require Import QArith Qabs ZArith Lia Lqa SpecFloat.
Open Scope Z_scope.

Lemma read_exact : forall st parse p x j s rest, fromChars parse -> 0 <= p <= 4000 -> number x -> (val x == units p j)%Q -> nextToken (spaceSensitive st) s (showFixed p x) rest ->
  exists v, readReal st parse s = Ret v rest /\ number v /\ (val v == val x)%Q.
Proof.
  intros st parse p x j s rest FC P NX E NT. destruct (read_back st parse p x s rest FC P NX NT) as (v & k & R & NU & NV & _). exists v. split; auto. split; [apply NV|].
  apply nearest_number; auto. apply (nearest_ext (units p k)); auto. destruct (NU j) as (A & _). rewrite E in A |- *.
  setoid_replace (units p j - units p j)%Q with 0%Q in A by ring. rewrite (Qabs_pos 0) in A by lra. apply Qabs_Qle_condition in A. lra.
Qed.
Lemma fixed_plain : forall p x, 0 <= p -> number x -> plainToken (showFixed p x).
Proof.
  intros p x P N. destruct (show_fixed p x P N) as (k & S & _ & _). apply numeric_plain; [|eapply strict_numeric; eauto].
  destruct S as (neg & ip & F & NE & [(E & _)|(fp & _ & _ & E & _)]); rewrite E; destruct neg, ip; try discriminate; contradiction.
Qed.

Section Item.
  Variable st : cfg.
  Hypothesis SS : spaceSensitive st = true.
  Variable parse : list Z -> option real.
  Variables lower upper : real.
  Definition inBounds (res : real) : rd real :=
    read! el := rlift (floatEqual res lower (floatAbsTol st) (floatRelTol st)) in
    if el : bool then rret res else
    read! eu := rlift (floatEqual res upper (floatAbsTol st) (floatRelTol st)) in
    if eu : bool then rret res else
    if isnan res || negb (SFleb lower res) || negb (SFltb res upper) then fail st else rret res.
  Lemma inBounds_ret : forall res s v r, inBounds res s = Ret v r <-> (v = res /\ r = s /\ inBounds res [] = Ret res []).
  Proof.
    intros res s v r. unfold inBounds, rbind, rlift, fail. destruct (floatEqual res lower _ _) as [[|]| | |]; try solve [unfold rret; split; [intro H; inv H; auto|intros (-> & -> & _); auto]]; try solve [split; [discriminate|intros (_ & _ & H); discriminate]].
    destruct (floatEqual res upper _ _) as [[|]| | |]; try solve [unfold rret; split; [intro H; inv H; auto|intros (-> & -> & _); auto]]; try solve [split; [discriminate|intros (_ & _ & H); discriminate]].
    destruct (isnan res || negb (SFleb lower res) || negb (SFltb res upper)); [split; [intro H; cbv in H; discriminate|intros (_ & _ & H); cbv in H; discriminate]|]. unfold rret; split; [intro H; inv H; auto|intros (-> & -> & _); auto].
  Qed.
  Definition reads (t : list Z) (v : real) : Prop := realToken (folded (caseSensitive st) t) /\ parse (folded (caseSensitive st) t) = Some v /\ inBounds v [] = Ret v [].
  Lemma item_spec : forall s v rest, realIn st parse lower upper s = Ret v rest <-> exists t, nextToken true s t rest /\ reads t v.
  Proof.
    intros s v rest. change (realIn st parse lower upper) with (rbind (readReal st parse) inBounds). unfold rbind. split.
    - destruct (readReal st parse s) as [w r| |] eqn:R; [|discriminate..]. intro H. apply inBounds_ret in H as (-> & -> & H). apply readReal_spec in R as (t & NT & T & P). rewrite SS in NT. exists t. unfold reads. auto.
    - intros (t & NT & T & P & H). assert (R : readReal st parse s = Ret v rest). { apply readReal_spec. exists t. rewrite SS. auto. } rewrite R. apply inBounds_ret. auto.
  Qed.
End Item.

Lemma joined_texts : forall xs sep, sep <> 0 -> join (map (fun x => IText (putReal x)) xs) sep = joined sep (map putReal xs).
Proof. intros xs sep N. rewrite join_joined by auto. rewrite map_map. reflexivity. Qed.
Lemma file_back : forall st parse lower upper sep xs, fromChars parse -> spaceSensitive st = true -> sep = 32 \/ sep = 10 -> number lower -> number upper ->
  SFleb DEFAULT_EPS (floatAbsTol st) = true -> SFleb DEFAULT_EPS (floatRelTol st) = true ->
  Forall (fun x => number x /\ (val lower <= val x <= val upper)%Q) xs ->
  exists vs, realFile st parse lower upper (alen xs) sep (join (map (fun x => IText (putReal x)) xs) sep ++ [10]) = Ret vs [] /\
    Forall2 (fun v x => number v /\ (Qabs (val v - val x) <= 1 # 1000000)%Q) vs xs.
Proof.
  intros st parse lower upper sep xs FC SS Hs NL NU TA TR F. rewrite joined_texts by (destruct Hs; lia).
  assert (G : exists vs, Forall2 (reads st parse lower upper) (map putReal xs) vs /\ Forall2 (fun v x => number v /\ (Qabs (val v - val x) <= 1 # 1000000)%Q) vs xs).
  { induction xs as [|x xs IH]; [exists []; split; constructor|]. inv F. destruct (IH H2) as (vs & F1 & F2). destruct H1 as (NX & B).
    destruct (realIn_back st parse lower upper x (putReal x ++ [10]) [10] FC NL NU NX TA TR B) as (v & R & NV & D).
    - rewrite SS. apply nextToken_true. split; auto. split; [apply fixed_plain; auto; unfold DEFAULT_PRECISION; lia|]. cbn. unfold whitespace. lia.
    - apply item_spec in R as (t & NT & RD); auto. apply nextToken_true in NT as (E & _ & _). apply app_inv_tail in E. subst t. exists (v :: vs). split; constructor; auto. }
  destruct G as (vs & F1 & F2). exists vs. split; auto. unfold realFile.
  apply (lines_strict st SS real (realIn st parse lower upper) (reads st parse lower upper)); auto.
  - intros. apply item_spec. auto.
  - unfold alen. lia.
  - exists (map putReal xs). split; [unfold alen; f_equal; clear - F2; induction F2; cbn; auto|]. split; auto. split; auto.
    apply Forall_map. eapply Forall_impl; [|exact F]. intros x (NX & _). apply fixed_plain; auto. unfold DEFAULT_PRECISION. lia.
Qed.

Lemma special_text : forall st parse p x s rest, isfinite x = false -> s = showFixed p x ++ rest -> endsToken rest -> readReal st parse s = Exit (onFail st).
Proof.
  intros st parse p x s rest F -> E. destruct (safe_readReal st parse (showFixed p x ++ rest)) as [(v & r & R)|R]; [|auto]. exfalso.
  apply readReal_spec in R as (raw & NT & RT & _).
  assert (T : showFixed p x = [105; 110; 102] \/ showFixed p x = [45; 105; 110; 102] \/ showFixed p x = [110; 97; 110]). { destruct x as [s|[|]| |s m e]; try discriminate; cbn; auto. }
  assert (NT' : nextToken (spaceSensitive st) (showFixed p x ++ rest) (showFixed p x) rest).
  { exists []. split; auto. split; [constructor|]. assert (PT : plainToken (showFixed p x)).
    { destruct T as [->|[->| ->]]; (split; [split; [discriminate|repeat constructor; unfold whitespace; lia]|unfold graphic; lia]). }
    split; [apply PT|]. split; auto. }
  assert (S1 : string st (showFixed p x ++ rest) = Ret (folded (caseSensitive st) raw) r) by (apply string_spec; eauto).
  assert (S2 : string st (showFixed p x ++ rest) = Ret (folded (caseSensitive st) (showFixed p x)) rest) by (apply string_spec; eauto).
  rewrite S2 in S1. inv S1. rewrite <- H0 in RT. apply (real_regex parse) in RT.
  destruct T as [T|[T|T]], (caseSensitive st); rewrite T in RT; vm_compute in RT; discriminate.
Qed.

Lemma rounded_up : exists x st, number x /\ (val rzero <= val x < val exOne)%Q /\
  realStrict st decimalReal rzero exOne 0 7 (putReal x ++ [10]) = Exit (onFail st).
Proof.
  exists (S754_finite false 18446744073692774400 (-64)), exCfg. split; [split; reflexivity|]. split; [split; vm_compute; [discriminate|reflexivity]|]. vm_compute. reflexivity.
Qed.
Lemma lost_digits : exists x y, number x /\ number y /\ (val x < val y)%Q /\ putReal x = putReal y.
Proof.
  exists (S754_finite false 9223372036854775808 (-93)), (S754_finite false 9223372036854775808 (-92)). split; [split; reflexivity|]. split; [split; reflexivity|]. split; vm_compute; reflexivity.
Qed.
