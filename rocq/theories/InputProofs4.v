(* Expected tokens and the claims about whole files. *)
From Verif Require Import Base Tac SeqModel SeqSpec SeqProofs RegexModel FloatModel InputModel InputSpec InputClient RegexProofs InputProofs InputProofs2 InputProofs3.

Lemma stringEqualFrom_iff : forall a b cs i,
  fst (stringEqualFrom a b cs i) = true <-> folded cs a = folded cs b.
Proof.
  assert (G : forall a b cs i, fst (stringEqualFrom a b cs i) = true <->
     map (fun c => if cs : bool then c else lowerCase c) a = map (fun c => if cs then c else lowerCase c) b).
  { induction a as [|x a IH]; intros [|y b] cs i; cbn [stringEqualFrom map]; try (split; [discriminate|intro H; discriminate]).
    - split; auto.
    - change (toDefaultCase x) with (lowerCase x). change (toDefaultCase y) with (lowerCase y). cbv zeta.
      destruct ((if cs then x else lowerCase x) =? (if cs then y else lowerCase y)) eqn:E; simpl.
      + rewrite IH. apply Z.eqb_eq in E. split; [intros ->; rewrite E; auto|intro H; inversion H; auto].
      + split; [discriminate|]. intro H. inversion H. apply Z.eqb_neq in E. congruence. }
  intros. rewrite G. unfold folded. destruct cs; [rewrite !map_id; tauto|tauto].
Qed.
Lemma lower_idem : forall c, lowerCase (lowerCase c) = lowerCase c.
Proof.
  intro c. unfold lowerCase. destruct ((65 <=? c) && (c <=? 90)) eqn:E; [|rewrite E; auto].
  replace ((65 <=? c + 32) && (c + 32 <=? 90)) with false by lia. reflexivity.
Qed.
Lemma folded_idem : forall cs t, folded cs (folded cs t) = folded cs t.
Proof. intros [] t; simpl; auto. rewrite map_map. apply map_ext. exact lower_idem. Qed.

Lemma isToken_iff : forall t, isToken t = true <-> token t.
Proof.
  intro t. unfold isToken, token. destruct t as [|c t]; [split; [discriminate|intros [H _]; congruence]|].
  rewrite forallb_forall, Forall_forall. split.
  - intro H. split; [discriminate|]. intros x I. apply isSpace_false. specialize (H x I). destruct (isSpace x); auto; discriminate.
  - intros [_ H] x I. specialize (H x I). apply isSpace_false in H. rewrite H. reflexivity.
Qed.

Lemma expectString_spec : forall st e s rest, token e ->
  (expectString st e s = Ret tt rest <->
   exists raw, nextToken (spaceSensitive st) s raw rest /\ folded (caseSensitive st) raw = folded (caseSensitive st) e).
Proof.
  intros st e s rest T. apply isToken_iff in T. unfold expectString. rewrite T. cbn [negb]. unfold rbind, stringEqual. split.
  - destruct (string st s) as [u r| |] eqn:E; [|discriminate..]. apply string_spec in E as (raw & N & ->).
    destruct (fst (stringEqualFrom (folded (caseSensitive st) raw) e (caseSensitive st) 0)) eqn:Q; [|discriminate].
    unfold rret. intro H. inv H. apply stringEqualFrom_iff in Q. rewrite folded_idem in Q. eauto.
  - intros (raw & N & F). rewrite (proj2 (string_spec st s (folded (caseSensitive st) raw) rest)) by eauto.
    rewrite (proj2 (stringEqualFrom_iff _ e (caseSensitive st) 0)); [reflexivity|]. rewrite folded_idem. auto.
Qed.
Lemma expectString_raises : forall st e s, expectString st e s = Raise <-> ~ token e.
Proof.
  intros. rewrite <- isToken_iff. unfold expectString. destruct (isToken e); cbn [negb].
  - split; [|intro H; exfalso; apply H; auto]. unfold rbind. destruct (string_else st s) as [(t & r & ->)| ->]; [|discriminate].
    destruct (negb (fst (stringEqual t e (caseSensitive st)))); discriminate.
  - split; [intros _ H; discriminate|auto].
Qed.
Lemma expectInt_spec : forall st e s rest,
  expectInt st e s = Ret tt rest <->
  exists t, nextToken (spaceSensitive st) s t rest /\ decimalOf t e /\ is_i64 e.
Proof.
  intros. unfold expectInt, rbind. split.
  - destruct (integer st s) as [w r| |] eqn:E; [|discriminate..]. destruct (w =? e) eqn:Q; [|discriminate].
    unfold rret. intro H. inv H. apply Z.eqb_eq in Q. subst w. apply integer_spec in E. auto.
  - intro H. rewrite (proj2 (integer_spec st s e rest) H). rewrite Z.eqb_refl. reflexivity.
Qed.
Lemma safe_expectInt : forall st e, safe st (expectInt st e).
Proof.
  intros. apply safe_bind; [apply safe_integer|]. intro v. destruct (negb (v =? e)); auto using safe_fail, safe_ret.
Qed.

(* ---- whole files ---- *)
Lemma F2_and : forall A B (P : A -> B -> Prop) (Q : B -> Prop) l m,
  Forall2 (fun a b => P a b /\ Q b) l m <-> Forall2 P l m /\ Forall Q m.
Proof.
  split.
  - induction 1 as [|a b l m [H1 H2] _ [IH1 IH2]]; split; constructor; auto.
  - intros [H F]. induction H; constructor; inv F; auto.
Qed.

Lemma integerFile_spec : forall st lower upper count sep file vs,
  spaceSensitive st = true -> 0 <= count -> sep = 32 \/ sep = 10 ->
  (integerFile st lower upper count sep file = Ret vs [] <->
   alen vs = count /\ Forall (fun v => is_i64 v /\ lower <= v < upper) vs /\
   exists ts, Forall2 decimalOf ts vs /\ file = joined sep ts ++ [10]).
Proof.
  intros st lower upper count sep file vs SS C Hs. unfold integerFile, integersIn.
  rewrite (lines_strict st SS Z (integerIn st lower upper) (fun t v => decimalOf t v /\ (is_i64 v /\ lower <= v < upper))); auto.
  - split.
    + intros (ts & L & F & _ & E). apply F2_and in F as [F G]. eauto.
    + intros (L & G & ts & F & E). exists ts. split; auto. split; [apply F2_and; auto|]. split; auto.
      clear -F. induction F; constructor; auto. eapply decimal_plain; eauto.
  - intros. rewrite integerIn_spec, SS. split; intros (t & N & D); exists t; tauto.
Qed.
Lemma integerWords_spec : forall st lower upper count sep file vs,
  spaceSensitive st = false -> 0 <= count -> sep = 32 \/ sep = 10 ->
  (integerWords st lower upper count sep file = Ret vs [] <->
   alen vs = count /\ Forall (fun v => is_i64 v /\ lower <= v < upper) vs /\
   exists ts, Forall2 decimalOf ts vs /\ wordsOf file ts).
Proof.
  intros st lower upper count sep file vs SS C Hs. unfold integerWords, integersIn.
  rewrite (words_loose st SS Z (integerIn st lower upper) (fun t v => decimalOf t v /\ (is_i64 v /\ lower <= v < upper))); auto.
  - split.
    + intros (ts & L & F & E). apply F2_and in F as [F G]. eauto.
    + intros (L & G & ts & F & E). exists ts. split; auto. split; [apply F2_and; auto|]. auto.
  - intros. rewrite integerIn_spec, SS. split; intros (t & N & D); exists t; tauto.
Qed.
Lemma F2_map : forall A B (f : A -> B) l m, Forall2 (fun a b => b = f a) l m <-> m = map f l.
Proof.
  split.
  - induction 1; simpl; congruence.
  - intros ->. induction l; simpl; constructor; auto.
Qed.
Lemma stringFile_spec : forall st count sep file vs,
  spaceSensitive st = true -> 0 <= count -> sep = 32 \/ sep = 10 ->
  (stringFile st count sep file = Ret vs [] <->
   exists ts, alen ts = count /\ Forall plainToken ts /\ vs = map (folded (caseSensitive st)) ts /\
     file = joined sep ts ++ [10]).
Proof.
  intros st count sep file vs SS C Hs. unfold stringFile, strings.
  rewrite (lines_strict st SS (list Z) (string st) (fun t v => v = folded (caseSensitive st) t)); auto.
  - split.
    + intros (ts & L & F & G & E). apply F2_map in F. exists ts. split; auto. unfold alen in *. rewrite F, map_length in L. auto.
    + intros (ts & L & G & V & E). exists ts. split; [unfold alen in *; rewrite V, map_length; auto|]. split; [apply F2_map; auto|]. auto.
  - intros. rewrite string_spec, SS. tauto.
Qed.
Lemma stringWords_spec : forall st count sep file vs,
  spaceSensitive st = false -> 0 <= count -> sep = 32 \/ sep = 10 ->
  (stringWords st count sep file = Ret vs [] <->
   exists ts, alen ts = count /\ vs = map (folded (caseSensitive st)) ts /\ wordsOf file ts).
Proof.
  intros st count sep file vs SS C Hs. unfold stringWords, strings.
  rewrite (words_loose st SS (list Z) (string st) (fun t v => v = folded (caseSensitive st) t)); auto.
  - split.
    + intros (ts & L & F & E). apply F2_map in F. exists ts. split; auto. unfold alen in *. rewrite F, map_length in L. auto.
    + intros (ts & L & V & E). exists ts. split; [unfold alen in *; rewrite V, map_length; auto|]. split; [apply F2_map; auto|]. auto.
  - intros. rewrite string_spec, SS. tauto.
Qed.

(* any other file ends the program with onFail *)
Lemma rest_strict : forall A st (m : rd A) s x r,
  (read! l := m in read! _ := eof st in rret l) s = Ret x r -> r = [].
Proof.
  intros A st m s x r. unfold rbind. destruct (m s) as [l s'| |]; [|discriminate..].
  unfold eof, rbind, skip. destruct (if spaceSensitive st then s' else skipWs s'); [|discriminate].
  unfold rret. intro H. inv H. reflexivity.
Qed.
Lemma rest_strict2 : forall A st (m : rd A) s x r,
  (read! l := m in read! _ := newline st in read! _ := eof st in rret l) s = Ret x r -> r = [].
Proof.
  intros A st m s x r. unfold rbind at 1. destruct (m s) as [l s'| |]; [|discriminate..].
  unfold rbind at 1. destruct (newline st s') as [u s''| |]; [|discriminate..].
  unfold eof, rbind, skip. destruct (if spaceSensitive st then s'' else skipWs s''); [|discriminate].
  unfold rret. intro H. inv H. reflexivity.
Qed.
Lemma integerFile_else : forall st lower upper count sep file, 0 <= count -> sep = 32 \/ sep = 10 ->
  (exists vs, integerFile st lower upper count sep file = Ret vs []) \/
  integerFile st lower upper count sep file = Exit (onFail st).
Proof.
  intros st lower upper count sep file C Hs.
  assert (S0 : safe st (integerFile st lower upper count sep)).
  { apply safe_bind; [apply safe_many; auto using safe_integerIn|]. intro l. apply safe_bind; [apply safe_newline|].
    intros _. apply safe_bind; [apply safe_eof|]. intros _. apply safe_ret. }
  destruct (S0 file) as [(a & r & E)|E]; [left|auto]. pose proof (rest_strict2 _ _ _ _ _ _ E). subst. eauto.
Qed.
Lemma integerWords_else : forall st lower upper count sep file, 0 <= count -> sep = 32 \/ sep = 10 ->
  (exists vs, integerWords st lower upper count sep file = Ret vs []) \/
  integerWords st lower upper count sep file = Exit (onFail st).
Proof.
  intros st lower upper count sep file C Hs.
  assert (S0 : safe st (integerWords st lower upper count sep)).
  { apply safe_bind; [apply safe_many; auto using safe_integerIn|]. intro l. apply safe_bind; [apply safe_eof|]. intros _. apply safe_ret. }
  destruct (S0 file) as [(a & r & E)|E]; [left|auto]. pose proof (rest_strict _ _ _ _ _ _ E). subst. eauto.
Qed.
Lemma stringFile_else : forall st count sep file, 0 <= count -> sep = 32 \/ sep = 10 ->
  (exists vs, stringFile st count sep file = Ret vs []) \/
  stringFile st count sep file = Exit (onFail st).
Proof.
  intros st count sep file C Hs.
  assert (S0 : safe st (stringFile st count sep)).
  { apply safe_bind; [apply safe_many; auto using safe_string|]. intro l. apply safe_bind; [apply safe_newline|].
    intros _. apply safe_bind; [apply safe_eof|]. intros _. apply safe_ret. }
  destruct (S0 file) as [(a & r & E)|E]; [left|auto]. pose proof (rest_strict2 _ _ _ _ _ _ E). subst. eauto.
Qed.
Lemma stringWords_else : forall st count sep file, 0 <= count -> sep = 32 \/ sep = 10 ->
  (exists vs, stringWords st count sep file = Ret vs []) \/
  stringWords st count sep file = Exit (onFail st).
Proof.
  intros st count sep file C Hs.
  assert (S0 : safe st (stringWords st count sep)).
  { apply safe_bind; [apply safe_many; auto using safe_string|]. intro l. apply safe_bind; [apply safe_eof|]. intros _. apply safe_ret. }
  destruct (S0 file) as [(a & r & E)|E]; [left|auto]. pose proof (rest_strict _ _ _ _ _ _ E). subst. eauto.
Qed.

(* ---- witnesses ---- *)
Lemma realStrict_refuted : exists (st : cfg) parseReal lower upper v file,
  realStrict st parseReal lower upper 0 1 file = Ret v [] /\
  file = showDigits [0; 1] /\ ~ canonicalDigits [0; 1].
Proof.
  exists exCfg, exParse, rzero, exTwo, exOne, [48; 49].
  split; [vm_compute; reflexivity|]. split; [reflexivity|].
  intros [_ [H|(d & ds & H & D)]]; [discriminate|]. inversion H. congruence.
Qed.
Lemma expectReal_refuted : exists (st : cfg) parseReal expected file,
  readReal st parseReal file = Ret expected [] /\
  floatEqual expected expected (floatAbsTol st) (floatRelTol st) = Ok true /\
  expectReal st parseReal expected file = Exit (onFail st) /\
  exists other v, readReal st parseReal other = Ret v [] /\
    floatEqual v expected (floatAbsTol st) (floatRelTol st) = Ok false /\
    expectReal st parseReal expected other = Ret tt [].
Proof.
  exists exCfg, exParse, exOne, [49]. split; [vm_compute; reflexivity|]. split; [vm_compute; reflexivity|].
  split; [vm_compute; reflexivity|]. exists [50], exTwo. split; [vm_compute; reflexivity|]. split; vm_compute; reflexivity.
Qed.
