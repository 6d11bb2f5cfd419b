(* Reading numbers from streams. *)
From Coq Require Import String.
From Verif Require Import Base Tac FloatModel FloatSpec RealSpec SeqModel InputSpec InitSpec DecimalSpec DecimalModel DecimalProofs2 VisModel VisSpec.
From Coq Require Import ZArith QArith Qabs List Lia Bool SpecFloat.
Import ListNotations.
Open Scope Z_scope.
Open Scope list_scope.

Lemma isSpace_white : forall c, isSpace c = true <-> whitespace c.
Proof. intros c. unfold isSpace, whitespace. rewrite orb_true_iff, andb_true_iff, Z.eqb_eq, !Z.leb_le. lia. Qed.
Lemma isSpace_no : forall c, ~ whitespace c -> isSpace c = false.
Proof. intros c H. destruct (isSpace c) eqn:E; auto. apply isSpace_white in E. contradiction. Qed.
Lemma skip_white : forall ws r, Forall whitespace ws -> skipSpace (ws ++ r) = skipSpace r.
Proof. induction 1 as [|c ws H F IH]; auto. cbn [app skipSpace]. rewrite (proj2 (isSpace_white c) H). exact IH. Qed.
Lemma skip_token : forall t r, token t -> skipSpace (t ++ r) = t ++ r.
Proof. intros t r (N & F). destruct t as [|c t]; [congruence|]. inv F. cbn [app skipSpace]. rewrite isSpace_no; auto. Qed.
Lemma ends_noDigit : forall r, endsToken r -> noDigit r.
Proof. intros [|c r] H; cbn in *; auto. unfold whitespace in H. unfold isDigit. lia. Qed.
Lemma digits_noSign : forall ds r, Forall digit ds -> ds <> [] -> noSign (showDigits ds ++ r).
Proof. intros [|d ds] r F N; [congruence|]. inv F. cbn [showDigits map app noSign]. unfold digit in *. lia. Qed.
Lemma canonical_digits : forall ds, canonicalDigits ds -> Forall digit ds /\ ds <> [].
Proof. intros ds H. unfold canonicalDigits in H. destruct H as (A & [->|(d & ds' & -> & _)]); split; auto; discriminate. Qed.
Lemma extract_int : forall s t ts v, wordsOf s (t :: ts) -> decimalOf t v -> - 2 ^ 63 <= v < 2 ^ 63 ->
  exists r, extractInt (Some s) = (Some v, Some r) /\ wordsOf r ts.
Proof.
  intros s t ts v W D B. inversion W as [|ws t' s' ts' WS T E R]; subst. exists s'. split; auto. cbn [extractInt]. rewrite skip_white, skip_token by auto.
  destruct T as (NN & _). destruct (t ++ s') as [|c0 x0] eqn:EX; [destruct t; [congruence|discriminate]|]. rewrite <- EX. clear EX.
  destruct D as (ds & C & H). apply canonical_digits in C as (F & N).
  assert (TS : takeSign (t ++ s') = (negative t, showDigits ds ++ s')).
  { destruct H as [(-> & _)|(-> & _)].
    - pose proof (sign_show [] (showDigits ds ++ s') (or_introl eq_refl) (digits_noSign _ _ F N)) as X. cbn [app negative] in X. rewrite X. destruct ds as [|d ds]; [congruence|]. inv F. cbn [showDigits map negative]. unfold digit in *. replace (48 + d =? 45) with false by lia. reflexivity.
    - pose proof (sign_show [45] (showDigits ds ++ s') (or_intror (or_intror eq_refl)) (digits_noSign _ _ F N)) as X. exact X. }
  rewrite TS, (span_show ds s' F (ends_noDigit _ E)). destruct ds as [|d ds]; [congruence|].
  assert (V : (if negative t then - value (d :: ds) else value (d :: ds)) = v).
  { destruct H as [(-> & ->)|(-> & -> & _)]; auto. cbn [showDigits map negative]. inv F. unfold digit in *. replace (48 + d =? 45) with false by lia. reflexivity. }
  rewrite V. unfold minInt, maxInt. destruct (Z.ltb_spec v (- 2 ^ 63)); [lia|]. destruct (Z.ltb_spec (2 ^ 63 - 1) v); [lia|]. reflexivity.
Qed.

Definition cons' (t : list Z) (p : list Z * list Z) : list Z * list Z := (t ++ fst p, snd p).
Lemma span_one : forall d digits dot sci r, digit d -> spanReal digits dot sci ((48 + d) :: r) = cons' [48 + d] (spanReal true dot sci r).
Proof. intros d digits dot sci r D. cbn [spanReal]. replace (isDigit (48 + d)) with true by (unfold isDigit; unfold digit in D; lia). destruct (spanReal true dot sci r). reflexivity. Qed.
Lemma span_true : forall ds dot sci r, Forall digit ds -> spanReal true dot sci (showDigits ds ++ r) = cons' (showDigits ds) (spanReal true dot sci r).
Proof.
  induction ds as [|d ds IH]; intros dot sci r F.
  - unfold cons'. cbn [showDigits map app]. destruct (spanReal true dot sci r). reflexivity.
  - inv F. change (showDigits (d :: ds) ++ r) with ((48 + d) :: (showDigits ds ++ r)). rewrite span_one, IH by auto. reflexivity.
Qed.
Lemma span_digits : forall ds digits dot sci r, Forall digit ds -> ds <> [] -> spanReal digits dot sci (showDigits ds ++ r) = cons' (showDigits ds) (spanReal true dot sci r).
Proof.
  intros [|d ds] digits dot sci r F N; [congruence|]. inv F. change (showDigits (d :: ds) ++ r) with ((48 + d) :: (showDigits ds ++ r)). rewrite span_one, span_true by auto. reflexivity.
Qed.
Lemma span_end : forall digits dot sci r, endsToken r -> spanReal digits dot sci r = ([], r).
Proof.
  intros digits dot sci [|c r] E; [reflexivity|]. cbn in E. unfold whitespace in E. cbn [spanReal]. replace (isDigit c) with false by (unfold isDigit; lia). replace (c =? 46) with false by lia.
  replace (c =? 101) with false by lia. replace (c =? 69) with false by lia. reflexivity.
Qed.
Lemma span_exponent : forall ex x dot r, exponentIs ex x -> endsToken r -> spanReal true dot false (ex ++ r) = (ex, r).
Proof.
  intros ex x dot r [(-> & _)|(e & sg & ds & He & O & F & N & -> & _)] E; [apply span_end; auto|].
  cbn [app]. rewrite <- app_assoc. cbn [spanReal]. replace (isDigit e) with false by (unfold isDigit; lia). replace (e =? 46) with false by lia.
  replace ((e =? 101) || (e =? 69)) with true by lia. cbn [andb negb]. destruct O as [->|[->| ->]]; cbn [app].
  - destruct ds as [|d ds]; [congruence|]. inversion F; subst. cbn [showDigits map app]. unfold digit in *. replace ((48 + d =? 43) || (48 + d =? 45)) with false by lia.
    change ((48 + d) :: map (fun d => 48 + d) ds ++ r) with (showDigits (d :: ds) ++ r). rewrite span_digits, span_end by auto. unfold cons'. cbn [fst snd]. rewrite app_nil_r. reflexivity.
  - cbn [orb Z.eqb Pos.eqb]. rewrite span_digits, span_end by auto. unfold cons'. cbn [fst snd]. rewrite app_nil_r. reflexivity.
  - cbn [orb Z.eqb Pos.eqb]. rewrite span_digits, span_end by auto. unfold cons'. cbn [fst snd]. rewrite app_nil_r. reflexivity.
Qed.
Lemma span_dot : forall digits r, spanReal digits false false (46 :: r) = cons' [46] (spanReal digits true false r).
Proof. intros. cbn [spanReal]. destruct (spanReal digits true false r). reflexivity. Qed.
Lemma span_body : forall ip fp (dot : bool) ex x r, Forall digit ip -> Forall digit fp -> exponentIs ex x -> (ip <> [] \/ fp <> []) -> (dot = false -> fp = []) -> endsToken r ->
  spanReal false false false ((showDigits ip ++ (if dot then [46] else []) ++ showDigits fp ++ ex) ++ r) = (showDigits ip ++ (if dot then [46] else []) ++ showDigits fp ++ ex, r).
Proof.
  intros ip fp dot ex x r FI FF X N D E. rewrite <- !app_assoc. destruct dot.
  - destruct ip as [|d ip].
    + cbn [showDigits map app]. rewrite span_dot. destruct N as [N|N]; [congruence|]. change (map (fun d => 48 + d) fp) with (showDigits fp). rewrite span_digits, (span_exponent _ _ _ _ X E) by auto. reflexivity.
    + rewrite span_digits by (auto; discriminate). cbn [app]. rewrite span_dot, span_true, (span_exponent _ _ _ _ X E) by auto. reflexivity.
  - rewrite (D eq_refl) in *. destruct N as [N|N]; [|congruence]. cbn [showDigits map app]. change (map (fun d => 48 + d) ip) with (showDigits ip). rewrite span_digits, (span_exponent _ _ _ _ X E) by auto. reflexivity.
Qed.
Lemma extract_real : forall convert s t ts q, strtold convert -> wordsOf s (t :: ts) -> decimalValue t q -> inRange q ->
  exists v r, extractReal convert (Some s) = (Some v, Some r) /\ nearest q v /\ wordsOf r ts.
Proof.
  intros convert s t ts q C W D B. inversion W as [|ws t' s' ts' WS T E R]; subst. destruct (C t q D B) as (v & CV & NV). exists v, s'. split; [|auto].
  cbn [extractReal]. rewrite skip_white, skip_token by auto.
  destruct D as (sg & ip & fp & dot & ex & x & O & FI & FF & X & N & DF & -> & _). pose proof (span_body ip fp dot ex x s' FI FF X N DF E) as SB.
  set (body := showDigits ip ++ (if dot then [46] else []) ++ showDigits fp ++ ex) in *.
  assert (HB : exists c b, body = c :: b /\ c <> 43 /\ c <> 45).
  { unfold body. destruct ip as [|d ip].
    - destruct dot; [exists 46, (showDigits fp ++ ex); split; [reflexivity|lia]|]. exfalso. destruct N; [congruence|]. auto.
    - inv FI. exists (48 + d), (showDigits ip ++ (if dot then [46] else []) ++ showDigits fp ++ ex). split; [reflexivity|]. unfold digit in *. lia. }
  destruct HB as (c & b & EB & NB). destruct O as [->|[->| ->]]; cbn [app].
  - rewrite EB in *. cbn [app] in *. replace ((c =? 43) || (c =? 45)) with false by lia. rewrite SB. rewrite CV. reflexivity.
  - cbn [orb Z.eqb Pos.eqb]. rewrite SB. cbn [app] in CV. rewrite CV. reflexivity.
  - cbn [orb Z.eqb Pos.eqb]. rewrite SB. cbn [app] in CV. rewrite CV. reflexivity.
Qed.
