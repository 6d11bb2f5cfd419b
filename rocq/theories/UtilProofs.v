From Coq Require Import String.
From Verif Require Import Base BaseLemmas Tac FloatModel SeqModel RegexModel InputSpec InputProofs3 InitSpec DecimalSpec DecimalProofs2 MathModel UtilModel UtilSpec.
From Coq Require Import ZArith QArith List Lia Sorted Permutation.
Import ListNotations.
Open Scope Z_scope.
Open Scope list_scope.

(* ---- alphabets ---- *)
Fixpoint increasing (s : list Z) : bool := match s with a :: (b :: _) as t => (a <? b) && increasing t | _ => true end.
Lemma increasing_sorted : forall s, increasing s = true -> StronglySorted Z.lt s.
Proof.
  intros s H. apply Sorted_StronglySorted; [intros a b c; lia|]. induction s as [|a [|b s] IH]; [constructor|constructor; constructor|].
  cbn [increasing] in H. apply andb_true_iff in H as (A & B). constructor; [apply IH; exact B|constructor; lia].
Qed.
Ltac inIff := split; [intros H; vm_compute in H; intuition lia|intros H; vm_compute; intuition lia].
Lemma range_list : forall s a b, s = map (fun k => a + Z.of_nat k) (seq 0 (Z.to_nat (b - a + 1))) -> forall c, In c s <-> a <= c <= b.
Proof.
  intros s a b -> c. split.
  - intros I. apply in_map_iff in I as (k & <- & I). apply in_seq in I. lia.
  - intros H. apply in_map_iff. exists (Z.to_nat (c - a)). split; [lia|apply in_seq; lia].
Qed.
Lemma lower_list : lists LOWER lower.
Proof. split; [apply increasing_sorted; reflexivity|]. apply range_list. reflexivity. Qed.
Lemma upper_list : lists UPPER upperCase.
Proof. split; [apply increasing_sorted; reflexivity|]. apply range_list. reflexivity. Qed.
Lemma digit_list : lists DIGITS digitChar.
Proof. split; [apply increasing_sorted; reflexivity|]. apply range_list. reflexivity. Qed.
Lemma app_lists : forall s t p q, lists s p -> lists t q -> increasing (s ++ t) = true -> lists (s ++ t) (fun c => p c \/ q c).
Proof. intros s t p q (_ & A) (_ & B) H. split; [apply increasing_sorted; auto|]. intros c. rewrite in_app_iff, A, B. tauto. Qed.
Lemma letter_list : lists LETTER (fun c => upperCase c \/ lower c).
Proof. apply (app_lists UPPER LOWER); [apply upper_list|apply lower_list|reflexivity]. Qed.
Lemma upper_num_list : lists UPPER_ALPHA_NUMERIC (fun c => digitChar c \/ upperCase c).
Proof. apply (app_lists DIGITS UPPER); [apply digit_list|apply upper_list|reflexivity]. Qed.
Lemma lower_num_list : lists LOWER_ALPHA_NUMERIC (fun c => digitChar c \/ lower c).
Proof. apply (app_lists DIGITS LOWER); [apply digit_list|apply lower_list|reflexivity]. Qed.
Lemma num_list : lists ALPHA_NUMERIC (fun c => digitChar c \/ upperCase c \/ lower c).
Proof. apply (app_lists DIGITS LETTER); [apply digit_list|apply letter_list|reflexivity]. Qed.
Lemma lower_vowel_list : lists LOWER_VOWELS lowerVowel.
Proof. split; [apply increasing_sorted; reflexivity|]. intros c. unfold lowerVowel. split; [intros H; vm_compute in H; intuition lia|intros H; vm_compute; intuition lia]. Qed.
Lemma upper_vowel_list : lists UPPER_VOWELS upperVowel.
Proof. split; [apply increasing_sorted; reflexivity|]. intros c. unfold upperVowel, lowerVowel. split; [intros H; vm_compute in H; intuition lia|intros H; change (65 = c \/ 69 = c \/ 73 = c \/ 79 = c \/ 85 = c \/ False); intuition lia]. Qed.
Lemma vowel_list : lists VOWEL (fun c => upperVowel c \/ lowerVowel c).
Proof. apply (app_lists UPPER_VOWELS LOWER_VOWELS); [apply upper_vowel_list|apply lower_vowel_list|reflexivity]. Qed.
Lemma partition_list : forall all some rest p q, lists all p -> lists some q -> increasing rest = true ->
  (forall c, In c all -> existsb (Z.eqb c) rest = negb (existsb (Z.eqb c) some)) -> (forall c, In c rest -> existsb (Z.eqb c) all = true) ->
  lists rest (fun c => p c /\ ~ q c).
Proof.
  intros all some rest p q (_ & A) (_ & B) I S R. split; [apply increasing_sorted; auto|]. intros c.
  assert (EX : forall l, existsb (Z.eqb c) l = true <-> In c l). { intros l. rewrite existsb_exists. split; [intros (x & X & E); apply Z.eqb_eq in E; subst; auto|intros H; exists c; split; auto; apply Z.eqb_refl]. }
  rewrite <- A, <- B, <- (EX some). split.
  - intros H. assert (Y : In c all) by (apply EX, R; auto). split; auto. specialize (S c Y). rewrite (proj2 (EX rest) H) in S. destruct (existsb (Z.eqb c) some); discriminate || auto.
  - intros (H & N). specialize (S c H). apply EX. rewrite S. destruct (existsb (Z.eqb c) some); auto; congruence.
Qed.
Ltac finite := intros c H; vm_compute in H; repeat (destruct H as [H|H]; [subst c; reflexivity|]); contradiction.
Lemma upper_consonant_list : lists UPPER_CONSONANT (fun c => upperCase c /\ ~ upperVowel c).
Proof. apply (partition_list UPPER UPPER_VOWELS); [apply upper_list|apply upper_vowel_list|reflexivity|finite|finite]. Qed.
Lemma lower_consonant_list : lists LOWER_CONSONANT (fun c => lower c /\ ~ lowerVowel c).
Proof. apply (partition_list LOWER LOWER_VOWELS); [apply lower_list|apply lower_vowel_list|reflexivity|finite|finite]. Qed.
Lemma consonant_list : lists CONSONANT (fun c => (upperCase c \/ lower c) /\ ~ (upperVowel c \/ lowerVowel c)).
Proof. apply (partition_list LETTER VOWEL); [apply letter_list|apply vowel_list|reflexivity|finite|finite]. Qed.

(* ---- characters ---- *)
Definition vowel (c : Z) : Prop := upperVowel c \/ lowerVowel c.
Definition letter (c : Z) : Prop := upperCase c \/ lower c.
Lemma isLower_iff : forall c, isLower c = true <-> lower c.
Proof. intros c. unfold isLower, lower, fromTo. rewrite andb_true_iff. lia. Qed.
Lemma isUpper_iff : forall c, isUpper c = true <-> upperCase c.
Proof. intros c. unfold isUpper, upperCase, fromTo. rewrite andb_true_iff. lia. Qed.
Lemma isDigit_iff : forall c, isDigit c = true <-> digitChar c.
Proof. intros c. unfold isDigit, digitChar, fromTo. rewrite andb_true_iff. lia. Qed.
Lemma isLetter_iff : forall c, isLetter c = true <-> letter c.
Proof. intros c. unfold isLetter, letter. rewrite orb_true_iff, isLower_iff, isUpper_iff. tauto. Qed.
Lemma isVowel_iff : forall c, isVowel c = true <-> vowel c.
Proof.
  intros c. unfold isVowel, vowel, upperVowel, lowerVowel, toLower. rewrite existsb_exists. split.
  - intros (x & I & E). apply Z.eqb_eq in E. vm_compute in I. destruct (isUpper c) eqn:U; [left|right]; intuition lia.
  - intros H. destruct (isUpper c) eqn:U.
    + unfold isUpper in U. apply andb_true_iff in U. exists (c + 32). split; [unfold SeqModel.LOWER_VOWELS; cbn [In]; lia|apply Z.eqb_eq; lia].
    + exists c. split; [|apply Z.eqb_eq; lia]. assert (N : ~ upperCase c) by (rewrite <- isUpper_iff; congruence). unfold upperCase, fromTo in N. destruct H as [H|H]; [lia|]. unfold SeqModel.LOWER_VOWELS. cbn [In]. lia.
Qed.
Lemma isConsonant_iff : forall c, isConsonant c = true <-> letter c /\ ~ vowel c.
Proof. intros c. unfold isConsonant. rewrite andb_true_iff, isLetter_iff, negb_true_iff, <- isVowel_iff. destruct (isVowel c); intuition congruence. Qed.
Lemma all_judged : forall p P, (forall c, p c = true <-> P c) -> forall s, judged P s (allChars p s).
Proof.
  intros p P H s. induction s as [|c s IH]; [left; split; [constructor|reflexivity]|]. cbn [allChars]. destruct (p c) eqn:E; cbn [negb].
  - apply H in E. destruct IH as [(F & ->)|(a & x & d & -> & F & N & ->)]; [left; split; auto|right; exists (c :: a), x, d; repeat split; auto].
  - right. exists [], c, s. repeat split; auto. rewrite <- H. congruence.
Qed.
Lemma isLowerText_iff : forall s, isLowerText s = true <-> Forall lower s.
Proof.
  intros s. unfold isLowerText. destruct (all_judged isLower lower isLower_iff s) as [(F & ->)|(a & c & d & -> & _ & N & ->)]; cbn [fst]; split; auto; try discriminate.
  intros F. apply Forall_app in F as (_ & F). inversion F; subst. contradiction.
Qed.
(* the conversions change letters of the other case by 32 *)
Lemma toLower_spec : forall c, (upperCase c -> toLower c = c + 32) /\ (~ upperCase c -> toLower c = c).
Proof. intros c. unfold toLower. destruct (isUpper c) eqn:U; split; intros H; auto; [apply isUpper_iff in U; contradiction|apply isUpper_iff in H; congruence]. Qed.
Lemma toUpper_spec : forall c, (lower c -> toUpper c = c - 32) /\ (~ lower c -> toUpper c = c).
Proof. intros c. unfold toUpper. destruct (isLower c) eqn:U; split; intros H; auto; [apply isLower_iff in U; contradiction|apply isLower_iff in H; congruence]. Qed.
Lemma not_upper : forall c, ~ upperCase (toLower c).
Proof. intros c. unfold toLower. destruct (isUpper c) eqn:U; [apply isUpper_iff in U|intro H; apply isUpper_iff in H; congruence]. unfold upperCase, fromTo in *. lia. Qed.
Lemma not_lower : forall c, ~ lower (toUpper c).
Proof. intros c. unfold toUpper. destruct (isLower c) eqn:U; [apply isLower_iff in U|intro H; apply isLower_iff in H; congruence]. unfold lower, fromTo in *. lia. Qed.
Lemma text_case : forall s, length (lowerText s) = length s /\ length (upperText s) = length s /\ Forall (fun c => ~ upperCase c) (lowerText s) /\ Forall (fun c => ~ lower c) (upperText s) /\
  Forall2 (fun c d => d = c \/ upperCase c /\ d = c + 32) s (lowerText s) /\ Forall2 (fun c d => d = c \/ lower c /\ d = c - 32) s (upperText s) /\ defaultText s = lowerText s.
Proof.
  intros s. unfold defaultText. repeat split; try apply map_length.
  - apply Forall_forall. intros c I. apply in_map_iff in I as (d & <- & _). apply not_upper.
  - apply Forall_forall. intros c I. apply in_map_iff in I as (d & <- & _). apply not_lower.
  - induction s; constructor; auto. unfold toLower. destruct (isUpper a) eqn:U; auto. right. apply isUpper_iff in U. auto.
  - induction s; constructor; auto. unfold toUpper. destruct (isLower a) eqn:U; auto. right. apply isLower_iff in U. auto.
Qed.

(* ---- numbers ---- *)
Lemma sign_spec : forall x, (0 < x -> sign x = 1) /\ (x = 0 -> sign x = 0) /\ (x < 0 -> sign x = -1).
Proof. intros x. unfold sign. destruct (Z.ltb_spec 0 x), (Z.ltb_spec x 0); lia. Qed.
Lemma dist_spec : forall a b, is_i64 a -> is_i64 b -> (is_i64 (Z.abs (a - b)) -> dist a b = Ok (Z.abs (a - b))) /\ (~ is_i64 (Z.abs (a - b)) -> dist a b = UB).
Proof.
  intros a b A B. unfold dist. assert (E : (if a >? b then chk (a - b) else chk (b - a)) = chk (Z.abs (a - b))).
  { destruct (a >? b) eqn:G; f_equal; [apply Z.gtb_lt in G|rewrite Z.gtb_ltb in G; apply Z.ltb_ge in G]; lia. }
  rewrite E. split; intros H; [apply chk_Ok; auto|destruct (chk_cases (Z.abs (a - b))) as [(_ & K)|(K & _)]; [contradiction|exact K]].
Qed.
Lemma isReal_spec : forall parse, fromChars parse -> forall s,
  (forall q, decimalValue s q -> inRange q -> exists v, isReal parse s = (true, Some v) /\ nearest q v) /\
  (forall b, fst (isReal parse s) = b -> if b then exists q v, decimalValue s q /\ nearest q v /\ isReal parse s = (true, Some v) else snd (isReal parse s) = None) /\
  ((forall q, ~ decimalValue s q) -> isReal parse s = (false, None)).
Proof.
  intros parse FC s. assert (RV : regex_match s REAL_REGEX = true <-> exists q, decimalValue s q). { rewrite <- DecimalProofs2.token_value. apply real_regex; auto. }
  unfold isReal. split; [|split].
  - intros q D R. assert (M : regex_match s REAL_REGEX = true) by (apply RV; eauto). rewrite M. cbn [negb]. destruct (FC s q D) as (N & E). destruct (E R) as (v & P). rewrite P. exists v. split; auto.
  - intros b. destruct (regex_match s REAL_REGEX) eqn:M; cbn [negb]; [|intros <-; reflexivity]. destruct (proj1 RV eq_refl) as (q & D). destruct (parse s) as [v|] eqn:P; intros <-; cbn; auto. exists q, v. split; auto. split; auto. apply (FC s q D). auto.
  - intros N. destruct (regex_match s REAL_REGEX) eqn:M; auto. destruct (proj1 RV eq_refl) as (q & D). exfalso. eapply N; eauto.
Qed.

Lemma characters_listed : forall c, (isLower c = true <-> In c LOWER) /\ (isUpper c = true <-> In c UPPER) /\ (isLetter c = true <-> In c LETTER) /\
  (isDigit c = true <-> In c DIGITS) /\ (isVowel c = true <-> In c VOWEL) /\ (isConsonant c = true <-> In c CONSONANT).
Proof.
  intros c. rewrite isLower_iff, isUpper_iff, isLetter_iff, isDigit_iff, isVowel_iff, isConsonant_iff.
  rewrite (proj2 lower_list c), (proj2 upper_list c), (proj2 letter_list c), (proj2 digit_list c), (proj2 vowel_list c), (proj2 consonant_list c). unfold letter, vowel. tauto.
Qed.
Lemma strings_judged : forall s, judged upperCase s (isUpperText s) /\ judged (fun c => In c LETTER) s (isLetterText s) /\ judged digitChar s (isDigitText s) /\
  judged (fun c => In c VOWEL) s (isVowelText s) /\ judged (fun c => In c CONSONANT) s (isConsonantText s) /\ (isLowerText s = true <-> Forall lower s).
Proof. intros s. repeat split; try (apply all_judged; intros c; try apply (characters_listed c)); [apply isUpper_iff|apply isDigit_iff|apply isLowerText_iff..]. Qed.
Lemma cases_ok :
  map toLower UPPER = LOWER /\ map toUpper LOWER = UPPER /\ (forall c, ~ upperCase c -> toLower c = c) /\ (forall c, ~ lower c -> toUpper c = c) /\
  forall s, Forall2 (fun c d => d = toLower c /\ ~ upperCase d) s (lowerText s) /\ Forall2 (fun c d => d = toUpper c /\ ~ lower d) s (upperText s) /\ defaultText s = lowerText s.
Proof.
  split; [reflexivity|]. split; [reflexivity|]. split; [intros c; apply toLower_spec|]. split; [intros c; apply toUpper_spec|].
  intros s. repeat split; induction s; constructor; auto; split; auto; [apply not_upper|apply not_lower].
Qed.
Lemma isReal_ok : forall parse, fromChars parse -> forall s,
  (forall q, decimalValue s q -> inRange q -> exists v, isReal parse s = (true, Some v) /\ nearest q v) /\
  (forall v, isReal parse s = (true, Some v) -> exists q, decimalValue s q /\ nearest q v) /\
  (fst (isReal parse s) = true <-> exists v, isReal parse s = (true, Some v)) /\
  (fst (isReal parse s) = false -> isReal parse s = (false, None)).
Proof.
  intros parse FC s. destruct (isReal_spec parse FC s) as (A & B & _). split; [exact A|]. specialize (B _ eq_refl). destruct (isReal parse s) as ([|] & o); cbn [fst snd] in *.
  - destruct B as (q & v & D & N & E). injection E as ->. split; [intros w H; injection H as <-; eauto|]. split; [split; eauto|discriminate].
  - subst o. split; [discriminate|]. split; [split; [discriminate|intros (v & H); discriminate]|auto].
Qed.
Lemma numbers_ok : forall a b, is_i64 a -> is_i64 b ->
  ((0 < a -> sign a = 1) /\ (a = 0 -> sign a = 0) /\ (a < 0 -> sign a = -1)) /\
  (Z.abs (a - b) < 2 ^ 63 -> dist a b = Ok (Z.abs (a - b))) /\ (2 ^ 63 <= Z.abs (a - b) -> dist a b = UB).
Proof. intros a b A B. destruct (dist_spec a b A B) as (X & Y). split; [apply sign_spec|]. split; intros H; [apply X|apply Y]; mach; lia. Qed.
