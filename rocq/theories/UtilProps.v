(* Property C90: the utilities of validate.h. *)
From Coq Require Import String.
From Verif Require Import Base FloatModel FloatSpec SeqModel RegexModel InitSpec DecimalSpec DecimalModel DecimalProofs2 MathModel UtilModel UtilSpec UtilProofs UtilProofs2.
From Coq Require Import ZArith QArith List Sorted Permutation.
Import ListNotations.
Open Scope Z_scope.
Open Scope list_scope.

(* each alphabet lists the characters of its class *)
Theorem C90_alphabets :
  lists UPPER upperCase /\ lists LOWER lower /\ lists LETTER (fun c => upperCase c \/ lower c) /\
  lists UPPER_VOWELS upperVowel /\ lists LOWER_VOWELS lowerVowel /\ lists VOWEL (fun c => upperVowel c \/ lowerVowel c) /\
  lists UPPER_CONSONANT (fun c => upperCase c /\ ~ upperVowel c) /\ lists LOWER_CONSONANT (fun c => lower c /\ ~ lowerVowel c) /\
  lists CONSONANT (fun c => (upperCase c \/ lower c) /\ ~ (upperVowel c \/ lowerVowel c)) /\
  lists DIGITS digitChar /\ lists UPPER_ALPHA_NUMERIC (fun c => digitChar c \/ upperCase c) /\
  lists LOWER_ALPHA_NUMERIC (fun c => digitChar c \/ lower c) /\ lists ALPHA_NUMERIC (fun c => digitChar c \/ upperCase c \/ lower c).
Proof. exact (conj upper_list (conj lower_list (conj letter_list (conj upper_vowel_list (conj lower_vowel_list (conj vowel_list (conj upper_consonant_list
  (conj lower_consonant_list (conj consonant_list (conj digit_list (conj upper_num_list (conj lower_num_list num_list)))))))))))). Qed.
Print Assumptions C90_alphabets.
Example C90_ex_alphabets : (length LETTER, length CONSONANT, length ALPHA_NUMERIC) = (52, 42, 62)%nat.
Proof. vm_compute. reflexivity. Qed.

(* the character functions decide the same classes *)
Theorem C90_characters : forall c, (isLower c = true <-> In c LOWER) /\ (isUpper c = true <-> In c UPPER) /\ (isLetter c = true <-> In c LETTER) /\
  (isDigit c = true <-> In c DIGITS) /\ (isVowel c = true <-> In c VOWEL) /\ (isConsonant c = true <-> In c CONSONANT).
Proof. exact characters_listed. Qed.
Print Assumptions C90_characters.
Example C90_ex_characters : (isVowel 69, isConsonant 121, isLetter 91) = (true, true, false).
Proof. vm_compute. reflexivity. Qed.

(* strings: the witness is the first character outside the class *)
Theorem C90_strings : forall s, judged upperCase s (isUpperText s) /\ judged (fun c => In c LETTER) s (isLetterText s) /\ judged digitChar s (isDigitText s) /\
  judged (fun c => In c VOWEL) s (isVowelText s) /\ judged (fun c => In c CONSONANT) s (isConsonantText s) /\ (isLowerText s = true <-> Forall lower s).
Proof. exact strings_judged. Qed.
Print Assumptions C90_strings.
Example C90_ex_strings : (isUpperText (text "ABcD"), isLetterText (text "aB"), isLowerText (text "ab?")) = ((false, Some 99), (true, None), false).
Proof. vm_compute. reflexivity. Qed.

(* conversions change only the letters of the other case, to the letter at the same place of the alphabet *)
Theorem C90_cases :
  map toLower UPPER = LOWER /\ map toUpper LOWER = UPPER /\ (forall c, ~ upperCase c -> toLower c = c) /\ (forall c, ~ lower c -> toUpper c = c) /\
  forall s, Forall2 (fun c d => d = toLower c /\ ~ upperCase d) s (lowerText s) /\ Forall2 (fun c d => d = toUpper c /\ ~ lower d) s (upperText s) /\ defaultText s = lowerText s.
Proof. exact cases_ok. Qed.
Print Assumptions C90_cases.
Example C90_ex_cases : lowerText (text "Ab-1Z") = text "ab-1z" /\ upperText (text "Ab-1z") = text "AB-1Z".
Proof. vm_compute. split; reflexivity. Qed.

(* isReal accepts exactly decimals, and all those in range, with a nearest value *)
Theorem C90_real : forall parse, fromChars parse -> forall s,
  (forall q, decimalValue s q -> inRange q -> exists v, isReal parse s = (true, Some v) /\ nearest q v) /\
  (forall v, isReal parse s = (true, Some v) -> exists q, decimalValue s q /\ nearest q v) /\
  (fst (isReal parse s) = true <-> exists v, isReal parse s = (true, Some v)) /\
  (fst (isReal parse s) = false -> isReal parse s = (false, None)).
Proof. exact isReal_ok. Qed.
Print Assumptions C90_real.
Example C90_ex_real : (isReal decimalReal (text "-1.50e1"), isReal decimalReal (text "1.5.0"), fst (isReal decimalReal (text ".5"))) =
  ((true, decimalReal (text "-15")), (false, None), true).
Proof. vm_compute. reflexivity. Qed.

(* sign, and the distance of two Integers, which may not fit *)
Theorem C90_numbers : forall a b, is_i64 a -> is_i64 b ->
  ((0 < a -> sign a = 1) /\ (a = 0 -> sign a = 0) /\ (a < 0 -> sign a = -1)) /\
  (Z.abs (a - b) < 2 ^ 63 -> dist a b = Ok (Z.abs (a - b))) /\ (2 ^ 63 <= Z.abs (a - b) -> dist a b = UB).
Proof. exact numbers_ok. Qed.
Print Assumptions C90_numbers.
Example C90_ex_numbers : dist (-5) 7 = Ok 12 /\ dist (- 2 ^ 63) 0 = UB /\ sign (-5) = -1.
Proof. vm_compute. repeat split; reflexivity. Qed.

(* append adds the elements of the second container to the first one, also if it is the same *)
Theorem C90_append : forall (A : Type) (m : list (list A)) i j, (i < length m)%nat -> (j < length m)%nat -> exists m', append m i j = Ok m' /\ length m' = length m /\
  nth_error m' i = Some (nth i m [] ++ nth j m []) /\ forall k, k <> i -> nth_error m' k = nth_error m k.
Proof. exact append_ok. Qed.
Print Assumptions C90_append.
Example C90_ex_append : append [[1; 2]; [3]] 0 0 = Ok [[1; 2; 1; 2]; [3]] /\ append [[1; 2]; [3]] 1 0 = Ok [[1; 2]; [3; 1; 2]] /\ emplaceFrom [[1; 2]; [3]] 0 0 = UB.
Proof. vm_compute. repeat split; reflexivity. Qed.

(* flatten gives the parts at all paths of the length, in lexicographic order *)
Theorem C90_flatten : forall (A : Type) k (c : nested A), exists ps, (forall p, In p ps <-> length p = k /\ part c p <> None) /\ StronglySorted before ps /\
  map (part c) ps = map Some (flatten k c).
Proof. exact flatten_ok. Qed.
Print Assumptions C90_flatten.
Example C90_ex_flatten : flatten 2 (Nest [Nest [Leaf 1; Leaf 2]; Nest []; Nest [Leaf 3]]) = [Leaf 1; Leaf 2; Leaf 3] /\
  flatten 1 (Nest [Nest [Leaf 1; Leaf 2]; Nest []; Nest [Leaf 3]]) = [Nest [Leaf 1; Leaf 2]; Nest []; Nest [Leaf 3]].
Proof. vm_compute. split; reflexivity. Qed.

(* priority queues: pops give a least (greatest) element of what was pushed and not yet popped; popping an empty one is undefined *)
Theorem C90_min_queue : forall (A : Type) (less : A -> A -> bool) pick, tops (fun a b => less b a) pick -> forall ops,
  (enough 0 ops <-> exists r, minQueue less pick ops = Ok r) /\
  forall out q, minQueue less pick ops = Ok (out, q) -> Permutation (pushed ops) (out ++ q) /\
    (q <> [] -> exists a q', minQueue less pick (ops ++ [Pop]) = Ok (out ++ [a], q') /\ Permutation q (a :: q') /\ forall b, In b q -> less b a = false).
Proof. exact min_queue_ok. Qed.
Print Assumptions C90_min_queue.
Theorem C90_max_queue : forall (A : Type) (less : A -> A -> bool) pick, tops less pick -> forall ops,
  (enough 0 ops <-> exists r, maxQueue less pick ops = Ok r) /\
  forall out q, maxQueue less pick ops = Ok (out, q) -> Permutation (pushed ops) (out ++ q) /\
    (q <> [] -> exists a q', maxQueue less pick (ops ++ [Pop]) = Ok (out ++ [a], q') /\ Permutation q (a :: q') /\ forall b, In b q -> less a b = false).
Proof. exact max_queue_ok. Qed.
Print Assumptions C90_max_queue.
Theorem C90_queue_sorts : forall (A : Type) (less : A -> A -> bool) pick l,
  (tops (fun a b => less b a) pick -> exists out, minQueue less pick (map Push l ++ repeat Pop (length l)) = Ok (out, []) /\ Permutation l out /\ StronglySorted (fun a b => less b a = false) out) /\
  (tops less pick -> exists out, maxQueue less pick (map Push l ++ repeat Pop (length l)) = Ok (out, []) /\ Permutation l out /\ StronglySorted (fun a b => less a b = false) out).
Proof. exact queues_sort. Qed.
Print Assumptions C90_queue_sorts.
(* the contract of the library can be met for every strict weak order *)
Theorem C90_queue_top : forall A : Type, exists pick : (A -> A -> bool) -> list A -> nat, forall cmp,
  (forall a, cmp a a = false) -> (forall a b c, cmp a b = true -> cmp b c = true -> cmp a c = true) -> tops cmp pick.
Proof. exact top_exists. Qed.
Print Assumptions C90_queue_top.
Example C90_ex_queue : minQueue Z.ltb topAt [Push 5; Push 2; Pop; Push 7; Push 1; Pop; Pop] = Ok ([2; 1; 5], [7]) /\
  maxQueue Z.ltb topAt [Push 5; Push 2; Pop; Push 7; Push 1; Pop; Pop] = Ok ([5; 7; 2], [1]) /\ minQueue Z.ltb topAt [Push 5; Pop; Pop] = UB.
Proof. vm_compute. repeat split; reflexivity. Qed.

(* sorting by length *)
Theorem C90_lengths : forall (A : Type) (a b : list A), (shorter a b = true <-> (length a < length b)%nat) /\ longer a b = shorter b a.
Proof. exact lengths_ok. Qed.
Print Assumptions C90_lengths.
Example C90_ex_lengths : (shorter [1] [1; 2], longer [1] [1; 2], shorter [1] [2]) = (true, false, false).
Proof. vm_compute. reflexivity. Qed.
