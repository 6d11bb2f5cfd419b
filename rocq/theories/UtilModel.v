(* Model of the utilities of /repo/src/validate.h: the alphabets (101-114), the priority queues (434-445), append (452-467),
   flatten (498-533), shorter and longer (484-496), the character functions on strings (739-776), isReal (987-992). *)
From Coq Require Import String.
From Verif Require Import Base FloatModel SeqModel RegexModel InitSpec.
From Coq Require Import ZArith List.
Import ListNotations.
Open Scope Z_scope.
Open Scope list_scope.

(* 102-114; std::string_view::substr *)
Definition viewFrom (s : list Z) (pos : nat) : list Z := skipn pos s.
Definition view (s : list Z) (pos n : nat) : list Z := firstn n (skipn pos s).
Definition LETTER : list Z := text "ABCDEFGHIJKLMNOPQRSTUVWXYZabcdefghijklmnopqrstuvwxyz".
Definition UPPER : list Z := view LETTER 0 26.
Definition LOWER : list Z := viewFrom LETTER 26.
Definition VOWEL : list Z := text "AEIOUaeiou".
Definition UPPER_VOWELS : list Z := view VOWEL 0 5.
Definition LOWER_VOWELS : list Z := viewFrom VOWEL 5.
Definition CONSONANT : list Z := text "BCDFGHJKLMNPQRSTVWXYZbcdfghjklmnpqrstvwxyz".
Definition UPPER_CONSONANT : list Z := view CONSONANT 0 (26 - 5).
Definition LOWER_CONSONANT : list Z := viewFrom CONSONANT (26 - 5).
Definition ALPHA_NUMERIC : list Z := text "0123456789ABCDEFGHIJKLMNOPQRSTUVWXYZabcdefghijklmnopqrstuvwxyz".
Definition UPPER_ALPHA_NUMERIC : list Z := view ALPHA_NUMERIC 0 (10 + 26).
Definition LOWER_ALPHA_NUMERIC : list Z := text "0123456789abcdefghijklmnopqrstuvwxyz".
Definition DIGITS : list Z := view ALPHA_NUMERIC 0 10.

(* 739-749  the conversions of strings *)
Definition lowerText (s : list Z) : list Z := map toLower s.
Definition upperText (s : list Z) : list Z := map toUpper s.
Definition defaultText (s : list Z) : list Z := lowerText s.
(* 751-779; isLower returns a bool *)
Definition isLowerText (s : list Z) : bool := fst (allChars isLower s).
Definition isUpperText : list Z -> boolean Z := allChars isUpper.
Definition isLetterText : list Z -> boolean Z := allChars isLetter.
Definition isDigitText : list Z -> boolean Z := allChars isDigit.
Definition isVowelText : list Z -> boolean Z := allChars isVowel.
Definition isConsonantText : list Z -> boolean Z := allChars isConsonant.

(* 987-992; parse is details::parse<Real> *)
Definition isReal (parse : list Z -> option real) (s : list Z) : boolean real :=
  if negb (regex_match s REAL_REGEX) then (false, None)
  else match parse s with Some v => (true, Some v) | None => (false, None) end.

Section Containers.
  Variable A : Type.
  (* 452-462  append(c1, c2) for containers i and j of a memory. The elements are read through iterators into c2;
     adding the first one to the same container invalidates them. *)
  Definition memory : Type := list (list A).
  Definition content (m : memory) (i : nat) : list A := nth i m [].
  Definition store (m : memory) (i : nat) (c : list A) : memory := firstn i m ++ c :: skipn (S i) m.
  Fixpoint emplaceAll (m : memory) (i : nat) (es : list A) : memory :=
    match es with
    | [] => m
    | e :: es => emplaceAll (store m i (content m i ++ [e])) i es
    end.
  Definition emplaceFrom (m : memory) (i j : nat) : outcome memory :=
    match content m j with
    | [] => Ok m
    | es => if Nat.eqb i j then UB else Ok (emplaceAll m i es)
    end.
  Definition append (m : memory) (i j : nat) : outcome memory :=
    if negb (Nat.eqb i j) then emplaceFrom m i j
    else let! m := emplaceFrom (m ++ [content m j]) i (length m) in Ok (firstn (length m - 1) m).
  (* 484-496 *)
  Definition shorter (a b : list A) : bool := Nat.ltb (length a) (length b).
  Definition longer (a b : list A) : bool := Nat.ltb (length b) (length a).
End Containers.
Arguments content {A}. Arguments store {A}. Arguments emplaceAll {A}. Arguments emplaceFrom {A}. Arguments append {A}.
Arguments shorter {A}. Arguments longer {A}.

(* 498-533  flatten of nested containers: k levels above the base type *)
Inductive nested (A : Type) : Type :=
| Leaf (a : A)
| Nest (l : list (nested A)).
Arguments Leaf {A}. Arguments Nest {A}.
Fixpoint flatAppend {A} (k : nat) (c : nested A) (res : list (nested A)) : list (nested A) :=
  match k with
  | O => res ++ [c]
  | S k' => match c with
            | Leaf _ => res                                     (* static_assert *)
            | Nest l => fold_left (fun res v => flatAppend k' v res) l res
            end
  end.
Definition flatten {A} (k : nat) (c : nested A) : list (nested A) := flatAppend k c [].

(* 434-445  std::priority_queue<T, std::vector<T>, Compare>: which of the elements that no other one beats is on top is
   up to the library *)
Section Queue.
  Variable A : Type.
  Variable less : A -> A -> bool.
  Definition invert (a b : A) : bool := less b a.
  (* the position of the top for the comparison *)
  Variable pick : (A -> A -> bool) -> list A -> nat.
  Definition removeAt (i : nat) (q : list A) : list A := firstn i q ++ skipn (S i) q.
  Inductive action : Type := Push (a : A) | Pop.
  (* the values at the top when they are popped; pop of an empty queue is undefined *)
  Fixpoint queueRun (cmp : A -> A -> bool) (q : list A) (ops : list action) : outcome (list A * list A) :=
    match ops with
    | [] => Ok ([], q)
    | Push a :: ops => queueRun cmp (q ++ [a]) ops
    | Pop :: ops =>
      match nth_error q (pick cmp q) with
      | None => UB
      | Some a => let! (out, q) := queueRun cmp (removeAt (pick cmp q) q) ops in Ok (a :: out, q)
      end
    end.
  Definition minQueue : list action -> outcome (list A * list A) := queueRun invert [].
  Definition maxQueue : list action -> outcome (list A * list A) := queueRun less [].
End Queue.
Arguments invert {A}. Arguments removeAt {A}. Arguments Push {A}. Arguments Pop {A}. Arguments queueRun {A}. Arguments minQueue {A}. Arguments maxQueue {A}.
