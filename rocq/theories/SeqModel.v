(* Model of the sequence and string predicates of /repo/src/validate.h:535-807, 919-950. *)
From Verif Require Import Base RandIntModel RandSeqModel.

(* validate.h:535-550  boolean<T>: a truth value with an optional reason *)
Definition boolean (T : Type) : Type := (bool * option T)%type.

(* validate.h:564-571  loop of isPerm; element type Integer, count = number of elements.
   T other than Integer (unsigned, narrower) is not modelled. *)
Fixpoint isPermLoop (l : list Z) (offset count : Z) (seen : list bool) : outcome (boolean Z) :=
  match l with
  | [] => Ok (true, None)
  | x :: l' =>
    if x <? offset then Ok (false, Some x) else
    let! d := chk (x - offset) in
    if count <=? d then Ok (false, Some x) else
    let! s := aget seen d in
    if s : bool then Ok (false, Some x) else
    let! seen := aset seen d true in
    isPermLoop l' offset count seen
  end.
(* validate.h:559-577 *)
Definition isPerm (l : list Z) (offset : Z) : outcome (boolean Z) :=
  isPermLoop l offset (alen l) (repeat false (length l)).

(* validate.h:587-589  first position where the sorted vectors differ *)
Fixpoint firstMismatch (a b : list Z) : boolean Z :=
  match a, b with
  | x :: a', y :: b' => if negb (x =? y) then (false, Some x) else firstMismatch a' b'
  | _, _ => (true, None)
  end.
(* validate.h:579-598  isPerm of two ranges; elements Integer, std::sort = sort *)
Definition isPerm2 (a b : list Z) : boolean Z :=
  if negb (alen a =? alen b) then (false, None) else firstMismatch (sort a) (sort b).

(* validate.h:600-614  anyAdjacent; i = 1-based index of the current pair *)
Fixpoint anyAdjacentFrom {A} (p : A -> A -> bool) (l : list A) (i : Z) : boolean Z :=
  match l with
  | x :: ((y :: _) as l') => if p x y then (true, Some i) else anyAdjacentFrom p l' (i + 1)
  | _ => (false, None)
  end.
Definition anyAdjacent {A} (p : A -> A -> bool) (l : list A) : boolean Z := anyAdjacentFrom p l 1.
(* validate.h:616-625 *)
Definition noneAdjacent {A} (p : A -> A -> bool) (l : list A) : boolean Z :=
  let (b, r) := anyAdjacent p l in (negb b, r).
(* validate.h:627-630  iterator overload *)
Definition allAdjacent {A} (p : A -> A -> bool) (l : list A) : boolean Z :=
  noneAdjacent (fun x y => negb (p x y)) l.
(* validate.h:631-634  container overload: forwards to noneAdjacent without negation *)
Definition allAdjacentContainer {A} (p : A -> A -> bool) (l : list A) : boolean Z :=
  noneAdjacent p l.

(* validate.h:636-674; the container overloads call the iterator versions *)
Definition areIncreasing (l : list Z) := allAdjacent Z.ltb l.
Definition areNonDecreasing (l : list Z) := allAdjacent Z.leb l.
Definition areDecreasing (l : list Z) := allAdjacent Z.gtb l.
Definition areNonIncreasing (l : list Z) := allAdjacent Z.geb l.

(* validate.h:676-688 *)
Definition areDistinct (l : list Z) : outcome (boolean Z) :=
  let tmp := sort l in
  let (b, v) := anyAdjacent Z.eqb tmp in
  match v with
  | Some i => let! x := aget tmp i in Ok (negb b, Some x)
  | None => Ok (negb b, None)
  end.

(* validate.h:778-790  thueMorse(lower, upper); bitset<64>(x).count() % 2 *)
Definition thueMorse (lower upper : Z) : outcome (list Z) :=
  let! _ := judgeAssert (lower <? upper) in
  let! _ := judgeAssert (0 <=? lower) in
  let! n := chk (upper - lower) in
  Ok (map (fun i => popcount 64 (u64 (Z.of_nat i + u64 lower)) mod 2) (seq 0 (Z.to_nat n))).

(* validate.h:799-801  res[i] = res[i-1] + step; the first entry is cur *)
Fixpoint rangeLoop (n : nat) (cur step : Z) : outcome (list Z) :=
  match n with
  | O => Ok []
  | S n' =>
    let! next := chk (cur + step) in
    let! r := rangeLoop n' next step in
    Ok (next :: r)
  end.
(* validate.h:792-803  range(from, to, step); std::abs of the smallest value is UB *)
Definition range (from to step : Z) : outcome (list Z) :=
  let! _ := judgeAssert (negb (step =? 0)) in
  if (0 <? step) && (to <=? from) then Ok [] else
  if (step <? 0) && (from <=? to) then Ok [] else
  let n := u64 (u64 to - u64 from) in
  let n := if step <? 0 then u64 (0 - n) else n in
  let! a := chk (Z.abs step) in
  let size := u64 (1 + u64 (n - 1) / a) in
  let! r := rangeLoop (Z.to_nat (size - 1)) from step in
  Ok (if size =? 0 then [] else from :: r).

(* validate.h:692-743  character classes on char codes *)
Definition isLower (c : Z) : bool := (97 <=? c) && (c <=? 122).
Definition isUpper (c : Z) : bool := (65 <=? c) && (c <=? 90).
Definition isLetter (c : Z) : bool := isLower c || isUpper c.
Definition isDigit (c : Z) : bool := (48 <=? c) && (c <=? 57).
Definition toLower (c : Z) : Z := if isUpper c then c + (97 - 65) else c.
Definition toUpper (c : Z) : Z := if isLower c then c - (97 - 65) else c.
Definition LOWER_VOWELS : list Z := [97; 101; 105; 111; 117]. (* validate.h: "aeiou" *)
Definition isVowel (c : Z) : bool := existsb (Z.eqb (toLower c)) LOWER_VOWELS.
Definition isConsonant (c : Z) : bool := isLetter c && negb (isVowel c).
(* validate.h:734-737  toDefaultCase; DEFAULT_CASE_LOWER = true *)
Definition toDefaultCase (c : Z) : Z := toLower c.
(* validate.h:754-776  the string versions with the first offending character *)
Fixpoint allChars (p : Z -> bool) (s : list Z) : boolean Z :=
  match s with [] => (true, None) | c :: s' => if negb (p c) then (false, Some c) else allChars p s' end.

(* validate.h:919-937  details::stringEqual; i = current index *)
Fixpoint stringEqualFrom (a b : list Z) (caseSensitive : bool) (i : Z) : boolean Z :=
  match a, b with
  | x :: a', y :: b' =>
    let aa := if caseSensitive then x else toDefaultCase x in
    let bb := if caseSensitive then y else toDefaultCase y in
    if negb (aa =? bb) then (false, Some i) else stringEqualFrom a' b' caseSensitive (i + 1)
  | [], [] => (true, None)
  | _, _ => (false, Some i)
  end.
Definition stringEqual (a b : list Z) (caseSensitive : bool) : boolean Z :=
  stringEqualFrom a b caseSensitive 0.

(* validate.h:939-950  isToken: no space, \n, \r, \t, \f, \v *)
Definition isSpace (c : Z) : bool :=
  (c =? 32) || (c =? 10) || (c =? 13) || (c =? 9) || (c =? 12) || (c =? 11).
Definition isToken (a : list Z) : bool :=
  match a with [] => false | _ => forallb (fun c => negb (isSpace c)) a end.
