(* Model of the command line parser, /repo/src/validate.h:1921-2110.
   Strings are lists of character codes; std::map with string_view keys is an association
   list compared by content (the viewed strings are never changed afterwards). *)
From Verif Require Import Base SeqModel InputModel.

Notation str := (list Z).
Definition streq (a b : str) : bool := if list_eq_dec Z.eq_dec a b then true else false.
(* map::find / map::count *)
Fixpoint lookup {A} (k : str) (m : list (str * A)) : option A :=
  match m with
  | [] => None
  | (k', a) :: m' => if streq k k' then Some a else lookup k m'
  end.

(* 1924-1966  ParameterBase: an optional token *)
Definition param : Type := option str.
Definition asString (p : param) : outcome str :=
  match p with Some s => Ok s | None => Throw end.
Definition asStringOr (p : param) (d : str) : str :=
  match p with Some s => s | None => d end.
Definition parseArg (s : str) : outcome Z :=
  match parseInteger s with Some v => Ok v | None => Throw end.
Definition asInteger (p : param) : outcome Z :=
  let! s := asString p in parseArg s.
Definition asIntegerOr (p : param) (d : Z) : outcome Z :=
  match p with Some _ => asInteger p | None => Ok d end.

(* 1982-2048  Command *)
Record command : Type := mkCommand {
  ctoken : param;
  craw : list str;
  cfirst : Z;
  ccount : Z;
  cfound : bool
}.
(* 2009 *)
Definition noCommand (raw : list str) : command := mkCommand None raw 0 0 false.
(* 2010-2015 *)
Definition makeCommand (raw : list str) (first count : Z) : outcome command :=
  let! t := (if count =? 0 then Ok None else let! s := aget raw first in Ok (Some s)) in
  let! _ := judgeAssert (0 <=? count) in
  Ok (mkCommand t raw first count true).
(* 2025-2032 *)
Definition parameterCount (c : command) : Z := ccount c.
Definition parameter (c : command) (i : Z) : outcome param :=
  if (0 <=? i) && (i <? ccount c) then let! s := aget (craw c) (cfirst c + i) in Ok (Some s)
  else Ok None.
(* raw[first], ..., raw[first + n - 1] *)
Fixpoint slice (raw : list str) (first : Z) (n : nat) : outcome (list str) :=
  match n with
  | O => Ok []
  | S n' =>
    let! s := aget raw first in
    let! l := slice raw (first + 1) n' in
    Ok (s :: l)
  end.
Fixpoint parseAll (l : list str) : outcome (list Z) :=
  match l with
  | [] => Ok []
  | s :: l' =>
    let! v := parseArg s in
    let! r := parseAll l' in
    Ok (v :: r)
  end.
(* 1992-2006, 2038-2046  as<T, N>; None = all parameters *)
Definition asStrings (c : command) (n : option nat) : outcome (list str) :=
  match n with
  | None => slice (craw c) (cfirst c) (Z.to_nat (ccount c))
  | Some n =>
    let! _ := judgeAssert (Z.of_nat n <=? ccount c) in
    slice (craw c) (cfirst c) n
  end.
Definition asIntegers (c : command) (n : option nat) : outcome (list Z) :=
  let! l := asStrings c n in parseAll l.

(* 2051-2110  CommandParser *)
Record parser : Type := mkParser {
  raw : list str;
  commands : list (str * (Z * Z));
  tokens : list (str * Z)
}.
(* 2056-2058 *)
Definition isCommand (s : str) : bool :=
  (2 <? alen s) && streq (firstn 2 s) [45; 45].
(* 2059-2062 *)
Definition addCommand (cs : list (str * (Z * Z))) (c : str) (first count : Z)
  : outcome (list (str * (Z * Z))) :=
  let! _ := judgeAssert (match lookup c cs with None => true | Some _ => false end) in
  Ok (cs ++ [(c, (first, count))]).
(* map::emplace keeps an existing entry *)
Definition emplace {A} (m : list (str * A)) (k : str) (a : A) : list (str * A) :=
  match lookup k m with None => m ++ [(k, a)] | Some _ => m end.
(* 2071-2083  the loop; i = index of the next argument *)
Fixpoint parseLoop (args : list str) (i : Z) (cmd : str) (first count : Z)
  (cs : list (str * (Z * Z))) (ts : list (str * Z)) : outcome (list (str * (Z * Z)) * list (str * Z)) :=
  match args with
  | [] =>
    let! cs := addCommand cs cmd first count in
    Ok (cs, ts)
  | a :: args' =>
    let ts := emplace ts a (i + 1) in
    if isCommand a then
      let! cs := addCommand cs cmd first count in
      parseLoop args' (i + 1) a (i + 1) 0 cs ts
    else parseLoop args' (i + 1) cmd first (count + 1) cs ts
  end.
(* 2066-2085 *)
Definition commandParser (args : list str) : outcome parser :=
  let! (cs, ts) := parseLoop args 0 [] 0 0 [] [] in
  Ok (mkParser args cs ts).
(* 2092-2095 *)
Definition rawAt (p : parser) (t : Z) : outcome str :=
  let! _ := judgeAssert ((0 <=? t) && (t <? alen (raw p))) in
  aget (raw p) t.
(* 2096-2101 *)
Definition getCommand (p : parser) (c : str) : outcome command :=
  let! _ := judgeAssert (isToken c) in
  match lookup c (commands p) with
  | None => Ok (noCommand (raw p))
  | Some (first, count) => makeCommand (raw p) first count
  end.
(* 2102-2107 *)
Definition getRaw (p : parser) (c : str) : outcome command :=
  let! _ := judgeAssert (isToken c) in
  match lookup c (tokens p) with
  | None => Ok (noCommand (raw p))
  | Some first => makeCommand (raw p) first (alen (raw p) - first)
  end.
(* 2108-2110 *)
Definition getRawAll (p : parser) : outcome command := makeCommand (raw p) 0 (alen (raw p)).
