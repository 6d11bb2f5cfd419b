(* Model of the error report of InputStream, /repo/src/validate.h:2615-2640 and 2664-2721. *)
From Verif Require Import Base PassModel SeqModel InputModel.

(* 139  TEXT_ELLIPSIS "[...]" *)
Definition TEXT_ELLIPSIS : list Z := [91; 46; 46; 46; 93].
(* std::string::substr(off) and substr(off, n): out_of_range behind the end *)
Definition substrFrom (s : list Z) (off : Z) : outcome (list Z) :=
  if alen s <? off then Throw else Ok (skipn (Z.to_nat off) s).
Definition substr (s : list Z) (off n : Z) : outcome (list Z) :=
  if alen s <? off then Throw else Ok (firstn (Z.to_nat n) (skipn (Z.to_nat off) s)).
(* std::string(n, c) with n a size_t: a difference below 0 wraps and is too long *)
Definition fillString (n c : Z) : outcome (list Z) :=
  if n <? 0 then Throw else Ok (repeat c (Z.to_nat n)).

(* 2671-2699  the loop over the input up to the position of the failure. The stream is the
   list of the bytes behind position p. *)
Record found : Type := mkFound { fLine : Z; fl : Z; fr : Z; fBuffer : list Z; fExtend : bool; fRest : list Z }.
Fixpoint scan (fuel : nat) (pos p line : Z) (l r : Z) (buffer : list Z) (extend : bool) (rest : list Z) : outcome found :=
  match fuel with
  | O => Fuel
  | S fuel' =>
    if negb (p <? pos) then Ok (mkFound line l r buffer extend rest) else
    let l := alen buffer in
    let r := alen buffer in
    match rest with
    | [] => Ok (mkFound line l r (buffer ++ [255]) extend [])      (* get() at the end: failbit *)
    | c :: rest' =>
      if isgraphPeek rest then
        let buffer := buffer ++ takeToken rest in
        let p := p + alen (takeToken rest) in
        match dropToken rest with
        | [] => Ok (mkFound line l r buffer extend [])             (* eofbit: tellg() is -1 and sets failbit *)
        | rest => scan fuel' pos p line l (if pos <=? p then alen buffer else r) buffer extend rest
        end
      else if c =? 10 then
        let p := p + 1 in
        if p <? pos then scan fuel' pos p (line + 1) l r [] extend rest'
        else scan fuel' pos p (line + 1) l (alen (buffer ++ [32])) (buffer ++ [32]) false rest'
      else
        let p := p + 1 in
        let buffer := buffer ++ [c] in
        scan fuel' pos p line l (if pos <=? p then alen buffer else r) buffer extend rest'
    end
  end.
(* 2702-2707  the rest of the line *)
Fixpoint extendLine (r : Z) (buffer rest : list Z) : list Z :=
  if (alen buffer <? 80) || (alen buffer <? r + 80) then
    match rest with
    | c :: rest' => if c =? 10 then buffer else extendLine r (buffer ++ [c]) rest'
    | [] => buffer
    end
  else buffer.
(* 2708-2713  cut the line at the left *)
Definition cutLeft (buffer : list Z) (l r : Z) : outcome (list Z * Z * Z) :=
  if (60 <? r) && (20 <? l) then
    let offset := Z.min (l - 20) (r - 60) in
    let! b := substrFrom buffer (offset + 5) in
    Ok (TEXT_ELLIPSIS ++ b, l - offset, r - offset)
  else Ok (buffer, l, r).
(* 2714-2718  cut it at the right; the line and the marks *)
Definition marked (buffer : list Z) (l r : Z) : outcome (list Z) :=
  let! (buffer, l, r) := cutLeft buffer l r in
  let! (buffer, r) :=
    if 80 <? alen buffer then
      let! b := substr buffer 0 (80 - 5) in
      Ok (b ++ TEXT_ELLIPSIS, Z.min r (alen (b ++ TEXT_ELLIPSIS)))
    else Ok (buffer, r) in
  let! spaces := fillString l 32 in
  let! tildes := fillString (r - l - 1) 126 in
  Ok (buffer ++ [10] ++ spaces ++ [94] ++ tildes).
(* " Line: ", ", Char: " *)
Definition textLine : list Z := [32; 76; 105; 110; 101; 58; 32].
Definition textChar : list Z := [44; 32; 67; 104; 97; 114; 58; 32].
(* 2665-2719  what fail() writes before it ends the program; originalPos is None if tellg()
   is -1 (a stream without positions) *)
Definition report (file : list Z) (originalPos : option Z) : outcome (list Z) :=
  match originalPos with
  | None => Ok []
  | Some pos =>
    let! f := scan (S (length file)) pos 0 1 0 0 [] true file in
    if negb (fl f =? fr f) then
      let buffer := if fExtend f then extendLine (fr f) (fBuffer f) (fRest f) else fBuffer f in
      let! m := marked buffer (fl f) (fr f) in
      Ok (textLine ++ showInteger (fLine f) ++ textChar ++ showInteger (fl f) ++ [10] ++ m)
    else Ok []
  end.

(* 2619-2631  format in expectString: PREFIX = 10, WINDOW = 5 *)
Definition format (pos : Z) (s : list Z) : outcome (list Z) :=
  if alen s <=? 25 then Ok s
  else if (pos <=? 17) || (alen s <=? pos) then
    let! a := substr s 0 20 in Ok (a ++ TEXT_ELLIPSIS)
  else if alen s <? pos + 5 + 2 then
    let! a := substr s 0 10 in
    let! b := substrFrom s (pos - 2) in
    Ok (a ++ TEXT_ELLIPSIS ++ b)
  else
    let! a := substr s 0 10 in
    let! b := substr s (pos - 2) 5 in
    Ok (a ++ TEXT_ELLIPSIS ++ b ++ TEXT_ELLIPSIS).
(* 2632-2640  "Expected \"", "\" but got \"", "\"!", " (different at position: ", ")" *)
Definition textExpected : list Z := [69; 120; 112; 101; 99; 116; 101; 100; 32; 34].
Definition textGot : list Z := [34; 32; 98; 117; 116; 32; 103; 111; 116; 32; 34].
Definition textEnd : list Z := [34; 33].
Definition textDifferent : list Z := [32; 40; 100; 105; 102; 102; 101; 114; 101; 110; 116; 32; 97; 116; 32; 112; 111; 115; 105; 116; 105; 111; 110; 58; 32].
Definition expectMessage (seen expected : list Z) (caseSensitive : bool) : outcome (option (list Z)) :=
  match stringEqual seen expected caseSensitive with
  | (true, _) => Ok None
  | (false, None) => UB                                            (* *pos of an empty optional *)
  | (false, Some pos) =>
    let! a := format pos expected in
    let! b := format pos seen in
    Ok (Some (textExpected ++ a ++ textGot ++ b ++ textEnd ++
              (if 5 <? pos then textDifferent ++ showInteger (pos + 1) ++ [41] else [])))
  end.
