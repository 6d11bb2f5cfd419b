(* Model of isInteger and of InputStream, /repo/src/validate.h:952-985, 2256-2663. *)
From Verif Require Import Base SeqModel RegexModel FloatModel.

(* ---- number parsing ---- *)

(* std::from_chars for Integer, base 10: the longest prefix -?[0-9]+ is used; None = no such
   prefix or the value does not fit; else the value and the unread rest *)
Fixpoint digitsValue (acc : Z) (s : list Z) : Z * list Z :=
  match s with
  | c :: s' => if isDigit c then digitsValue (acc * 10 + (c - 48)) s' else (acc, s)
  | [] => (acc, [])
  end.
Definition from_chars (s : list Z) : option (Z * list Z) :=
  let neg := match s with c :: _ => c =? c_minus | [] => false end in
  let t := if neg then tl s else s in
  match t with
  | c :: _ =>
    if isDigit c then
      let (v, rest) := digitsValue 0 t in
      let v := if neg then - v else v in
      if in_i64 v then Some (v, rest) else None
    else None
  | [] => None
  end.
(* validate.h:952-959  details::parse<Integer>: one leading plus is skipped *)
Definition parseInteger (s : list Z) : option Z :=
  let t := match s with c :: s' => if c =? c_plus then s' else s | [] => s end in
  match from_chars t with
  | Some (v, []) => Some v
  | _ => None
  end.

(* validate.h:980-985 *)
Definition isInteger (s : list Z) : boolean Z :=
  if negb (regex_match s INTEGER_REGEX) then (false, None) else
  match parseInteger s with
  | None => (false, None)
  | Some v => (true, Some v)
  end.

(* ---- input stream ---- *)

(* Result of a read: the value and the unread characters; or the program exits with the
   exit code of onFail (validate.h:2665-2721, the report written before is not modelled
   here); or an exception leaves the call. *)
Inductive io (A : Type) : Type :=
| Ret (a : A) (rest : list Z)
| Exit (code : Z)
| Raise.
Arguments Ret {A} a rest.
Arguments Exit {A} code.
Arguments Raise {A}.

Definition rd (A : Type) : Type := list Z -> io A.
Definition rret {A} (a : A) : rd A := fun s => Ret a s.
Definition rbind {A B} (m : rd A) (f : A -> rd B) : rd B :=
  fun s => match m s with
           | Ret a s' => f a s'
           | Exit c => Exit c
           | Raise => Raise
           end.
Notation "'read!' x ':=' e 'in' k" := (rbind e (fun x => k))
  (at level 200, x pattern, e at level 100, k at level 200, right associativity).

(* validate.h:2256-2312  the settings of an InputStream; onFail as exit code. The stream
   itself is the list of the unread bytes: every read works at the current position, and
   all reads behave at the end of the list as they do with eofbit set. The "C" locale is
   assumed. Reading from an uninitialised stream (checkIn) is not modelled. *)
Record cfg : Type := mkCfg {
  spaceSensitive : bool;
  caseSensitive : bool;
  onFail : Z;
  floatAbsTol : real;
  floatRelTol : real
}.

(* std::ws *)
Fixpoint skipWs (s : list Z) : list Z :=
  match s with
  | c :: s' => if isSpace c then skipWs s' else s
  | [] => []
  end.
(* operator>>(std::string): the characters up to the next white space *)
Fixpoint takeToken (s : list Z) : list Z :=
  match s with
  | c :: s' => if isSpace c then [] else c :: takeToken s'
  | [] => []
  end.
Fixpoint dropToken (s : list Z) : list Z :=
  match s with
  | c :: s' => if isSpace c then s else dropToken s'
  | [] => []
  end.
(* std::isgraph(in->peek()), false at the end of the file *)
Definition isgraphPeek (s : list Z) : bool :=
  match s with c :: _ => (33 <=? c) && (c <=? 126) | [] => false end.

Section InputStream.
  Variable st : cfg.
  (* details::parse<Real>: what std::from_chars yields for a whole token is left open *)
  Variable parseReal : list Z -> option real.

  Definition fail {A} : rd A := fun _ => Exit (onFail st).

  Definition skip : rd unit := fun s => Ret tt (if spaceSensitive st then s else skipWs s).
  (* 2318-2326 *)
  Definition eof : rd unit :=
    read! _ := skip in
    fun s => match s with [] => Ret tt s | _ :: _ => fail s end.
  (* 2328-2334 *)
  Definition noteof : rd unit :=
    read! _ := skip in
    fun s => match s with [] => fail s | _ :: _ => Ret tt s end.
  (* in->get() compared with c *)
  Definition getChar (c : Z) : rd unit :=
    fun s => match s with
             | x :: s' => if x =? c then Ret tt s' else fail s
             | [] => fail s
             end.
  (* 2336-2344 *)
  Definition space : rd unit :=
    if spaceSensitive st then read! _ := noteof in getChar 32 else rret tt.
  (* 2346-2354 *)
  Definition newline : rd unit :=
    if spaceSensitive st then read! _ := noteof in getChar 10 else rret tt.
  (* 2357-2362 *)
  Definition check (token : list Z) (pattern : re) : rd unit :=
    if negb (regex_match token pattern) then fail else rret tt.
  (* 2364-2369 *)
  Definition checkSeparator (separator : Z) : option (rd unit) :=
    if separator =? 32 then Some space
    else if separator =? 10 then Some newline
    else None.
  (* 2382-2396 *)
  Definition string : rd (list Z) :=
    read! _ := noteof in
    fun s =>
      if spaceSensitive st && negb (isgraphPeek s) then fail s else
      let s := if spaceSensitive st then s else skipWs s in
      match takeToken s with
      | [] => fail s
      | res => Ret (if caseSensitive st then res else map toDefaultCase res) (dropToken s)
      end.
  (* 2398-2406 *)
  Definition stringLen (lower upper : Z) : rd (list Z) :=
    read! t := string in
    if (alen t <? lower) || (upper <=? alen t) then fail else rret t.
  (* 2414-2418 *)
  Definition stringRe (pattern : re) : rd (list Z) :=
    read! t := string in
    read! _ := check t pattern in
    rret t.
  (* 2420-2424 *)
  Definition stringReLen (pattern : re) (lower upper : Z) : rd (list Z) :=
    read! t := stringLen lower upper in
    read! _ := check t pattern in
    rret t.

  (* the loop of strings 2433-2442, integers 2492-2501, reals 2546-2555, realsStrict 2593-2602 *)
  Fixpoint repeatRead {A} (count : nat) (item : rd A) (sepCall : rd unit) : rd (list A) :=
    match count with
    | O => rret []
    | S count' =>
      read! x := item in
      read! _ := (match count' with O => rret tt | S _ => sepCall end) in
      read! l := repeatRead count' item sepCall in
      rret (x :: l)
    end.
  (* std::vector res(count) throws for a negative count; bad_alloc is not modelled *)
  Definition many {A} (item : rd A) (count separator : Z) : rd (list A) :=
    match checkSeparator separator with
    | None => fun _ => Raise
    | Some sepCall =>
      if count <? 0 then fun _ => Raise
      else repeatRead (Z.to_nat count) item sepCall
    end.
  Definition strings := many string.
  Definition stringsLen (lower upper : Z) := many (stringLen lower upper).
  Definition stringsRe (pattern : re) := many (stringRe pattern).

  (* 2472-2474 *)
  Definition integer : rd Z :=
    read! t := stringRe INTEGER_REGEX in
    match parseInteger t with
    | Some v => rret v
    | None => fail
    end.
  (* 2476-2483 *)
  Definition integerIn (lower upper : Z) : rd Z :=
    read! res := integer in
    if (res <? lower) || (upper <=? res) then fail else rret res.
  Definition integers := many integer.
  Definition integersIn (lower upper : Z) := many (integerIn lower upper).

  Definition rlift {A} (x : outcome A) : rd A :=
    fun s => match x with Ok a => Ret a s | _ => Raise end.

  (* 2520-2522 *)
  Definition readReal : rd real :=
    read! t := stringRe REAL_REGEX in
    match parseReal t with
    | Some v => rret v
    | None => fail
    end.
  (* 2524-2533 *)
  Definition realIn (lower upper : real) : rd real :=
    read! res := readReal in
    read! el := rlift (floatEqual res lower (floatAbsTol st) (floatRelTol st)) in
    if el : bool then rret res else
    read! eu := rlift (floatEqual res upper (floatAbsTol st) (floatRelTol st)) in
    if eu : bool then rret res else
    if isnan res || negb (SFleb lower res) || negb (SFltb res upper) then fail else rret res.

  (* t.find('.') *)
  Fixpoint find (c : Z) (t : list Z) : option Z :=
    match t with
    | [] => None
    | x :: t' => if x =? c then Some 0 else option_map Z.succ (find c t')
    end.
  (* 2564-2585; the catch block also ends in fail *)
  Definition realStrict (lower upper : real) (minDecimals maxDecimals : Z) : rd real :=
    read! t := stringRe STRICT_REAL_REGEX in
    let decimals := match find c_dot t with None => 0 | Some dot => alen t - dot - 1 end in
    if (decimals <? minDecimals) || (maxDecimals <=? decimals) then fail else
    match parseReal t with
    | None => fail
    | Some res =>
      if isnan res || negb (SFleb lower res) || negb (SFltb res upper) then fail else rret res
    end.

  (* 2614-2642 *)
  Definition expectString (expected : list Z) : rd unit :=
    if negb (isToken expected) then fun _ => Raise else
    read! seen := string in
    if negb (fst (stringEqual seen expected (caseSensitive st))) then fail else rret tt.
  (* 2644-2650 *)
  Definition expectInt (expected : Z) : rd unit :=
    read! seen := integer in
    if negb (seen =? expected) then fail else rret tt.
  (* 2652-2663 *)
  Definition expectReal (expected : real) : rd unit :=
    read! seen := readReal in
    read! e := rlift (floatEqual seen expected (floatAbsTol st) (floatRelTol st)) in
    if e : bool then fail else rret tt.
End InputStream.
