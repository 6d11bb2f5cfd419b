(* Model of what a failing read of InputStream writes, /repo/src/validate.h:2318-2721: the reads of InputModel.v with the
   text that `*out` receives until the program ends. The position in the stream is given by what is left of the file;
   the report of fail() is that of ReportModel.v. `*out << onFail` writes a newline and exits (211-214). *)
From Coq Require Import String.
From Verif Require Import Base SeqModel RegexModel FloatModel InitSpec PassModel PrintModel InputModel ReportModel.
From Coq Require Import ZArith List.
Import ListNotations.
Open Scope Z_scope.
Open Scope list_scope.

(* result of a read: as io of InputModel.v, with the text written before the exit *)
Inductive mio (A : Type) : Type :=
| MRet (a : A) (rest : list Z)
| MExit (code : Z) (said : list Z)
| MRaise.
Arguments MRet {A} a rest.
Arguments MExit {A} code said.
Arguments MRaise {A}.
Definition mrd (A : Type) : Type := list Z -> mio A.
Definition mret {A} (a : A) : mrd A := fun s => MRet a s.
Definition mbind {A B} (m : mrd A) (f : A -> mrd B) : mrd B :=
  fun s => match m s with
           | MRet a s' => f a s'
           | MExit c t => MExit c t
           | MRaise => MRaise
           end.
Notation "'get!' x ':=' e 'in' k" := (mbind e (fun x => k))
  (at level 200, x pattern, e at level 100, k at level 200, right associativity).

Section Messages.
  Variable st : cfg.
  Variable parseReal : list Z -> option real.
  (* the whole file, and whether the stream has positions *)
  Variable file : list Z.
  Variable seekable : bool.

  (* *out << msg << onFail, without fail() *)
  Definition mstop {A} (msg : list Z) : mrd A := fun _ => MExit (onFail st) (msg ++ [10]).
  (* 2665-2721  *out << msg; fail(); s is what is unread *)
  Definition mfail {A} (msg : list Z) : mrd A :=
    fun s => match report file (if seekable then Some (alen file - alen s) else None) with
             | Ok loc => MExit (onFail st) (msg ++ loc ++ [10])
             | _ => MRaise
             end.
  (* [lower, upper)!, as in 2402, 2479, 2527, 2576 *)
  Definition outOfRange (what given lower upper : list Z) : list Z :=
    what ++ text " " ++ given ++ text " out of range [" ++ lower ++ text ", " ++ upper ++ text ")!".

  Definition mskip : mrd unit := fun s => MRet tt (if spaceSensitive st then s else skipWs s).
  (* 2318-2326; get() takes the character *)
  Definition meof : mrd unit :=
    get! _ := mskip in
    fun s => match s with [] => MRet tt s | _ :: s' => mfail (text "Missing EOF!") s' end.
  (* 2328-2334 *)
  Definition mnoteof : mrd unit :=
    get! _ := mskip in
    fun s => match s with [] => mstop (text "Unexpected EOF!") s | _ :: _ => MRet tt s end.
  Definition mgetChar (c : Z) (msg : list Z) : mrd unit :=
    fun s => match s with
             | x :: s' => if x =? c then MRet tt s' else mfail msg s'
             | [] => mfail msg s
             end.
  (* 2336-2344 *)
  Definition mspace : mrd unit :=
    if spaceSensitive st then get! _ := mnoteof in mgetChar 32 (text "Missing space!") else mret tt.
  (* 2346-2354 *)
  Definition mnewline : mrd unit :=
    if spaceSensitive st then get! _ := mnoteof in mgetChar 10 (text "Missing newline!") else mret tt.
  (* 2357-2362 *)
  Definition mcheck (token : list Z) (pattern : re) : mrd unit :=
    if negb (regex_match token pattern) then mfail (text "Token """ ++ token ++ text """ does not match pattern!") else mret tt.
  (* 2364-2369 *)
  Definition mcheckSeparator (separator : Z) : option (mrd unit) :=
    if separator =? 32 then Some mspace
    else if separator =? 10 then Some mnewline
    else None.
  (* 2371-2379  parse<T> *)
  Definition mparse {A} (p : list Z -> option A) (t : list Z) : mrd A :=
    match p t with
    | Some v => mret v
    | None => mfail (text "Could not parse token """ ++ t ++ text """!")
    end.
  (* 2382-2396 *)
  Definition mstring : mrd (list Z) :=
    get! _ := mnoteof in
    fun s =>
      if spaceSensitive st && negb (isgraphPeek s) then mfail (text "Invalid whitespace!") (tl s) else
      let s := if spaceSensitive st then s else skipWs s in
      match takeToken s with
      | [] => mstop (text "Unexpected EOF!") s
      | res => MRet (if caseSensitive st then res else map toDefaultCase res) (dropToken s)
      end.
  (* 2398-2406 *)
  Definition mstringLen (lower upper : Z) : mrd (list Z) :=
    get! t := mstring in
    if (alen t <? lower) || (upper <=? alen t)
    then mfail (outOfRange (text "String length") (showInteger (alen t)) (showInteger lower) (showInteger upper)) else mret t.
  (* 2414-2418 *)
  Definition mstringRe (pattern : re) : mrd (list Z) :=
    get! t := mstring in
    get! _ := mcheck t pattern in
    mret t.
  (* 2420-2424 *)
  Definition mstringReLen (pattern : re) (lower upper : Z) : mrd (list Z) :=
    get! t := mstringLen lower upper in
    get! _ := mcheck t pattern in
    mret t.

  (* the loop of strings 2433-2442, integers 2492-2501, reals 2546-2555, realsStrict 2593-2602 *)
  Fixpoint mrepeat {A} (count : nat) (item : mrd A) (sepCall : mrd unit) : mrd (list A) :=
    match count with
    | O => mret []
    | S count' =>
      get! x := item in
      get! _ := (match count' with O => mret tt | S _ => sepCall end) in
      get! l := mrepeat count' item sepCall in
      mret (x :: l)
    end.
  Definition mmany {A} (item : mrd A) (count separator : Z) : mrd (list A) :=
    match mcheckSeparator separator with
    | None => fun _ => MRaise
    | Some sepCall =>
      if count <? 0 then fun _ => MRaise
      else mrepeat (Z.to_nat count) item sepCall
    end.

  (* 2472-2474 *)
  Definition minteger : mrd Z :=
    get! t := mstringRe INTEGER_REGEX in
    mparse parseInteger t.
  (* 2476-2483 *)
  Definition mintegerIn (lower upper : Z) : mrd Z :=
    get! res := minteger in
    if (res <? lower) || (upper <=? res)
    then mfail (outOfRange (text "Integer") (showInteger res) (showInteger lower) (showInteger upper)) else mret res.

  Definition mlift {A} (x : outcome A) : mrd A :=
    fun s => match x with Ok a => MRet a s | _ => MRaise end.
  (* 2518-2520 *)
  Definition mreal : mrd real :=
    get! t := mstringRe REAL_REGEX in
    mparse parseReal t.
  (* 2522-2531 *)
  Definition mrealIn (lower upper : real) : mrd real :=
    get! res := mreal in
    get! el := mlift (floatEqual res lower (floatAbsTol st) (floatRelTol st)) in
    if el : bool then mret res else
    get! eu := mlift (floatEqual res upper (floatAbsTol st) (floatRelTol st)) in
    if eu : bool then mret res else
    if isnan res || negb (SFleb lower res) || negb (SFltb res upper)
    then mfail (outOfRange (text "Real") (putReal res) (putReal lower) (putReal upper)) else mret res.
  (* 2564-2585; parse exits instead of throwing, so the catch block is never entered *)
  Definition mrealStrict (lower upper : real) (minDecimals maxDecimals : Z) : mrd real :=
    get! t := mstringRe STRICT_REAL_REGEX in
    let decimals := match InputModel.find c_dot t with None => 0 | Some dot => alen t - dot - 1 end in
    if (decimals <? minDecimals) || (maxDecimals <=? decimals)
    then mfail (text "Real " ++ t ++ text " has wrong amount of decimals!") else
    get! res := mparse parseReal t in
    if isnan res || negb (SFleb lower res) || negb (SFltb res upper)
    then mfail (outOfRange (text "Real") (putReal res) (putReal lower) (putReal upper)) else mret res.

  (* 2614-2642 *)
  Definition mexpectString (expected : list Z) : mrd unit :=
    if negb (isToken expected) then fun _ => MRaise else
    get! seen := mstring in
    get! m := mlift (expectMessage seen expected (caseSensitive st)) in
    match m with
    | None => mret tt
    | Some msg => mfail msg
    end.
  (* Expected ... but got ...! *)
  Definition expectedGot (expected seen : list Z) : list Z := text "Expected " ++ expected ++ text " but got " ++ seen ++ text "!".
  (* 2644-2650 *)
  Definition mexpectInt (expected : Z) : mrd unit :=
    get! seen := minteger in
    if negb (seen =? expected) then mfail (expectedGot (showInteger expected) (showInteger seen)) else mret tt.
  (* 2652-2663 *)
  Definition mexpectReal (expected : real) : mrd unit :=
    get! seen := mreal in
    get! e := mlift (floatEqual seen expected (floatAbsTol st) (floatRelTol st)) in
    if e : bool then
      mfail (expectedGot (putReal expected) (putReal seen) ++
        (if isfinite seen && isfinite expected then
           text " (abs: " ++ putReal (SFabs (rsub seen expected)) ++ text ", rel: " ++
           putReal (SFabs (rdiv (rsub seen expected) expected)) ++ text ")"
         else []))
    else mret tt.
End Messages.
