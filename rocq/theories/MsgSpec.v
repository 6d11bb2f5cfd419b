(* What a failed read should say. *)
From Coq Require Import String.
From Verif Require Import Base InputSpec ReportSpec RegexModel RegexProofs FloatModel FloatSpec InitSpec PassModel PrintModel.
From Coq Require Import ZArith List.
Import ListNotations.
Open Scope Z_scope.
Open Scope list_scope.

(* a word can start behind this text *)
Definition wordStart (before : list Z) : Prop := before = [] \/ exists b c, before = b ++ [c] /\ whitespace c.
(* s is what is left of the file; the next word is raw, with the given text before and after it in the file *)
Definition nextWord (sensitive : bool) (file s before raw after : list Z) : Prop :=
  exists pre ws, file = pre ++ s /\ s = ws ++ raw ++ after /\ before = pre ++ ws /\ Forall whitespace ws /\
    (sensitive = true -> ws = []) /\ wordStart before /\ plainToken raw /\ endsToken after.

(* the report about the part x of the file: its line and column, and a row that shows it with marks below. There is none
   for streams without positions and for words at the end of the file. *)
Definition located (seekable : bool) (before x after loc : list Z) : Prop :=
  (seekable = false \/ wordPart x /\ after = []) /\ loc = [] \/
  seekable = true /\ (wordPart x -> after <> []) /\
  exists cur line row l r, lastLine before cur /\
    (x = [10] /\ line = cur ++ [32] \/ x <> [10] /\ lineText cur (x ++ after) line) /\
    loc = text " Line: " ++ showInteger (1 + newlines before + newlines x) ++ text ", Char: " ++ showInteger (alen cur) ++ [10] ++
      row ++ [10] ++ repeat 32 (Z.to_nat l) ++ [94] ++ repeat 126 (Z.to_nat (r - l - 1)) /\
    0 <= l < 60 /\ l < r /\ r <= alen row /\ alen row <= 80 /\ (r - l = alen x \/ r - l < alen x /\ r = 80 /\ alen row = 80) /\
    excerpt line row (alen cur) l.

Definition noMatch (t : list Z) : list Z := text "Token """ ++ t ++ text """ does not match pattern!".
Definition noParse (t : list Z) : list Z := text "Could not parse token """ ++ t ++ text """!".
Definition outside (what given lower upper : list Z) : list Z :=
  what ++ text " " ++ given ++ text " out of range [" ++ lower ++ text ", " ++ upper ++ text ")!".

(* the complaints about the token t *)
Inductive noInteger (t : list Z) : list Z -> Prop :=
| int_form : (forall v, ~ decimalOf t v) -> noInteger t (noMatch t)
| int_size : forall v, decimalOf t v -> ~ is_i64 v -> noInteger t (noParse t).
Inductive notInRange (t : list Z) (lower upper : Z) : list Z -> Prop :=
| range_integer : forall msg, noInteger t msg -> notInRange t lower upper msg
| range_outside : forall v tl tu, decimalOf t v -> is_i64 v -> ~ lower <= v < upper -> decimalOf tl lower -> decimalOf tu upper ->
    notInRange t lower upper (outside (text "Integer") t tl tu).
Inductive notExpected (t : list Z) (expected : Z) : list Z -> Prop :=
| expected_integer : forall msg, noInteger t msg -> notExpected t expected msg
| expected_other : forall v te, decimalOf t v -> is_i64 v -> v <> expected -> decimalOf te expected ->
    notExpected t expected (text "Expected " ++ te ++ text " but got " ++ t ++ text "!").
Inductive notFitting (t : list Z) (p : re) (lower upper : Z) : list Z -> Prop :=
| fit_length : forall tk tl tu, ~ lower <= alen t < upper -> decimalOf tk (alen t) -> decimalOf tl lower -> decimalOf tu upper ->
    notFitting t p lower upper (outside (text "String length") tk tl tu)
| fit_pattern : lower <= alen t < upper -> ~ lang p t -> notFitting t p lower upper (noMatch t).
(* v is not in the half-open range *)
Definition beyond (lower upper v : real) : Prop := ~ (SFleb lower v = true /\ SFltb v upper = true).
Inductive noReal (parse : list Z -> option real) (t : list Z) : list Z -> Prop :=
| real_form : ~ realToken t -> noReal parse t (noMatch t)
| real_size : realToken t -> parse t = None -> noReal parse t (noParse t).
Inductive notStrict (parse : list Z -> option real) (t : list Z) (lower upper : real) (minD maxD : Z) : list Z -> Prop :=
| strict_form : (forall k, ~ strictReal t k) -> notStrict parse t lower upper minD maxD (noMatch t)
| strict_decimals_wrong : forall k, strictReal t k -> ~ minD <= k < maxD ->
    notStrict parse t lower upper minD maxD (text "Real " ++ t ++ text " has wrong amount of decimals!")
| strict_size : forall k, strictReal t k -> minD <= k < maxD -> parse t = None -> notStrict parse t lower upper minD maxD (noParse t)
| strict_outside : forall k v, strictReal t k -> minD <= k < maxD -> parse t = Some v -> beyond lower upper v ->
    notStrict parse t lower upper minD maxD (outside (text "Real") (putReal v) (putReal lower) (putReal upper)).
Inductive notRealIn (parse : list Z -> option real) (near : real -> real -> Prop) (t : list Z) (lower upper : real) : list Z -> Prop :=
| realin_real : forall msg, noReal parse t msg -> notRealIn parse near t lower upper msg
| realin_outside : forall v, realToken t -> parse t = Some v -> ~ near v lower -> ~ near v upper -> beyond lower upper v ->
    notRealIn parse near t lower upper (outside (text "Real") (putReal v) (putReal lower) (putReal upper)).
(* what is written: a complaint, the location of the part x and a newline *)
Definition complaint (seekable : bool) (before x after : list Z) (about : list Z -> Prop) (said : list Z) : Prop :=
  exists msg loc, about msg /\ located seekable before x after loc /\ said = msg ++ loc ++ [10].

From Verif Require Import InputModel MsgModel.
(* the outcome of a read whose next word is raw: a good value, and the word is consumed, or exit with a complaint about the word *)
Definition answers (code : Z) (seekable : bool) {A} (r : mio A) (before raw after : list Z) (good : A -> Prop) (bad : list Z -> Prop) : Prop :=
  (exists a, r = MRet a after /\ good a) \/
  (exists said, r = MExit code said /\ complaint seekable before raw after bad said).
(* exit with a complaint *)
Definition complains (code : Z) (seekable : bool) {A} (r : mio A) (before x after : list Z) (bad : list Z -> Prop) : Prop :=
  exists said, r = MExit code said /\ complaint seekable before x after bad said.
(* the outcome without what was written *)
Definition forget {A} (r : mio A) : io A :=
  match r with MRet a s => Ret a s | MExit c _ => Exit c | MRaise => Raise end.
(* equal up to the configured tolerance *)
Definition near (st : cfg) (a b : real) : Prop := floatEqual a b (floatAbsTol st) (floatRelTol st) = Ok true.
