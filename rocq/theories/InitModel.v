(* Model of the settings and of the init functions, /repo/src/validate.h:80-83, 123-138, 2728-2958, 3011-3024.
   The static bool of initialized() and the global settings are the fields of a record that the
   functions pass on; an exception ends the program, so no state is kept for it. Input files are
   byte lists; whether the message files can be opened is an argument. What std::from_chars
   yields for a Real is an argument, as in InputModel. *)
From Coq Require Import String Ascii.
From Verif Require Import Base SeqModel FloatModel InputModel ArgsModel.
Open Scope Z_scope.

(* string literals *)
Definition chars (s : String.string) : str := map (fun c => Z.of_nat (nat_of_ascii c)) (list_ascii_of_string s).
(* 126-138 *)
Definition CASE_SENSITIVE : str := chars "case_sensitive".
Definition SPACE_SENSITIVE : str := chars "space_change_sensitive".
Definition FLOAT_ABSOLUTE_TOLERANCE : str := chars "float_absolute_tolerance".
Definition FLOAT_RELATIVE_TOLERANCE : str := chars "float_relative_tolerance".
Definition FLOAT_TOLERANCE : str := chars "float_tolerance".
Definition JUDGE_MESSAGE : str := chars "judgemessage.txt".
Definition TEAM_MESSAGE : str := chars "teammessage.txt".
Definition CONSTRAINT_COMMAND : str := chars "--constraints_file".
Definition SEED_COMMAND : str := chars "--seed".
(* 83  1e-6_real *)
Definition DEFAULT_EPS : real := S754_finite false 0x8637bd05af6c69b6 (-83).
(* 216-219 *)
Definition AC : Z := 42.
Definition WA : Z := 43.
Definition FAIL : Z := 1.

(* 2729-2732, 2801-2806 and the seed of the random engine *)
Record world : Type := mkWorld {
  wAbs : real;
  wRel : real;
  wSpace : bool;
  wCase : bool;
  wInit : bool;
  wSeed : option Z
}.
(* 125, 2803-2806  before main; None = DEFAULT_SEED *)
Definition start : world := mkWorld DEFAULT_EPS DEFAULT_EPS false false false None.

(* 2767-2771  SettingBase::operator= *)
Definition assign (f : world -> world) (w : world) : outcome world :=
  let! _ := judgeAssert (negb (wInit w)) in Ok (f w).
Definition setAbs (v : real) (w : world) : outcome world := assign (fun w => mkWorld v (wRel w) (wSpace w) (wCase w) (wInit w) (wSeed w)) w.
Definition setRel (v : real) (w : world) : outcome world := assign (fun w => mkWorld (wAbs w) v (wSpace w) (wCase w) (wInit w) (wSeed w)) w.
Definition setSpace (v : bool) (w : world) : outcome world := assign (fun w => mkWorld (wAbs w) (wRel w) v (wCase w) (wInit w) (wSeed w)) w.
Definition setCase (v : bool) (w : world) : outcome world := assign (fun w => mkWorld (wAbs w) (wRel w) (wSpace w) v (wInit w) (wSeed w)) w.
(* 1345-1347  Random::seed; static_cast<UInteger> *)
Definition seedRandom (v : Z) (w : world) : world := mkWorld (wAbs w) (wRel w) (wSpace w) (wCase w) (wInit w) (Some (v mod 2 ^ 64)).
Definition setInit (w : world) : world := mkWorld (wAbs w) (wRel w) (wSpace w) (wCase w) true (wSeed w).

Section Init.
  Variable parseReal : list Z -> option real.

  (* 1958-1964 *)
  Definition asReal (p : param) : outcome real :=
    let! s := asString p in match parseReal s with Some v => Ok v | None => Throw end.
  Definition asRealOr (p : param) (d : real) : outcome real :=
    match p with Some _ => asReal p | None => Ok d end.

  (* 2835-2854  ValidateBase::details::init *)
  Definition init (argv : list str) (w : world) : outcome (parser * world) :=
    let! _ := judgeAssert (negb (wInit w)) in
    let! p := commandParser argv in
    let! s := getCommand p SEED_COMMAND in
    let! w := (if cfound s then let! v := asInteger (ctoken s) in Ok (seedRandom v w) else Ok w) in
    let! eps := getRaw p FLOAT_TOLERANCE in
    let! v := asRealOr (ctoken eps) (wAbs w) in
    let! w := setAbs v w in
    let! v := asRealOr (ctoken eps) (wRel w) in
    let! w := setRel v w in
    let! c := getRaw p FLOAT_ABSOLUTE_TOLERANCE in
    let! v := asRealOr (ctoken c) (wAbs w) in
    let! w := setAbs v w in
    let! c := getRaw p FLOAT_RELATIVE_TOLERANCE in
    let! v := asRealOr (ctoken c) (wRel w) in
    let! w := setRel v w in
    let! c := getRaw p SPACE_SENSITIVE in
    let! w := (if cfound c then setSpace true w else Ok w) in
    let! c := getRaw p CASE_SENSITIVE in
    let! w := (if cfound c then setCase true w else Ok w) in
    Ok (p, setInit w).

  (* 2862-2866  initConstraints: the file of the constraints *)
  Definition initConstraints (p : parser) : outcome (option str) :=
    let! c := getCommand p CONSTRAINT_COMMAND in
    if cfound c then let! f := asString (ctoken c) in Ok (Some f) else Ok None.

  (* file contents by path; can dir / name be opened for writing? *)
  Variable files : str -> option (list Z).
  Variable writable : str -> str -> bool.

  (* a stream: its settings and what is left to read *)
  Definition stream : Type := (cfg * list Z)%type.
  (* 2277-2294 *)
  Definition openFile (path : str) (c : cfg) : outcome stream :=
    match files path with Some b => Ok (c, b) | None => Throw end.
  (* 253-256 *)
  Definition openMessage (dir name : str) : outcome unit := judgeAssert (writable dir name).

  Record streams : Type := mkStreams {
    sWorld : world;
    sTest : stream;
    sJury : option stream;   (* juryAns *)
    sTeam : option stream;   (* ans, teamAns, fromTeam *)
    sConstraints : option str
  }.

  (* 2878-2887  InputValidator::init *)
  Definition initInput (argv : list str) (stdin : list Z) (w : world) : outcome streams :=
    let! w := setSpace true w in
    let! w := setCase true w in
    let! (p, w) := init argv w in
    let test := (mkCfg (wSpace w) (wCase w) WA (wAbs w) (wRel w), stdin) in
    let! c := initConstraints p in
    Ok (mkStreams w test None None c).
  (* 2900-2910  AnswerValidator::init *)
  Definition initAnswer (argv : list str) (stdin : list Z) (w : world) : outcome streams :=
    let! w := setSpace true w in
    let! w := setCase true w in
    let! (p, w) := init argv w in
    let! path := rawAt p 1 in
    let! test := openFile path (mkCfg false (wCase w) FAIL DEFAULT_EPS DEFAULT_EPS) in
    let ans := (mkCfg (wSpace w) (wCase w) WA DEFAULT_EPS DEFAULT_EPS, stdin) in
    let! c := initConstraints p in
    Ok (mkStreams w test None (Some ans) c).
  (* 2925-2934  OutputValidator::init *)
  Definition initOutput (argv : list str) (stdin : list Z) (w : world) : outcome streams :=
    let! (p, w) := init argv w in
    let! dir := rawAt p 3 in
    let! _ := openMessage dir JUDGE_MESSAGE in
    let! _ := openMessage dir TEAM_MESSAGE in
    let! path := rawAt p 1 in
    let! test := openFile path (mkCfg false (wCase w) FAIL DEFAULT_EPS DEFAULT_EPS) in
    let! path := rawAt p 2 in
    let! jury := openFile path (mkCfg false (wCase w) FAIL DEFAULT_EPS DEFAULT_EPS) in
    let team := (mkCfg (wSpace w) (wCase w) WA DEFAULT_EPS DEFAULT_EPS, stdin) in
    let! c := initConstraints p in
    Ok (mkStreams w test (Some jury) (Some team) c).
  (* 2948-2956  Interactor::init *)
  Definition initInteractor (argv : list str) (stdin : list Z) (w : world) : outcome streams :=
    let! (p, w) := init argv w in
    let! dir := rawAt p 3 in
    let! _ := openMessage dir JUDGE_MESSAGE in
    let! _ := openMessage dir TEAM_MESSAGE in
    let! path := rawAt p 1 in
    let! test := openFile path (mkCfg false (wCase w) FAIL DEFAULT_EPS DEFAULT_EPS) in
    let team := (mkCfg (wSpace w) (wCase w) WA DEFAULT_EPS DEFAULT_EPS, stdin) in
    Ok (mkStreams w test None (Some team) None).
  (* 3018-3022  Generator::init *)
  Definition initGenerator (argv : list str) (w : world) : outcome world :=
    let! (p, w) := init argv w in Ok w.

  (* 2809-2828  floatEqual, floatLess and floatGreater with the tolerances of the settings *)
  Definition settingsEqual (w : world) (given expected : real) : outcome bool := floatEqual given expected (wAbs w) (wRel w).
  Definition floatLess (given expected abs rel : real) : outcome bool :=
    if SFleb given expected then Ok true else floatEqual given expected abs rel.
  Definition floatGreater (given expected abs rel : real) : outcome bool :=
    if SFleb expected given then Ok true else floatEqual given expected abs rel.
End Init.
