(* Model of the validators and interactors in /repo/example, as client programs. Each body is
   main without init(argc, argv): it gets the streams that init made. What is printed to the
   jury or to the team message is left out, what goes to the team is kept. *)
From Coq Require Import String.
From Verif Require Import Base SeqModel RegexModel FloatModel InputModel ArgsModel InitModel.
From Verif Require PassModel GraphModel.
Open Scope Z_scope.

(* how a program ends: exit code, an uncaught exception, undefined behaviour *)
Inductive result : Type := Code (c : Z) | Thrown | Undefined.
(* a read; if it exits the program exits *)
Definition on {A} (m : rd A) (s : list Z) (k : A -> list Z -> result) : result :=
  match m s with Ret a r => k a r | Exit c => Code c | Raise => Thrown end.
Definition started {A} (x : outcome A) (k : A -> result) : result :=
  match x with Ok a => k a | Throw => Thrown | _ => Undefined end.

(* answerValidator.cpp:11-16 *)
Definition answerBody (test ans : stream) : result :=
  let (ct, bt) := test in let (ca, ba) := ans in
  on (integer ct) bt (fun t _ =>
  on (integersIn ca 0 100 t 10) ba (fun _ r =>
  on (newline ca) r (fun _ r =>
  on (eof ca) r (fun _ _ => Code AC)))).
(* answerValidator.cpp:8-17 *)
Definition answerMain (parse : list Z -> option real) (files : str -> option (list Z)) (argv : list str) (stdin : list Z) : result :=
  started (initAnswer parse files argv stdin start) (fun s =>
  match sTeam s with Some a => answerBody (sTest s) a | None => Undefined end).

(* inputValidator.cpp:18-31 *)
Definition inputBody (test : stream) : result :=
  let (c, b) := test in
  on (string c) b (fun _ r =>
  on (space c) r (fun _ r =>
  on (stringLen c 5 7) r (fun _ r =>
  on (newline c) r (fun _ r =>
  on (integerIn c 5 7) r (fun _ r =>
  on (newline c) r (fun _ r =>
  on (eof c) r (fun _ _ => Code AC))))))).
(* inputValidator.cpp:13-35 *)
Definition inputMain (parse : list Z -> option real) (argv : list str) (stdin : list Z) : result :=
  started (initInput parse argv stdin start) (fun s => inputBody (sTest s)).

(* inputValidator.constraints.cpp:10-19; the log does not change what is read (validate.h:2485-2490),
   log(1, 1'000'000'000, "sum") stores the size of "sum" *)
Fixpoint constraintsLoop (c : cfg) (n : nat) (b : list Z) : result :=
  match n with
  | O => Code AC
  | S n => on (integerIn c 1 1000000) b (fun _ r => constraintsLoop c n r)
  end.
Definition constraintsBody (test : stream) : result :=
  let (c, b) := test in
  on (integerIn c 1 100000) b (fun n r => constraintsLoop c (Z.to_nat n) r).

(* inputValidator.graph.cpp:13-26 *)
Fixpoint graphLoop (c : cfg) (n : Z) (k : nat) (g : GraphModel.graph) : rd GraphModel.graph :=
  match k with
  | O => rret g
  | S k =>
    read! a := integerIn c 1 (n + 1) in
    read! _ := space c in
    read! b := integerIn c 1 (n + 1) in
    read! _ := newline c in
    read! g := rlift (GraphModel.addEdge g a b) in
    graphLoop c n k g
  end.
Definition graphRead (c : cfg) : rd GraphModel.graph :=
  read! n := integerIn c 1 100000 in
  read! _ := space c in
  read! m := integerIn c 1 200000 in
  read! _ := newline c in
  read! g := rlift (GraphModel.newGraph 1 (n + 1)) in
  read! g := graphLoop c n (Z.to_nat m) g in
  read! _ := eof c in
  rret g.
(* inputValidator.graph.cpp:28-35 *)
Definition graphBody (test : stream) : result :=
  let (c, b) := test in
  on (graphRead c) b (fun g _ =>
  match GraphModel.hasSelfloop (GraphModel.base g) with Some _ => Code WA | None =>
  match GraphModel.hasMultiedge (GraphModel.base g) with Some _ => Code WA | None =>
  if negb (GraphModel.isConnected g) then Code WA else
  if negb (GraphModel.isTree g) then Code WA else
  if negb (GraphModel.isBipartite g) then Code FAIL else Code AC
  end end).

(* outputValidator.cpp:15-29; cs: the setting caseSensitive, used by stringEqual *)
Definition outputBody (cs : bool) (test jury team : stream) : result :=
  let (ct, bt) := test in let (cj, bj) := jury in let (cm, bm) := team in
  on (string cj) bj (fun j _ =>
  if fst (stringEqual j (chars "impossible") cs) then
    on (expectString cm (chars "impossible")) bm (fun _ r =>
    on (newline cm) r (fun _ r =>
    on (eof cm) r (fun _ _ => Code AC)))
  else
    on (integer ct) bt (fun n _ =>
    on (integer cm) bm (fun ans r =>
    on (newline cm) r (fun _ r =>
    match chk (2 * ans) with
    | Ok d => if negb (d =? n) then Code WA else on (eof cm) r (fun _ _ => Code AC)
    | _ => Undefined
    end)))).
(* outputValidator.cpp:12-30 *)
Definition outputMain (parse : list Z -> option real) (files : str -> option (list Z)) (writable : str -> str -> bool) (argv : list str) (stdin : list Z) : result :=
  started (initOutput parse files writable argv stdin start) (fun s =>
  match sJury s, sTeam s with Some j, Some t => outputBody (wCase (sWorld s)) (sTest s) j t | _, _ => Undefined end).

(* outputValidator2.cpp:19  caseSensitive.regex("Yes|No"), validate.h:2790-2793; with icase, the token is
   in lower case, so the pattern is taken in lower case *)
Definition literal (s : list Z) : re := fold_right (fun c r => RCat (RLit c) r) REps s.
Definition options (cs : bool) : re :=
  if cs then RAlt (literal (chars "Yes")) (literal (chars "No")) else RAlt (literal (chars "yes")) (literal (chars "no")).
(* outputValidator2.cpp:11-13 *)
Definition verify (n : Z) : bool := n =? 6.
(* outputValidator2.cpp:19-50; the semicolon missing in line 46 is added *)
Definition output2Body (cs : bool) (jury team : stream) : result :=
  let (cj, bj) := jury in let (cm, bm) := team in
  let finish (j t : list Z) (rm : list Z) : result :=
    on (eof cm) rm (fun _ _ =>
    if fst (stringEqual j t cs) then Code AC
    else if fst (stringEqual t (chars "Yes") cs) then Code FAIL
    else if fst (stringEqual j (chars "Yes") cs) then Code WA
    else Code FAIL) in
  let teamPart (j t : list Z) (rj rm : list Z) : result :=
    if fst (stringEqual t (chars "Yes") cs) then
      on (integer cj) rj (fun n _ =>
      on (newline cm) rm (fun _ rm =>
      if negb (verify n) then Code WA else finish j t rm))
    else finish j t rm in
  on (stringRe cj (options cs)) bj (fun j rj =>
  on (stringRe cm (options cs)) bm (fun t rm =>
  on (newline cm) rm (fun _ rm =>
  if fst (stringEqual j (chars "Yes") cs) then
    on (integer cj) rj (fun n rj => if negb (verify n) then Code FAIL else teamPart j t rj rm)
  else teamPart j t rj rm))).

(* interactor.cpp:11-29: what the team gets and how the program ends *)
Definition interactorBody (test team : stream) : list Z * result :=
  let (ct, bt) := test in let (cm, bm) := team in
  match integer ct bt with
  | Ret n _ =>
    (PassModel.showInteger n ++ [10],
     if Z.rem n 2 =? 0 then
       on (expectString cm (chars "impossible")) bm (fun _ r =>
       on (newline cm) r (fun _ r =>
       on (eof cm) r (fun _ _ => Code AC)))
     else
       on (integer cm) bm (fun ans r =>
       on (newline cm) r (fun _ r =>
       match chk (2 * ans) with
       | Ok d => if negb (d =? n) then Code WA else on (eof cm) r (fun _ _ => Code AC)
       | _ => Undefined
       end)))
  | Exit c => ([], Code c)
  | Raise => ([], Thrown)
  end.

(* multipassInteractor.cpp:11-34 in the feedback directory d (Multipass::init: PassModel.initPass): what the
   team gets, how the program ends, the directory afterwards. prevstate: validate.h:2987 *)
Definition prevCfg : cfg := mkCfg false true FAIL DEFAULT_EPS DEFAULT_EPS.
Definition multipassRun (ct cm : cfg) (d : PassModel.dir) (test team : list Z) : outcome (list Z * result * PassModel.dir) :=
  let! (pass, prev, d) := PassModel.initPass d in
  Ok match integer ct test with
  | Ret n _ =>
    let shown := PassModel.showInteger n ++ [10] in
    match integer cm team with
    | Ret ans _ =>
      if pass =? 0 then
        let d := PassModel.put d (PassModel.nextFile pass) (PassModel.showInteger ans ++ [10]) in
        (shown, Code AC, PassModel.NEXT d (PassModel.showInteger n ++ [10]))
      else
        (shown, match prev with
                | Some p => on (integer prevCfg) p (fun last _ => if ans =? last then Code AC else Code WA)
                | None => Undefined
                end, d)
    | Exit c => (shown, Code c, d)
    | Raise => (shown, Thrown, d)
    end
  | Exit c => ([], Code c, d)
  | Raise => ([], Thrown, d)
  end.

(* inputValidator.constraints.cpp:8-20, inputValidator.graph.cpp:9-36 *)
Definition constraintsMain (parse : list Z -> option real) (argv : list str) (stdin : list Z) : result :=
  started (initInput parse argv stdin start) (fun s => constraintsBody (sTest s)).
Definition graphMain (parse : list Z -> option real) (argv : list str) (stdin : list Z) : result :=
  started (initInput parse argv stdin start) (fun s => graphBody (sTest s)).
