(* C82: the validators and interactors of the examples. *)
From Coq Require Import String.
From Verif Require Import Base FloatModel InputSpec InputModel ArgsModel InitModel InitSpec ExampleModel ExampleSpec ExampleProofs ExampleProofs2 ExampleProofs3 GraphSpec.
From Verif Require PassModel InitProps.
Open Scope Z_scope.

Theorem C82_input : forall parse args stdin c, inputMain parse args stdin = Code c <->
  ready parse args start /\ constraintsOk args /\ ((c = 42 /\ inputAccepts stdin) \/ (c = 43 /\ ~ inputAccepts stdin)).
Proof. exact inputMain_code. Qed.
Print Assumptions C82_input.
Theorem C82_graph : forall parse args stdin c, graphMain parse args stdin = Code c <->
  ready parse args start /\ constraintsOk args /\ ((c = 42 /\ treeFile stdin) \/ (c = 43 /\ ~ treeFile stdin)).
Proof. exact graphMain_code. Qed.
Print Assumptions C82_graph.
(* WTF, trees are always bipartite?! *)
Theorem C82_trees_bipartite : forall es, acyclic es -> twoColourable es.
Proof. exact acyclic_colour. Qed.
Print Assumptions C82_trees_bipartite.
Theorem C82_trees_edges : forall lo n es, 1 <= n -> edgesIn lo (lo + n) es -> connectedGraph lo (lo + n) es -> acyclic es -> alen es = n - 1.
Proof. exact tree_count. Qed.
Print Assumptions C82_trees_edges.
(* no separator is read, so nothing is accepted *)
Theorem C82_constraints : forall parse args stdin c, constraintsMain parse args stdin = Code c <->
  ready parse args start /\ constraintsOk args /\ c = 43.
Proof. exact constraintsMain_code. Qed.
Print Assumptions C82_constraints.
Theorem C82_answer : forall parse files args stdin c, answerMain parse files args stdin = Code c <->
  exists tb, ready parse args start /\ constraintsOk args /\ fileAt files args 1 tb /\
    ((c = 1 /\ forall t, ~ firstInteger false tb t) \/
     exists t, firstInteger false tb t /\ 0 <= t /\ ((c = 42 /\ answerAccepts t stdin) \/ (c = 43 /\ ~ answerAccepts t stdin))).
Proof. exact answerMain_Ok. Qed.
Print Assumptions C82_answer.
Theorem C82_output : forall parse files writable args stdin b cs c,
  (b = true <-> In (text "space_change_sensitive") args) -> (cs = true <-> In (text "case_sensitive") args) ->
  (outputMain parse files writable args stdin = Code c <->
   exists tb jb, ready parse args start /\ constraintsOk args /\ messagesOk writable args /\ fileAt files args 1 tb /\ fileAt files args 2 jb /\
     ((c = 42 /\ outputAccepts b cs tb jb stdin) \/ (c = 1 /\ outputFails cs tb jb) \/
      (c = 43 /\ ~ outputAccepts b cs tb jb stdin /\ ~ outputFails cs tb jb /\ ~ outputUndefined b cs tb jb stdin))).
Proof. exact outputMain_Ok. Qed.
Print Assumptions C82_output.
(* 2 * ans overflows: no verdict *)
Definition disk (path : list Z) : option (list Z) :=
  if list_eq_dec Z.eq_dec path (text "1.in") then Some (text "4") else
  if list_eq_dec Z.eq_dec path (text "1.ans") then Some (text "2") else None.
Definition line : list (list Z) := [text "./validator"; text "1.in"; text "1.ans"; text "feedback"].
Theorem C82_output_overflow_refuted : exists parse files writable args stdin, ready parse args start /\ constraintsOk args /\ messagesOk writable args /\
  fileAt files args 1 (text "4") /\ fileAt files args 2 (text "2") /\ outputMain parse files writable args stdin = Undefined.
Proof.
  exists (fun _ => None), disk, (fun _ _ => true), line, (text "9223372036854775807").
  destruct (InitProofs.initOutput_cases (fun _ => None) disk (fun _ _ => true) line (text "9223372036854775807") start) as [(tb & jb & R & K & M & F1 & F2 & _)|(_ & E)].
  - repeat (split; [assumption|]). split; [exists (text "1.in"); split; reflexivity|]. split; [exists (text "1.ans"); split; reflexivity|]. vm_compute. reflexivity.
  - exfalso. revert E. vm_compute. discriminate.
Qed.
Print Assumptions C82_output_overflow_refuted.
(* a correct jury answer makes every correct answer fail with a judge error *)
Theorem C82_output2_yes : forall cs cj cm bj bm, spaceSensitive cj = false -> caseSensitive cj = cs -> caseSensitive cm = cs -> onFail cj = 1 -> onFail cm = 43 ->
  forall j s, wordsOf bj [j; s] -> same cs j (text "Yes") -> decimalOf s 6 ->
  let x := output2Body cs (cj, bj) (cm, bm) in (x = Code 1 \/ x = Code 43) /\
  (spaceSensitive cm = false -> (x = Code 1 <-> exists w, firstWord false bm w /\ same cs w (text "Yes"))).
Proof. exact output2_yes. Qed.
Print Assumptions C82_output2_yes.
Theorem C82_output2_no : forall cs cj cm bj bm, spaceSensitive cj = false -> caseSensitive cj = cs -> caseSensitive cm = cs -> onFail cj = 1 -> onFail cm = 43 ->
  forall j, wordsOf bj [j] -> same cs j (text "No") -> spaceSensitive cm = false ->
  let x := output2Body cs (cj, bj) (cm, bm) in
  (x = Code 42 <-> exists w, onlyWord false bm w /\ same cs w (text "No")) /\
  (x = Code 1 <-> exists w, firstWord false bm w /\ same cs w (text "Yes")) /\ (x = Code 42 \/ x = Code 1 \/ x = Code 43).
Proof. exact output2_no. Qed.
Print Assumptions C82_output2_no.
(* the team gets n; for odd n no answer is accepted *)
Theorem C82_interactor : forall ct bt cm bm, spaceSensitive ct = false -> onFail ct = 1 -> onFail cm = 43 ->
  (exists n, firstInteger false bt n /\ fst (interactorBody (ct, bt) (cm, bm)) = PassModel.showInteger n ++ [10] /\
     let x := snd (interactorBody (ct, bt) (cm, bm)) in let b := spaceSensitive cm in
     (Z.even n = true -> (x = Code 42 \/ x = Code 43) /\ (x = Code 42 <-> exists w, onlyWord b bm w /\ same (caseSensitive cm) w impossible)) /\
     (Z.odd n = true -> (x = Code 43 \/ x = Undefined) /\ (x = Undefined <-> overflows b bm))) \/
  ((forall n, ~ firstInteger false bt n) /\ interactorBody (ct, bt) (cm, bm) = ([], Code 1)).
Proof. exact interactor_cases. Qed.
Print Assumptions C82_interactor.
Theorem C82_interactor_odd_refuted : exists n, Z.odd n = true /\ forall ct cm bm, spaceSensitive ct = false -> onFail ct = 1 -> onFail cm = 43 ->
  snd (interactorBody (ct, PassModel.showInteger n) (cm, bm)) <> Code 42.
Proof. exact interactor_odd. Qed.
Print Assumptions C82_interactor_odd_refuted.
Theorem C82_multipass : forall ct cm d test team n a, d ".pass"%string = None -> firstInteger (spaceSensitive ct) test n -> firstInteger (spaceSensitive cm) team a ->
  exists d1 next, multipassRun ct cm d test team = Ok (PassModel.showInteger n ++ [10], Code 42, d1) /\ d1 "nextpass.in"%string = Some next /\
    forall ct' cm' d1' team', (forall f, f <> "nextpass.in"%string -> d1' f = d1 f) -> onFail cm' = 43 ->
    exists d2, (firstInteger (spaceSensitive cm') team' a /\ multipassRun ct' cm' d1' next team' = Ok (PassModel.showInteger n ++ [10], Code 42, d2)) \/
      (~ firstInteger (spaceSensitive cm') team' a /\ multipassRun ct' cm' d1' next team' = Ok (PassModel.showInteger n ++ [10], Code 43, d2)).
Proof. exact two_passes. Qed.
Print Assumptions C82_multipass.

Definition nl : list Z := [10].
Definition noReal (_ : list Z) : option real := None.
Definition prog : list (list Z) := [text "./validator"].
Example C82_ex_input : inputMain noReal prog (text "ab cdefg" ++ nl ++ text "6" ++ nl) = Code 42 /\ inputMain noReal prog (text "ab cdefgh i" ++ nl ++ text "6" ++ nl) = Code 43 /\
  inputMain noReal prog (text "ab cdefg" ++ nl ++ text "7" ++ nl) = Code 43 /\ inputMain noReal prog (text "ab cdefg" ++ nl ++ text "6") = Code 43 /\
  inputMain noReal [text "./validator"; text "--seed"; text "x"] (text "ab cdefg" ++ nl ++ text "6" ++ nl) = Thrown.
Proof. vm_compute. auto. Qed.
Definition tree : list Z := text "4 3" ++ nl ++ text "1 2" ++ nl ++ text "4 2" ++ nl ++ text "2 3" ++ nl.
Example C82_ex_graph : graphMain noReal prog tree = Code 42 /\
  graphMain noReal prog (text "4 3" ++ nl ++ text "1 2" ++ nl ++ text "4 2" ++ nl ++ text "4 1" ++ nl) = Code 43 /\
  graphMain noReal prog (text "2 2" ++ nl ++ text "1 2" ++ nl ++ text "2 1" ++ nl) = Code 43 /\
  graphMain noReal prog (text "4 3" ++ nl ++ text "1 2" ++ nl ++ text "4 2" ++ nl ++ text "2 5" ++ nl) = Code 43.
Proof. vm_compute. auto. Qed.
Example C82_ex_constraints : constraintsMain noReal prog (text "2 5 7") = Code 43 /\ constraintsMain noReal prog (text "1 5") = Code 43.
Proof. vm_compute. auto. Qed.
Example C82_ex_answer : answerMain noReal (fun p => if list_eq_dec Z.eq_dec p (text "1.in") then Some (text "2") else None) line (text "5" ++ nl ++ text "99" ++ nl) = Code 42 /\
  answerMain noReal (fun p => if list_eq_dec Z.eq_dec p (text "1.in") then Some (text "2") else None) line (text "5" ++ nl ++ text "100" ++ nl) = Code 43 /\
  answerMain noReal (fun p => if list_eq_dec Z.eq_dec p (text "1.in") then Some (text "x") else None) line (text "5" ++ nl) = Code 1.
Proof. vm_compute. auto. Qed.
Example C82_ex_output : outputMain noReal disk (fun _ _ => true) line (text "2") = Code 42 /\ outputMain noReal disk (fun _ _ => true) line (text "3") = Code 43 /\
  outputMain noReal disk (fun _ _ => true) (line ++ [text "space_change_sensitive"]) (text "2") = Code 43 /\
  outputMain noReal disk (fun _ _ => true) (line ++ [text "space_change_sensitive"]) (text "2" ++ nl) = Code 42.
Proof. vm_compute. auto. Qed.
Definition judge : cfg := mkCfg false false 1 DEFAULT_EPS DEFAULT_EPS.
Definition team : cfg := mkCfg false false 43 DEFAULT_EPS DEFAULT_EPS.
Example C82_ex_output2 : output2Body false (judge, text "Yes 6") (team, text "yes 6") = Code 1 /\ output2Body false (judge, text "Yes 6") (team, text "No") = Code 43 /\
  output2Body false (judge, text "No") (team, text "NO ") = Code 42 /\ output2Body false (judge, text "No") (team, text "no 6") = Code 43 /\
  (* only a jury answer with two solutions lets a team pass, which then must not print its own *)
  output2Body false (judge, text "Yes 6 6") (team, text "yes") = Code 42.
Proof. vm_compute. auto. Qed.
Example C82_ex_interactor : interactorBody (judge, text "4") (team, text "Impossible") = (text "4" ++ nl, Code 42) /\ interactorBody (judge, text "4") (team, text "2") = (text "4" ++ nl, Code 43) /\
  interactorBody (judge, text "3") (team, text "impossible") = (text "3" ++ nl, Code 43) /\ interactorBody (judge, text "3") (team, text "9223372036854775807") = (text "3" ++ nl, Undefined).
Proof. vm_compute. auto. Qed.
Example C82_ex_multipass : exists d1 d2 d3, multipassRun judge team (fun _ => None) (text "8") (text "5") = Ok (text "8" ++ nl, Code 42, d1) /\ d1 "nextpass.in"%string = Some (text "8" ++ nl) /\
  multipassRun judge team d1 (text "8" ++ nl) (text "5") = Ok (text "8" ++ nl, Code 42, d2) /\ multipassRun judge team d1 (text "8" ++ nl) (text "6") = Ok (text "8" ++ nl, Code 43, d3).
Proof. eexists. eexists. eexists. repeat split; vm_compute; reflexivity. Qed.
