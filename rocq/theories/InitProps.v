(* C81: settings and init. *)
From Coq Require Import String.
From Verif Require Import Base FloatModel InputModel InputProofs3 FloatSpec RealSpec ArgsModel ArgsSpec ArgsClient InitModel InitSpec InitProofs.
From Coq Require Import QArith Qabs ZArith SpecFloat.
Open Scope Z_scope.

Theorem C81_init : forall parse args w,
  (ready parse args w /\ exists p w', init parse args w = Ok (p, w') /\ commandParser args = Ok p /\ configured parse args w w') \/
  (~ ready parse args w /\ init parse args w = Throw).
Proof. exact init_two. Qed.
Print Assumptions C81_init.
Theorem C81_tolerance_unique : forall parse args own before v v',
  toleranceOf parse args own before v -> toleranceOf parse args own before v' -> v = v'.
Proof. exact toleranceOf_unique. Qed.
Print Assumptions C81_tolerance_unique.
Theorem C81_settings_before : forall w, wInit w = false ->
  (forall v, exists w', setAbs v w = Ok w' /\ wAbs w' = v /\ wRel w' = wRel w /\ wSpace w' = wSpace w /\ wCase w' = wCase w /\ wInit w' = false /\ wSeed w' = wSeed w) /\
  (forall v, exists w', setRel v w = Ok w' /\ wRel w' = v /\ wAbs w' = wAbs w /\ wSpace w' = wSpace w /\ wCase w' = wCase w /\ wInit w' = false /\ wSeed w' = wSeed w) /\
  (forall v, exists w', setSpace v w = Ok w' /\ wSpace w' = v /\ wAbs w' = wAbs w /\ wRel w' = wRel w /\ wCase w' = wCase w /\ wInit w' = false /\ wSeed w' = wSeed w) /\
  (forall v, exists w', setCase v w = Ok w' /\ wCase w' = v /\ wAbs w' = wAbs w /\ wRel w' = wRel w /\ wSpace w' = wSpace w /\ wInit w' = false /\ wSeed w' = wSeed w).
Proof. exact thawed. Qed.
Print Assumptions C81_settings_before.
Theorem C81_settings_after : forall w, wInit w = true ->
  (forall v, setAbs v w = Throw) /\ (forall v, setRel v w = Throw) /\ (forall b, setSpace b w = Throw) /\ (forall b, setCase b w = Throw) /\
  forall parse args, init parse args w = Throw.
Proof. exact frozen. Qed.
Print Assumptions C81_settings_after.

Theorem C81_input_validator : forall parse args stdin w, let w0 := strictWorld w in
  (ready parse args w0 /\ constraintsOk args /\
   exists s, initInput parse args stdin w = Ok s /\ configured parse args w0 (sWorld s) /\ constraintsOf args (sConstraints s) /\
     sTest s = (mkCfg true true 43 (wAbs (sWorld s)) (wRel (sWorld s)), stdin) /\ sJury s = None /\ sTeam s = None) \/
  (~ (ready parse args w0 /\ constraintsOk args) /\ initInput parse args stdin w = Throw).
Proof. exact initInput_cases. Qed.
Print Assumptions C81_input_validator.
Theorem C81_answer_validator : forall parse files args stdin w, let w0 := strictWorld w in
  (exists tb, ready parse args w0 /\ constraintsOk args /\ fileAt files args 1 tb /\
   exists s, initAnswer parse files args stdin w = Ok s /\ configured parse args w0 (sWorld s) /\ constraintsOf args (sConstraints s) /\
     sTest s = (mkCfg false true 1 DEFAULT_EPS DEFAULT_EPS, tb) /\ sJury s = None /\
     sTeam s = Some (mkCfg true true 43 DEFAULT_EPS DEFAULT_EPS, stdin)) \/
  ((forall tb, ~ (ready parse args w0 /\ constraintsOk args /\ fileAt files args 1 tb)) /\ initAnswer parse files args stdin w = Throw).
Proof. exact initAnswer_cases. Qed.
Print Assumptions C81_answer_validator.
Theorem C81_output_validator : forall parse files writable args stdin w,
  (exists tb jb, ready parse args w /\ constraintsOk args /\ messagesOk writable args /\ fileAt files args 1 tb /\ fileAt files args 2 jb /\
   exists s, initOutput parse files writable args stdin w = Ok s /\ configured parse args w (sWorld s) /\ constraintsOf args (sConstraints s) /\
     sTest s = (mkCfg false (wCase (sWorld s)) 1 DEFAULT_EPS DEFAULT_EPS, tb) /\
     sJury s = Some (mkCfg false (wCase (sWorld s)) 1 DEFAULT_EPS DEFAULT_EPS, jb) /\
     sTeam s = Some (mkCfg (wSpace (sWorld s)) (wCase (sWorld s)) 43 DEFAULT_EPS DEFAULT_EPS, stdin)) \/
  ((forall tb jb, ~ (ready parse args w /\ constraintsOk args /\ messagesOk writable args /\ fileAt files args 1 tb /\ fileAt files args 2 jb)) /\
   initOutput parse files writable args stdin w = Throw).
Proof. exact initOutput_cases. Qed.
Print Assumptions C81_output_validator.
Theorem C81_interactor : forall parse files writable args stdin w,
  (exists tb, ready parse args w /\ messagesOk writable args /\ fileAt files args 1 tb /\
   exists s, initInteractor parse files writable args stdin w = Ok s /\ configured parse args w (sWorld s) /\ sConstraints s = None /\
     sTest s = (mkCfg false (wCase (sWorld s)) 1 DEFAULT_EPS DEFAULT_EPS, tb) /\ sJury s = None /\
     sTeam s = Some (mkCfg (wSpace (sWorld s)) (wCase (sWorld s)) 43 DEFAULT_EPS DEFAULT_EPS, stdin)) \/
  ((forall tb, ~ (ready parse args w /\ messagesOk writable args /\ fileAt files args 1 tb)) /\ initInteractor parse files writable args stdin w = Throw).
Proof. exact initInteractor_cases. Qed.
Print Assumptions C81_interactor.

(* DEFAULT_EPS is the number next to 10^-6 *)
Theorem C81_default : number DEFAULT_EPS /\ (Qabs (val DEFAULT_EPS - (1 # 1000000)) < two (-84))%Q.
Proof. vm_compute. repeat split; reflexivity. Qed.
Print Assumptions C81_default.

(* The tolerances of the command line do not reach the stream of the submission. *)
Definition half : real := S754_finite false 0x8000000000000000 (-64).
Definition onlyHalf (s : list Z) : option real := if list_eq_dec Z.eq_dec s (text "0.5") then Some half else None.
Definition disk (path : list Z) : option (list Z) :=
  if list_eq_dec Z.eq_dec path (text "1.in") then Some (text "1 2") else
  if list_eq_dec Z.eq_dec path (text "1.ans") then Some (text "3") else None.
Definition line : list (list Z) := [text "./validator"; text "1.in"; text "1.ans"; text "feedback"; text "float_tolerance"; text "0.5"].
Theorem C81_tolerance_refuted : exists parse files writable args stdin s c b,
  initOutput parse files writable args stdin start = Ok s /\ flagged args (text "float_tolerance") (text "0.5") /\ parse (text "0.5") = Some half /\
  wAbs (sWorld s) = half /\ wRel (sWorld s) = half /\
  sTeam s = Some (c, b) /\ floatAbsTol c <> half /\ floatRelTol c <> half.
Proof.
  exists onlyHalf, disk, (fun _ _ => true), line, (text "3"). eexists. eexists. eexists. split; [vm_compute; reflexivity|].
  split; [exists []; exists [text "./validator"; text "1.in"; text "1.ans"; text "feedback"]; split; [reflexivity|vm_compute; intuition discriminate]|].
  vm_compute. repeat split; discriminate.
Qed.
Print Assumptions C81_tolerance_refuted.

(* a seed, both tolerances, space sensitive; the same with a missing file, a bad tolerance, twice *)
Definition both : list (list Z) := [text "./validator"; text "1.in"; text "1.ans"; text "feedback"; text "float_absolute_tolerance"; text "0.5";
  text "space_change_sensitive"; text "--seed"; text "-1"; text "--constraints_file"; text "c.txt"].
Example C81_ex : exists s, initOutput onlyHalf disk (fun _ _ => true) both (text "3") start = Ok s /\
  sWorld s = mkWorld half DEFAULT_EPS true false true (Some (2 ^ 64 - 1)) /\ sConstraints s = Some (text "c.txt") /\
  sJury s = Some (mkCfg false false 1 DEFAULT_EPS DEFAULT_EPS, text "3") /\
  sTeam s = Some (mkCfg true false 43 DEFAULT_EPS DEFAULT_EPS, text "3") /\
  initOutput onlyHalf (fun _ => None) (fun _ _ => true) both (text "3") start = Throw /\
  initOutput (fun _ => None) disk (fun _ _ => true) both (text "3") start = Throw /\
  initOutput onlyHalf disk (fun _ _ => true) (both ++ [text "--seed"; text "1"]) (text "3") start = Throw /\
  initOutput onlyHalf disk (fun _ _ => true) (firstn 10 both) (text "3") start = Throw /\
  initOutput onlyHalf disk (fun _ _ => true) both (text "3") (sWorld s) = Throw.
Proof. eexists. split; [vm_compute; reflexivity|]. vm_compute. repeat split. Qed.
Example C81_ex_input : exists s, initInput onlyHalf [text "./validator"; text "float_tolerance"; text "0.5"] (text "3") start = Ok s /\
  sTest s = (mkCfg true true 43 half half, text "3").
Proof. eexists. split; vm_compute; reflexivity. Qed.
