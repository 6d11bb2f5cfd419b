(* Properties of the command line arguments. *)
From Verif Require Import Base InputSpec ArgsModel ArgsSpec ArgsClient ArgsProofs.
Open Scope Z_scope.

(* ---- C30 ---- *)
(* the constructor throws exactly when some command is given twice, and never fails otherwise *)
Theorem C30_parser : forall args,
  (dupCommand args /\ commandParser args = Throw) \/
  (~ dupCommand args /\ exists p, commandParser args = Ok p).
Proof. exact parser_total. Qed.
Print Assumptions C30_parser.
(* --n 5 -7 x --seed --n: "--n" twice *)
Example C30_parser_ex :
  commandParser [[45;45;110]; [53]; [45;55]; [120]; [45;45;115;101;101;100]; [45;45;110]] = Throw /\
  dupCommand [[45;45;110]; [53]; [45;55]; [120]; [45;45;115;101;101;100]; [45;45;110]] /\
  exists p, commandParser [[45;45;110]; [53]; [45;55]; [120]; [45;45;115;101;101;100]; [45;45]] = Ok p.
Proof.
  split; [reflexivity|]. split; [|eexists; reflexivity].
  exists [45;45;110], [], [[53]; [45;55]; [120]; [45;45;115;101;101;100]], []. split; [exists 110, []; reflexivity|reflexivity].
Qed.

(* arguments[c] for a given command: exactly the arguments up to the next command *)
Theorem C30_command : forall args p c ps, commandParser args = Ok p -> token c -> groupOf args c ps ->
  exists cmd, getCommand p c = Ok cmd /\ cfound cmd = true /\ shows cmd ps.
Proof. exact getCommand_found. Qed.
Print Assumptions C30_command.
Theorem C30_command_group : forall args c, In c args -> isCmd c -> exists ps, groupOf args c ps.
Proof. exact group_exists. Qed.
Print Assumptions C30_command_group.
(* --n 5 -7 x --seed: "--n" has the parameters 5 -7 x, "--seed" none *)
Example C30_command_ex :
  (let! p := commandParser [[112]; [45;45;110]; [53]; [45;55]; [120]; [45;45;115;101;101;100]] in
   let! c := getCommand p [45;45;110] in
   let! d := getCommand p [45;45;115;101;101;100] in
   let! l := asStrings c None in
   let! m := asStrings d None in
   Ok (cfound c, l, cfound d, m)) = Ok (true, [[53]; [45;55]; [120]], true, []) /\
  groupOf [[112]; [45;45;110]; [53]; [45;55]; [120]; [45;45;115;101;101;100]] [45;45;110] [[53]; [45;55]; [120]].
Proof.
  split; [reflexivity|]. exists [[112]], [[45;45;115;101;101;100]].
  split; [reflexivity|]. split; [exists 110, []; reflexivity|]. split; [|exists 115, [101;101;100]; reflexivity].
  repeat constructor; intros (x & l & H); discriminate.
Qed.

(* arguments[c] for anything else is a command that was not found, without parameters *)
Theorem C30_command_absent : forall args p c, commandParser args = Ok p -> token c -> ~ (isCmd c /\ In c args) ->
  exists cmd, getCommand p c = Ok cmd /\ cfound cmd = false /\ shows cmd [].
Proof. exact getCommand_absent. Qed.
Print Assumptions C30_command_absent.
(* a query that is not a token throws *)
Theorem C30_command_throws : forall p c, ~ token c -> getCommand p c = Throw.
Proof. exact getCommand_throws. Qed.
Print Assumptions C30_command_throws.
(* "p" is an argument but no command *)
Example C30_command_absent_ex :
  (let! p := commandParser [[112]; [45;45;110]; [53]] in
   let! c := getCommand p [112] in
   let! d := getCommand p [45;45;109] in
   Ok (cfound c, cfound d, asStrings c None)) = Ok (false, false, Ok []) /\
  (let! p := commandParser [[112]; [45;45;110]; [53]] in getCommand p [45;45;32]) = Throw.
Proof. split; reflexivity. Qed.

(* getRaw(t): everything behind the first t; getRaw(): everything *)
Theorem C30_raw : forall args p t ps, commandParser args = Ok p -> token t -> afterFirst args t ps ->
  exists cmd, getRaw p t = Ok cmd /\ cfound cmd = true /\ shows cmd ps.
Proof. exact getRaw_found. Qed.
Print Assumptions C30_raw.
Theorem C30_raw_after : forall args t, In t args -> exists ps, afterFirst args t ps.
Proof. exact afterFirst_exists. Qed.
Print Assumptions C30_raw_after.
Theorem C30_raw_absent : forall args p t, commandParser args = Ok p -> token t -> ~ In t args ->
  exists cmd, getRaw p t = Ok cmd /\ cfound cmd = false /\ shows cmd [].
Proof. exact getRaw_absent. Qed.
Print Assumptions C30_raw_absent.
Theorem C30_raw_all : forall args p, commandParser args = Ok p ->
  exists cmd, getRawAll p = Ok cmd /\ cfound cmd = true /\ shows cmd args.
Proof. exact getRawAll_shows. Qed.
Print Assumptions C30_raw_all.
(* a b --n a 3: behind the first "a" *)
Example C30_raw_ex :
  (let! p := commandParser [[97]; [98]; [45;45;110]; [97]; [51]] in
   let! c := getRaw p [97] in
   let! d := getRaw p [45;45;110] in
   let! l := asStrings c None in
   let! m := asStrings d None in
   Ok (l, m)) = Ok ([[98]; [45;45;110]; [97]; [51]], [[97]; [51]]) /\
  afterFirst [[97]; [98]; [45;45;110]; [97]; [51]] [97] [[98]; [45;45;110]; [97]; [51]].
Proof. split; [reflexivity|]. exists []. split; [reflexivity|intros []]. Qed.

(* operator[](i) *)
Theorem C30_index : forall args p i, commandParser args = Ok p ->
  rawAt p i = match (if 0 <=? i then nth_error args (Z.to_nat i) else None) with Some s => Ok s | None => Throw end.
Proof. exact rawAt_spec. Qed.
Print Assumptions C30_index.
Example C30_index_ex :
  (let! p := commandParser [[97]; [45;45;110]; [51]] in rawAt p 2) = Ok [51] /\
  (let! p := commandParser [[97]; [45;45;110]; [51]] in rawAt p 3) = Throw /\
  (let! p := commandParser [[97]; [45;45;110]; [51]] in rawAt p (-1)) = Throw.
Proof. repeat split; reflexivity. Qed.

(* the integer value of a parameter: optional plus sign, then an int64 in decimal notation *)
Theorem C30_integer : forall s v, parseArg s = Ok v <-> integerArg s v.
Proof. exact parseArg_iff. Qed.
Print Assumptions C30_integer.
Theorem C30_integer_throws : forall s, (forall v, ~ integerArg s v) -> parseArg s = Throw.
Proof. exact parseArg_throw. Qed.
Print Assumptions C30_integer_throws.
Theorem C30_integer_default : forall c ps d v, shows c ps ->
  (asIntegerOr (ctoken c) d = Ok v <-> match ps with [] => v = d | s :: _ => integerArg s v end).
Proof. exact asIntegerOr_iff. Qed.
Print Assumptions C30_integer_default.
Theorem C30_integers : forall c ps vs, shows c ps -> (asIntegers c None = Ok vs <-> Forall2 integerArg ps vs).
Proof. exact asIntegers_iff. Qed.
Print Assumptions C30_integers.
Example C30_integer_ex :
  parseArg [43;52;50] = Ok 42 /\ parseArg [45;55] = Ok (-7) /\ parseArg [55;32] = Throw /\
  parseArg [57;50;50;51;51;55;50;48;51;54;56;53;52;55;55;53;56;48;56] = Throw /\
  (let! p := commandParser [[45;45;110]; [53]; [45;55]; [45;45;109]] in
   let! c := getCommand p [45;45;110] in
   let! d := getCommand p [45;45;109] in
   let! l := asIntegers c None in
   let! a := asIntegerOr (ctoken c) 9 in
   let! b := asIntegerOr (ctoken d) 9 in
   Ok (l, a, b)) = Ok ([5; -7], 5, 9).
Proof. repeat split; reflexivity. Qed.
