(* What the command line flags mean. *)
From Coq Require Import String Ascii.
From Verif Require Import Base FloatModel ArgsSpec ArgsClient InitModel.

Definition text (s : String.string) : list Z := map (fun c => Z.of_nat (nat_of_ascii c)) (list_ascii_of_string s).

(* the flag is followed by the argument s; it is missing or the last argument *)
Definition flagged (args : list (list Z)) (name s : list Z) : Prop := exists ps, afterFirst args name (s :: ps).
Definition unflagged (args : list (list Z)) (name : list Z) : Prop := ~ In name args \/ afterFirst args name [].
(* the tolerance v: the own flag, otherwise the common flag, otherwise the value before *)
Definition toleranceOf (parse : list Z -> option real) (args : list (list Z)) (own : list Z) (before v : real) : Prop :=
  (exists s, flagged args own s /\ parse s = Some v) \/
  (unflagged args own /\ exists s, flagged args (text "float_tolerance") s /\ parse s = Some v) \/
  (unflagged args own /\ unflagged args (text "float_tolerance") /\ v = before).
(* the command --seed has an integer, the flags for tolerances are followed by numbers *)
Definition seedOk (args : list (list Z)) : Prop :=
  forall ps, groupOf args (text "--seed") ps -> exists s ps' v, ps = s :: ps' /\ integerArg s v.
Definition tolerancesOk (parse : list Z -> option real) (args : list (list Z)) : Prop :=
  forall name s, In name [text "float_tolerance"; text "float_absolute_tolerance"; text "float_relative_tolerance"] ->
    flagged args name s -> exists v, parse s = Some v.

(* the state of the engine after init *)
Definition seedOf (args : list (list Z)) (before after : option Z) : Prop :=
  (exists s ps v, groupOf args (text "--seed") (s :: ps) /\ integerArg s v /\ after = Some (v mod 2 ^ 64)) \/
  ((forall ps, ~ groupOf args (text "--seed") ps) /\ after = before).
(* init is possible; what it makes of the settings *)
Definition ready (parse : list Z -> option real) (args : list (list Z)) (w : world) : Prop :=
  wInit w = false /\ ~ dupCommand args /\ seedOk args /\ tolerancesOk parse args.
Definition configured (parse : list Z -> option real) (args : list (list Z)) (w w' : world) : Prop :=
  toleranceOf parse args (text "float_absolute_tolerance") (wAbs w) (wAbs w') /\
  toleranceOf parse args (text "float_relative_tolerance") (wRel w) (wRel w') /\
  (wSpace w' = true <-> wSpace w = true \/ In (text "space_change_sensitive") args) /\
  (wCase w' = true <-> wCase w = true \/ In (text "case_sensitive") args) /\
  wInit w' = true /\ seedOf args (wSeed w) (wSeed w').
(* both sensitivities switched on *)
Definition strictWorld (w : world) : world := mkWorld (wAbs w) (wRel w) true true (wInit w) (wSeed w).
(* the command --constraints_file has an argument *)
Definition constraintsOk (args : list (list Z)) : Prop :=
  forall ps, groupOf args (text "--constraints_file") ps -> ps <> [].
Definition constraintsOf (args : list (list Z)) (o : option (list Z)) : Prop :=
  (exists f ps, groupOf args (text "--constraints_file") (f :: ps) /\ o = Some f) \/
  ((forall ps, ~ groupOf args (text "--constraints_file") ps) /\ o = None).
(* the i-th argument names a readable file; both messages can be written to the third *)
Definition fileAt (files : list Z -> option (list Z)) (args : list (list Z)) (i : nat) (b : list Z) : Prop :=
  exists path, nth_error args i = Some path /\ files path = Some b.
Definition messagesOk (writable : list Z -> list Z -> bool) (args : list (list Z)) : Prop :=
  exists dir, nth_error args 3 = Some dir /\ writable dir (text "judgemessage.txt") = true /\ writable dir (text "teammessage.txt") = true.
