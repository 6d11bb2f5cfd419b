(* What the command line means. *)
From Verif Require Import Base InputSpec.

(* a command: two dashes and at least one further character *)
Definition isCmd (a : list Z) : Prop := exists x l, a = 45 :: 45 :: x :: l.

(* ps are the arguments between the command c and the next command *)
Definition groupOf (args : list (list Z)) (c : list Z) (ps : list (list Z)) : Prop :=
  exists pre post, args = pre ++ c :: ps ++ post /\ isCmd c /\ Forall (fun a => ~ isCmd a) ps /\
    match post with [] => True | d :: _ => isCmd d end.

(* ps are the arguments after the first t *)
Definition afterFirst (args : list (list Z)) (t : list Z) (ps : list (list Z)) : Prop :=
  exists pre, args = pre ++ t :: ps /\ ~ In t pre.

(* an integer parameter: optional plus, optional minus, digits *)
Definition integerArg (s : list Z) (v : Z) : Prop :=
  exists plus neg ds, Forall digit ds /\ ds <> [] /\
    s = (if plus : bool then [43] else []) ++ optMinus neg ++ showDigits ds /\
    v = (if neg then - value ds else value ds) /\ is_i64 v.
