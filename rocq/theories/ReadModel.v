(* Model of the reads of InputStream that return lists or log what they read, /repo/src/validate.h:2408-2612. The lists of
   strings and integers are in InputModel.v, the log in ConstraintModel.v. *)
From Verif Require Import Base SeqModel RegexModel FloatModel InputModel ConstraintModel.

Section Reads.
  Variable st : cfg.
  Variable parseReal : list Z -> option real.
  (* DEFAULT_EPS *)
  Variable eps : real.

  (* 2462-2465, 2550-2557, 2604-2607 *)
  Definition stringsReLen (pattern : re) (lower upper : Z) := many st (stringReLen st pattern lower upper).
  Definition reals := many st (readReal st parseReal).
  Definition realsIn (lower upper : real) := many st (realIn st parseReal lower upper).
  Definition realsStrict (lower upper : real) (minDecimals maxDecimals : Z) := many st (realStrict st parseReal lower upper minDecimals maxDecimals).

  (* constraint.log(lower, upper, res) after a read; what the log throws leaves the read. The overflow in the log for the
     least upper bound cannot follow a successful read. *)
  Definition thenLog {A} (item : rd A) (call : A -> logCall) (c : constraint) : rd (A * constraint) :=
    read! res := item in
    read! c := rlift (logOne eps c (call res)) in
    rret (res, c).
  (* std::string is a container *)
  Definition STRING : typeIndex := TContainer 0.
  (* 2408-2412 *)
  Definition stringLog (lower upper : Z) := thenLog (stringLen st lower upper) (fun t => LogInt STRING lower upper (alen t)).
  (* 2426-2430 *)
  Definition stringReLog (pattern : re) (lower upper : Z) := thenLog (stringReLen st pattern lower upper) (fun t => LogInt STRING lower upper (alen t)).
  (* 2485-2489 *)
  Definition integerLog (lower upper : Z) := thenLog (integerIn st lower upper) (LogInt TInteger lower upper).
  (* 2533-2537 *)
  Definition realLog (lower upper : real) := thenLog (realIn st parseReal lower upper) (LogReal lower upper).
  (* 2587-2591 *)
  Definition realStrictLog (lower upper : real) (minDecimals maxDecimals : Z) := thenLog (realStrict st parseReal lower upper minDecimals maxDecimals) (LogReal lower upper).

  (* the loops of 2433-2442, 2492-2501, 2540-2548, 2594-2602 with a Constraint& among the arguments *)
  Fixpoint repeatLog {A} (count : nat) (item : constraint -> rd (A * constraint)) (sepCall : rd unit) (c : constraint) : rd (list A * constraint) :=
    match count with
    | O => rret ([], c)
    | S count' =>
      read! (x, c) := item c in
      read! _ := (match count' with O => rret tt | S _ => sepCall end) in
      read! (l, c) := repeatLog count' item sepCall c in
      rret (x :: l, c)
    end.
  Definition manyLog {A} (item : constraint -> rd (A * constraint)) (c : constraint) (count separator : Z) : rd (list A * constraint) :=
    match checkSeparator st separator with
    | None => fun _ => Raise
    | Some sepCall => if count <? 0 then fun _ => Raise else repeatLog (Z.to_nat count) item sepCall c
    end.
  (* 2452-2455, 2467-2470, 2511-2514, 2559-2562, 2609-2612 *)
  Definition stringsLog (lower upper : Z) := manyLog (stringLog lower upper).
  Definition stringsReLog (pattern : re) (lower upper : Z) := manyLog (stringReLog pattern lower upper).
  Definition integersLog (lower upper : Z) := manyLog (integerLog lower upper).
  Definition realsLog (lower upper : real) := manyLog (realLog lower upper).
  Definition realsStrictLog (lower upper : real) (minDecimals maxDecimals : Z) := manyLog (realStrictLog lower upper minDecimals maxDecimals).
End Reads.
