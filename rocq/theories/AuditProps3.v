(* C82: the example outputValidator2.cpp when the jury answers Yes with another number or with two. *)
From Coq Require Import String.
From Verif Require Import Base FloatModel InputSpec InputModel ArgsModel InitModel InitSpec ExampleModel ExampleSpec AuditProofs3 ExampleProps.
Open Scope Z_scope.

(* a wrong solution of the jury is a judge error for each answer of a team that begins with Yes or No *)
Theorem C82_output2_wrong : forall cs cj cm bj bm, spaceSensitive cj = false -> caseSensitive cj = cs -> caseSensitive cm = cs -> onFail cm = 43 ->
  forall j s ts n, wordsOf bj (j :: s :: ts) -> same cs j (text "Yes") -> decimalOf s n -> is_i64 n -> n <> 6 ->
  let x := output2Body cs (cj, bj) (cm, bm) in (x = Code 1 \/ x = Code 43) /\
  (spaceSensitive cm = false -> (x = Code 1 <-> exists w, firstWord false bm w /\ (same cs w (text "Yes") \/ same cs w (text "No")))).
Proof. exact output2_wrong. Qed.
Print Assumptions C82_output2_wrong.
(* a second number of the jury is taken for the solution of the team *)
Theorem C82_output2_second : forall cs cj cm bj bm, spaceSensitive cj = false -> caseSensitive cj = cs -> caseSensitive cm = cs -> onFail cm = 43 ->
  forall j s u ts n, wordsOf bj (j :: s :: u :: ts) -> same cs j (text "Yes") -> decimalOf s 6 -> decimalOf u n -> is_i64 n -> spaceSensitive cm = false ->
  let x := output2Body cs (cj, bj) (cm, bm) in (x = Code 42 \/ x = Code 43) /\ (x = Code 42 <-> n = 6 /\ exists w, onlyWord false bm w /\ same cs w (text "Yes")).
Proof. exact output2_second. Qed.
Print Assumptions C82_output2_second.
Example C82_ex_output2_other : output2Body false (judge, text "Yes 5") (team, text "yes") = Code 1 /\ output2Body false (judge, text "Yes 5") (team, text "NO 7") = Code 1 /\
  output2Body false (judge, text "Yes 7") (team, text "maybe") = Code 43 /\ output2Body false (judge, text "yes 6 5") (team, text "YES") = Code 43 /\
  output2Body false (judge, text "yes 6 6") (team, text "YES ") = Code 42 /\ output2Body false (judge, text "yes 6 6") (team, text "YES 6") = Code 43.
Proof. vm_compute. auto 7. Qed.
