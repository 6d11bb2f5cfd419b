(* C83: the example generators. *)
From Coq Require Import String QArith.
From Verif Require Import Base RndModel RandSpec FloatModel InputSpec ArgsModel InitModel InitSpec GenExModel GenExSpec GenExProofs GraphSpec.
From Verif Require PassModel.
Open Scope Z_scope.

(* generator.cpp prints n distinct digits, each sequence with probability (10 - n)! / 10!, and throws otherwise *)
Theorem C83_numbers : forall parse args,
  (exists n, ready parse args start /\ argumentN args n /\ 0 <= n <= 10 /\
     always (numbersMain parse args) (returns (fun out => exists xs, digits n xs /\ out = numbersText xs)) /\
     forall xs, digits n xs -> (Pr (numbersMain parse args) (resultIs (list_eq_dec Z.eq_dec) (numbersText xs)) == inject_Z (zfact (Z.to_nat (10 - n))) / inject_Z (zfact 10))%Q) \/
  ((forall n, ~ (ready parse args start /\ argumentN args n /\ 0 <= n <= 10)) /\ numbersMain parse args = RRet Throw).
Proof. exact numbers_cases. Qed.
Print Assumptions C83_numbers.
Theorem C83_numbers_distinct : forall n xs ys, digits n xs -> digits n ys -> numbersText xs = numbersText ys -> xs = ys.
Proof. exact text_inj. Qed.
Print Assumptions C83_numbers_distinct.
(* generator.graph.cpp prints an acyclic orientation of the two cubes and the triangle with nodes [1, 20) *)
Theorem C83_dag : forall parse args,
  (ready parse args start /\ always (dagMain parse args) (returns (fun out => exists es, dagOf 1 blueprint es 19 /\ out = graphText 19 es))) \/
  (~ ready parse args start /\ dagMain parse args = RRet Throw).
Proof. exact dag_cases. Qed.
Print Assumptions C83_dag.

Definition noReal (_ : list Z) : option real := None.
Definition prog (n : string) : list (list Z) := [text "./generator"; text "--seed"; text "5"; text "--n"; text n].
(* the run in which every draw is the smallest possible number *)
Fixpoint lowest {A} (m : rnd A) : outcome A := match m with RRet o => o | RDraw lo _ k => lowest (k lo) end.
Example C83_ex_numbers : play (numbersMain noReal (prog "3")) [7; 7; 0] = Ok (numbersText [7; 9; 0]) /\ numbersText [7; 9; 0] = text "3" ++ [10] ++ text "7 9 0" ++ [10] /\
  play (numbersMain noReal (prog "10")) [0; 0; 0; 0; 0; 0; 0; 0; 0; 0] = Ok (numbersText [0; 9; 8; 7; 6; 5; 4; 3; 2; 1]) /\ numbersMain noReal (prog "11") = RRet Throw /\ numbersMain noReal (prog "1x") = RRet Throw /\
  numbersMain noReal [text "./generator"] = RRet Throw /\ numbersMain noReal (prog "0") = RRet (Ok (text "0" ++ [10; 10])).
Proof. repeat split; vm_compute; reflexivity. Qed.
Example C83_ex_dag : lowest (dagMain noReal (prog "3")) = Ok (graphText 19
    [(5, 9); (6, 10); (3, 5); (7, 9); (4, 6); (8, 10); (3, 4); (7, 8); (5, 6); (9, 10); (11, 15); (12, 16); (13, 17); (14, 18); (11, 13); (15, 17); (12, 14); (16, 18); (11, 12); (15, 16); (13, 14); (17, 18); (19, 1); (2, 1); (2, 19); (3, 19); (4, 1); (2, 5); (11, 19); (12, 1); (2, 13); (3, 7); (4, 8)]).
Proof. vm_compute. reflexivity. Qed.
