(* Properties of the constraint log. *)
From Verif Require Import Base FloatModel InputSpec InputProofs3 ArgsModel ConstraintModel ConstraintSpec ConstraintProofs ConstraintProofs2.
Open Scope Z_scope.

(* ---- C31 ---- *)
(* the log lists the names with a logged value in order of first access, each with the true
   extremes of values and bounds, and with hadMin/hadMax set iff a bound was hit *)
Theorem C31_write : forall eps, goodTol eps -> forall ops g,
  Forall (fun op => callOk (snd op)) ops -> logRun eps emptyLogger ops = Ok g ->
  exists lines, write g = Ok lines /\
    map fst lines = filter (fun n => isLogged (callsOf n ops)) (firsts [] (map fst ops)) /\
    Forall (lineOk eps ops) lines.
Proof. exact log_write. Qed.
Print Assumptions C31_write.
(* the calls succeed exactly when names are tokens, upper - 1 exists and every name keeps its type *)
Theorem C31_succeeds : forall eps, goodTol eps -> forall ops, Forall (fun op => callOk (snd op)) ops ->
  ((exists g, logRun eps emptyLogger ops = Ok g) <->
   Forall (fun op => token (fst op) /\ callFits (snd op)) ops /\ forall n, oneType (callsOf n ops)).
Proof. exact log_succeeds. Qed.
Print Assumptions C31_succeeds.
(* using a name with a second type throws *)
Theorem C31_type_throws : forall eps, goodTol eps -> forall ops op t x,
  Forall (fun op => callOk (snd op)) (ops ++ [op]) ->
  (exists g, logRun eps emptyLogger ops = Ok g) -> token (fst op) -> callFits (snd op) ->
  In x (callsOf (fst op) ops) -> callType x = Some t -> callType (snd op) <> Some t -> callType (snd op) <> None ->
  logRun eps emptyLogger (ops ++ [op]) = Throw.
Proof. exact log_throws. Qed.
Print Assumptions C31_type_throws.

Definition exReal (e : Z) : real := S754_finite false 9223372036854775808 e.
(* n in [1, 11): 3, 10; m untouched; x in [1.0, 4.0]: 2.0; n in [0, 5): 2 *)
Definition exOps : list (str * logCall) :=
  [([110], LogInt TInteger 1 11 3); ([109], NoLog); ([110], LogInt TInteger 1 11 10);
   ([120], LogReal (exReal (-63)) (exReal (-61)) (exReal (-62))); ([110], LogInt TInteger 0 5 2)].
Example C31_ex :
  (let! g := logRun (exReal (-80)) emptyLogger exOps in write g) =
  Ok [([110], VInt (mkBounds false true 2 10 0 10));
      ([120], VReal (mkBounds false false (exReal (-62)) (exReal (-62)) (exReal (-63)) (exReal (-61))))].
Proof. vm_compute. reflexivity. Qed.
Example C31_ex_hypotheses : goodTol (exReal (-80)) /\ Forall (fun op => callOk (snd op)) exOps /\
  Forall (fun op => token (fst op) /\ callFits (snd op)) exOps.
Proof.
  split; [reflexivity|]. split; [repeat constructor; discriminate|]. unfold exOps, token, callFits, is_i64, I64_MIN, I64_MAX.
  repeat constructor; simpl; try discriminate; try (intros [H|H]; lia); intro H; unfold whitespace in H; lia.
Qed.
Example C31_throws_ex :
  logRun (exReal (-80)) emptyLogger (exOps ++ [([110], LogInt (TContainer 0) 0 5 2)]) = Throw /\
  logRun (exReal (-80)) emptyLogger [([110; 32], NoLog)] = Throw /\
  logRun (exReal (-80)) emptyLogger [([110], LogInt TInteger 0 I64_MIN 2)] = UB.
Proof. vm_compute. repeat split. Qed.
