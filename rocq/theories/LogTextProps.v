(* Properties of the text of the constraints file. *)
From Coq Require Import String.
From Verif Require Import Base FloatModel FloatSpec RealSpec RealModel InputSpec InputProofs3 InputProofs4 InitSpec DecimalSpec InitModel PassModel OutProofs PrintModel PrintSpec ArgsModel ConstraintModel ConstraintSpec LogTextModel LogTextSpec LogTextProofs LogTextProofs2 LogTextProofs3.
From Coq Require Import ZArith QArith Qabs List Lia.
Import ListNotations.
Open Scope Z_scope.
Open Scope list_scope.

(* ---- C89 ---- *)
(* one line of eight words for each name with a logged value, in order of first access: the name twice, the flags, the
   extremes of the values and of the bounds *)
Theorem C89_file : forall eps, goodTol eps -> forall ops g, Forall (fun op => fine (snd op)) ops -> logRun eps emptyLogger ops = Ok g ->
  exists s wss, logText true g = Ok (Some s) /\ s = flat_map (fun ws => spaced ws ++ [10]) wss /\ wordsOf s (concat wss) /\
    Forall2 (fun n ws => describesInt ops n ws \/ describesReal eps ops n ws) (namesOf ops) wss.
Proof. exact log_file. Qed.
Print Assumptions C89_file.
(* the file determines the names, which of them are Integers, and their bounds *)
Theorem C89_integers : forall eps, goodTol eps -> forall ops ops' g g' s, Forall (fun op => fine (snd op)) ops -> Forall (fun op => fine (snd op)) ops' ->
  logRun eps emptyLogger ops = Ok g -> logRun eps emptyLogger ops' = Ok g' -> logText true g = Ok (Some s) -> logText true g' = Ok (Some s) ->
  namesOf ops = namesOf ops' /\
  (forall n b, In n (namesOf ops) -> summaryInt (intCalls (callsOf n ops)) b -> summaryInt (intCalls (callsOf n ops')) b).
Proof. exact same_int. Qed.
Print Assumptions C89_integers.
(* ... and those of Reals up to a unit of the last place *)
Theorem C89_reals : forall eps, goodTol eps -> forall ops ops' g g' s, Forall (fun op => fine (snd op)) ops -> Forall (fun op => fine (snd op)) ops' ->
  logRun eps emptyLogger ops = Ok g -> logRun eps emptyLogger ops' = Ok g' -> logText true g = Ok (Some s) -> logText true g' = Ok (Some s) ->
  forall n b, In n (namesOf ops) -> summaryReal eps (realCalls (callsOf n ops)) b -> exists c, summaryReal eps (realCalls (callsOf n ops')) c /\ nearBounds b c.
Proof. exact same_real. Qed.
Print Assumptions C89_reals.
Theorem C89_no_file : forall g, logText false g = Ok None.
Proof. exact no_file. Qed.
Print Assumptions C89_no_file.

(* the printed maximum of Reals may be below a logged value *)
Theorem C89_rounding_refuted : exists ops g s ws n lo up x q, Forall (fun op => fine (snd op)) ops /\ logRun DEFAULT_EPS emptyLogger ops = Ok g /\
  logText true g = Ok (Some s) /\ wordsOf s ws /\ In (n, LogReal lo up x) ops /\ nth 1 ws [] = n /\ decimalValue (nth 5 ws []) q /\ (q < val x)%Q.
Proof. exact rounded_max. Qed.
Print Assumptions C89_rounding_refuted.
(* and a Real is flagged to have hit its bound though the printed minimum is not the printed bound *)
Theorem C89_hit_refuted : exists ops g s ws, Forall (fun op => fine (snd op)) ops /\ logRun DEFAULT_EPS emptyLogger ops = Ok g /\
  logText true g = Ok (Some s) /\ wordsOf s ws /\ nth 2 ws [] = [49] /\ nth 4 ws [] <> nth 6 ws [].
Proof. exact near_hit. Qed.
Print Assumptions C89_hit_refuted.

Definition exQuarter : real := S754_finite false 9223372036854775808 (-65).
Definition exHalf : real := S754_finite false 9223372036854775808 (-64).
Definition exOps : list (str * logCall) :=
  [(text "n", LogInt TInteger 1 101 3); (text "m", NoLog); (text "n", LogInt TInteger (-5) 11 10);
   (text "x", LogReal (S754_zero true) (S754_infinity false) exQuarter); (text "x", LogReal exQuarter exHalf exHalf)].
Example C89_ex_file : (let! g := logRun DEFAULT_EPS emptyLogger exOps in logText true g) =
  Ok (Some (text "LocationNotSupported:n n 0 1 3 10 -5 100" ++ [10] ++ text "LocationNotSupported:x x 0 1 0.250000 0.500000 -0.000000 inf" ++ [10])).
Proof. vm_compute. reflexivity. Qed.
Example C89_ex_hypotheses : goodTol DEFAULT_EPS /\ Forall (fun op => fine (snd op)) exOps /\ namesOf exOps = [text "n"; text "x"] /\
  (exists g, logRun DEFAULT_EPS emptyLogger exOps = Ok g).
Proof.
  split; [reflexivity|]. split.
  - unfold exOps, fine, is_i64, I64_MIN, I64_MAX. repeat constructor; cbn; try discriminate; try lia.
  - split; [reflexivity|eexists; vm_compute; reflexivity].
Qed.
(* the same line, once for n = 3 and n = 10, once for n = 10, 3 and 4 *)
Example C89_ex_same : let ops := [(text "n", LogInt TInteger 1 11 3); (text "n", LogInt TInteger 0 11 10)] in
  let ops' := [(text "n", LogInt TInteger 0 11 10); (text "n", LogInt TInteger 1 2 4); (text "n", LogInt TInteger 1 2 3)] in
  exists s, (let! g := logRun DEFAULT_EPS emptyLogger ops in logText true g) = Ok (Some s) /\ (let! g := logRun DEFAULT_EPS emptyLogger ops' in logText true g) = Ok (Some s).
Proof. eexists. split; vm_compute; reflexivity. Qed.
