(* The constraints file. *)
From Coq Require Import String.
From Verif Require Import Base FloatModel FloatSpec RealSpec InputSpec InitSpec DecimalSpec PrintSpec ArgsModel ConstraintModel ConstraintSpec.
From Coq Require Import ZArith QArith Qabs List.
Import ListNotations.
Open Scope Z_scope.
Open Scope list_scope.

(* words separated by single spaces *)
Fixpoint spaced (ws : list (list Z)) : list Z :=
  match ws with
  | [] => []
  | [w] => w
  | w :: ws => w ++ [32] ++ spaced ws
  end.
Definition flag (b : bool) : list Z := [if b then 49 else 48].
(* t is the decimal with six digits after the dot that is nearest to x; infinities have names *)
Definition showsReal (t : list Z) (x : real) : Prop :=
  match x with
  | S754_nan => False
  | S754_infinity s => t = (if s then text "-inf" else text "inf")
  | _ => exists k, strictReal t 6 /\ decimalValue t (units 6 k) /\ nearestUnits 6 (val x) k
  end.
(* the words of the line of one name, in the order minimum, maximum, lower, upper bound *)
Definition lineOf {T} (shows : list Z -> T -> Prop) (name : list Z) (b : bounds T) (ws : list (list Z)) : Prop :=
  exists u v lo up, ws = [text "LocationNotSupported:" ++ name; name; flag (hadMin b); flag (hadMax b); u; v; lo; up] /\
    shows u (bmin b) /\ shows v (bmax b) /\ shows lo (blower b) /\ shows up (bupper b).
(* ... summarises the calls for the name *)
Definition describesInt (ops : list (str * logCall)) (name : list Z) (ws : list (list Z)) : Prop :=
  exists b, summaryInt (intCalls (callsOf name ops)) b /\ realCalls (callsOf name ops) = [] /\ lineOf decimalOf name b ws.
Definition describesReal (eps : real) (ops : list (str * logCall)) (name : list Z) (ws : list (list Z)) : Prop :=
  exists b, summaryReal eps (realCalls (callsOf name ops)) b /\ intCalls (callsOf name ops) = [] /\ lineOf showsReal name b ws.
Definition namesOf (ops : list (str * logCall)) : list (list Z) := filter (fun n => isLogged (callsOf n ops)) (firsts [] (map fst ops)).
(* Integers and Reals other than NaN *)
Definition fine (c : logCall) : Prop :=
  match c with
  | LogReal lo up v => (realOk lo /\ lo <> S754_nan) /\ (realOk up /\ up <> S754_nan) /\ (realOk v /\ v <> S754_nan)
  | LogInt x lo up v => x <> TReal /\ is_i64 lo /\ is_i64 up /\ is_i64 v
  | NoLog => True
  end.
(* closer than a unit in the last place that is printed *)
Definition near (x y : real) : Prop :=
  if isfinite x then isfinite y = true /\ (Qabs (val x - val y) <= 1 # 1000000)%Q else y = x.
Definition nearBounds (b c : bounds real) : Prop :=
  hadMin b = hadMin c /\ hadMax b = hadMax c /\ near (bmin b) (bmin c) /\ near (bmax b) (bmax c) /\ near (blower b) (blower c) /\ near (bupper b) (bupper c).
