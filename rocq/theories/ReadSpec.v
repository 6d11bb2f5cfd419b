(* Lists in a text, and the summary of the values of a list. *)
From Verif Require Import Base FloatModel InputModel InputSpec ConstraintModel ConstraintSpec.

(* between two items there is one separator, or any white space *)
Definition separated (sensitive : bool) (sep : Z) (s rest : list Z) : Prop := if sensitive then s = sep :: rest else rest = s.
(* s starts with tokens for the values *)
Inductive listed {A} (sensitive : bool) (sep : Z) (P : list Z -> A -> Prop) : list Z -> list A -> list Z -> Prop :=
| listed_none : forall s, listed sensitive sep P s [] s
| listed_last : forall s t v rest, nextToken sensitive s t rest -> P t v -> listed sensitive sep P s [v] rest
| listed_more : forall s t v m m' w vs rest, nextToken sensitive s t m -> P t v -> separated sensitive sep m m' ->
    listed sensitive sep P m' (w :: vs) rest -> listed sensitive sep P s (v :: w :: vs) rest.
Definition separator (sep : Z) : Prop := sep = 32 \/ sep = 10.

(* log calls one after the other *)
Inductive logs (eps : real) : constraint -> list logCall -> constraint -> Prop :=
| logs_nil : forall c, logs eps c [] c
| logs_cons : forall c d e x l, logOne eps c x = Ok d -> logs eps d l e -> logs eps c (x :: l) e.

(* nothing or only values of this type were logged *)
Definition suits (c : constraint) (t : typeIndex) : Prop :=
  match t with
  | TReal => (ctype c = None /\ cbound c = VNone) \/ ctype c = Some TReal /\ exists b, cbound c = VReal b
  | _ => (ctype c = None /\ cbound c = VNone) \/ ctype c = Some t /\ exists b, cbound c = VInt b
  end.

(* the bounds of the values vs from [lower, upper) *)
Definition boundsOf (lower upper : Z) (vs : list Z) (b : bounds Z) : Prop :=
  In (bmin b) vs /\ In (bmax b) vs /\ Forall (fun v => bmin b <= v <= bmax b) vs /\
  blower b = lower /\ bupper b = upper - 1 /\ (hadMin b = true <-> In lower vs) /\ (hadMax b = true <-> In (upper - 1) vs).
(* what real(lower, upper) accepts *)
Definition nearRange (abs rel lower upper v : real) : Prop :=
  floatEqual v lower abs rel = Ok true \/ floatEqual v upper abs rel = Ok true \/ SFleb lower v = true /\ SFltb v upper = true.
(* a value, or the exit code of a wrong file; an error in the validator only for a wrong call *)
Definition readResult {A} (code : Z) (res : io A) : Prop := (exists v r, res = Ret v r) \/ res = Exit code.
Definition listResult {A} (code : Z) (res : io A) (sep count : Z) : Prop := readResult code res \/ res = Raise /\ ~ (separator sep /\ 0 <= count).
