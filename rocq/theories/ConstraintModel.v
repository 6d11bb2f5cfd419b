(* Model of Bounds, Constraint and ConstraintsLogger, /repo/src/validate.h:2112-2251. *)
From Verif Require Import Base SeqModel FloatModel ArgsModel.

(* 2115-2150  Bounds<T> *)
Record bounds (T : Type) : Type := mkBounds {
  hadMin : bool; hadMax : bool;
  bmin : T; bmax : T;
  blower : T; bupper : T
}.
Arguments mkBounds {T}.
Arguments hadMin {T}. Arguments hadMax {T}. Arguments bmin {T}. Arguments bmax {T}.
Arguments blower {T}. Arguments bupper {T}.

(* std::min / std::max: the first argument unless the second is strictly better *)
Definition stdMin {T} (lt : T -> T -> bool) (a b : T) : T := if lt b a then b else a.
Definition stdMax {T} (lt : T -> T -> bool) (a b : T) : T := if lt a b then b else a.

(* 2129-2142  Bounds::update; eq is == for Integer and floatEqual for Real *)
Definition boundsUpdate {T} (eq : T -> T -> outcome bool) (lt : T -> T -> bool)
  (b : bounds T) (lower upper v : T) : outcome (bounds T) :=
  let! hl := eq v lower in
  let! hu := eq v upper in
  Ok (mkBounds (hadMin b || hl) (hadMax b || hu)
        (stdMin lt (bmin b) v) (stdMax lt (bmax b) v)
        (stdMin lt (blower b) lower) (stdMax lt (bupper b) upper)).
(* 2121-2127  constructor *)
Definition boundsNew {T} (eq : T -> T -> outcome bool) (lt : T -> T -> bool) (lower upper v : T)
  : outcome (bounds T) :=
  boundsUpdate eq lt (mkBounds false false v v lower upper) lower upper v.

Definition eqInt (a b : Z) : outcome bool := Ok (a =? b).

(* 2152-2161  details::getTypeIndex<X>(): one index per type; containers are numbered *)
Inductive typeIndex : Type := TInteger | TReal | TContainer (k : nat).
Definition sameType (a b : typeIndex) : bool :=
  match a, b with
  | TInteger, TInteger => true
  | TReal, TReal => true
  | TContainer i, TContainer j => Nat.eqb i j
  | _, _ => false
  end.

(* 2165-2170  the variant and the optional type *)
Inductive variant : Type :=
| VNone
| VInt (b : bounds Z)
| VReal (b : bounds real).
Record constraint : Type := mkConstraint { cbound : variant; ctype : option typeIndex }.
Definition newConstraint : constraint := mkConstraint VNone None.

Section Constraint.
  (* DEFAULT_EPS, validate.h:83 *)
  Variable eps : real.
  Definition eqReal (a b : real) : outcome bool := floatEqual a b eps eps.

  (* 2172-2183  update<Integer, X>; --upper overflows for the smallest value.
     std::get of the wrong alternative throws. *)
  Definition updateInt (c : constraint) (x : typeIndex) (lower upper v : Z) : outcome constraint :=
    let! upper := chk (upper - 1) in
    let! c := (match ctype c with
               | None => let! b := boundsNew eqInt Z.ltb lower upper v in
                         Ok (mkConstraint (VInt b) (Some x))
               | Some _ => Ok c
               end) in
    match ctype c with
    | None => Throw
    | Some t =>
      let! _ := judgeAssert (sameType t x) in
      match cbound c with
      | VInt b => let! b := boundsUpdate eqInt Z.ltb b lower upper v in
                  Ok (mkConstraint (VInt b) (ctype c))
      | _ => Throw
      end
    end.
  (* update<Real> *)
  Definition updateReal (c : constraint) (lower upper v : real) : outcome constraint :=
    let! c := (match ctype c with
               | None => let! b := boundsNew eqReal SFltb lower upper v in
                         Ok (mkConstraint (VReal b) (Some TReal))
               | Some _ => Ok c
               end) in
    match ctype c with
    | None => Throw
    | Some t =>
      let! _ := judgeAssert (sameType t TReal) in
      match cbound c with
      | VReal b => let! b := boundsUpdate eqReal SFltb b lower upper v in
                   Ok (mkConstraint (VReal b) (ctype c))
      | _ => Throw
      end
    end.

  (* one use of the logger: constraint[name], possibly with a call of log (2192-2205);
     for containers v is std::size as Integer *)
  Inductive logCall : Type :=
  | NoLog
  | LogInt (x : typeIndex) (lower upper v : Z)   (* x <> TReal *)
  | LogReal (lower upper v : real).
  Definition logOne (c : constraint) (l : logCall) : outcome constraint :=
    match l with
    | NoLog => Ok c
    | LogInt x lower upper v => updateInt c x lower upper v
    | LogReal lower upper v => updateReal c lower upper v
    end.

  (* 2208-2220  byName maps to an index into constraints *)
  Record logger : Type := mkLogger { byName : list (str * Z); constraints : list constraint }.
  Definition emptyLogger : logger := mkLogger [] [].
  (* 2222-2227  operator[]: the index of the constraint, created when new *)
  Definition access (g : logger) (name : str) : outcome (logger * Z) :=
    let! _ := judgeAssert (isToken name) in
    match lookup name (byName g) with
    | Some id => Ok (g, id)
    | None => Ok (mkLogger (byName g ++ [(name, alen (constraints g))]) (constraints g ++ [newConstraint]),
                  alen (constraints g))
    end.
  Definition logStep (g : logger) (op : str * logCall) : outcome logger :=
    let! (g, id) := access g (fst op) in
    let! c := aget (constraints g) id in
    let! c := logOne c (snd op) in
    let! cs := aset (constraints g) id c in
    Ok (mkLogger (byName g) cs).
  Fixpoint logRun (g : logger) (ops : list (str * logCall)) : outcome logger :=
    match ops with
    | [] => Ok g
    | op :: ops' => let! g := logStep g op in logRun g ops'
    end.

  (* 2229-2246  write: names[id] = name, then one line per constraint with a type;
     the line is (name, bounds), its text is in LogTextModel.v *)
  Fixpoint fillNames (m : list (str * Z)) (names : list str) : outcome (list str) :=
    match m with
    | [] => Ok names
    | (n, id) :: m' => let! names := aset names id n in fillNames m' names
    end.
  Fixpoint writeLoop (names : list str) (cs : list constraint) : outcome (list (str * variant)) :=
    match names, cs with
    | [], _ => Ok []
    | _ :: _, [] => UB
    | n :: names', c :: cs' =>
      let! r := writeLoop names' cs' in
      Ok (match ctype c with Some _ => (n, cbound c) :: r | None => r end)
    end.
  Definition write (g : logger) : outcome (list (str * variant)) :=
    let! names := fillNames (byName g) (repeat [] (length (byName g))) in
    writeLoop names (constraints g).
End Constraint.
