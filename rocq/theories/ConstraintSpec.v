(* What the constraint log has to contain. *)
From Verif Require Import Base FloatModel ArgsModel ConstraintModel.

(* names in the order of their first use *)
Fixpoint firsts (seen : list str) (l : list str) : list str :=
  match l with
  | [] => []
  | n :: l' => if existsb (streq n) seen then firsts seen l' else n :: firsts (n :: seen) l'
  end.

(* the log calls for one name *)
Definition callsOf (name : str) (ops : list (str * logCall)) : list logCall :=
  map snd (filter (fun op => streq name (fst op)) ops).
Definition intCalls (l : list logCall) : list (Z * Z * Z) :=
  flat_map (fun c => match c with LogInt _ lo up v => [(lo, up, v)] | _ => [] end) l.
Definition realCalls (l : list logCall) : list (real * real * real) :=
  flat_map (fun c => match c with LogReal lo up v => [(lo, up, v)] | _ => [] end) l.
Definition logged (l : list logCall) : Prop := exists c, In c l /\ c <> NoLog.

(* x is an extreme element of l *)
Definition least {T} (le : T -> T -> Prop) (l : list T) (x : T) : Prop := In x l /\ forall y, In y l -> le x y.

(* bounds of the calls (lower, upper, v) with half-open ranges *)
Definition summaryInt (l : list (Z * Z * Z)) (b : bounds Z) : Prop :=
  least Z.le (map snd l) (bmin b) /\ least Z.ge (map snd l) (bmax b) /\
  least Z.le (map (fun c => fst (fst c)) l) (blower b) /\
  least Z.ge (map (fun c => snd (fst c) - 1) l) (bupper b) /\
  (hadMin b = true <-> exists lo up v, In (lo, up, v) l /\ v = lo) /\
  (hadMax b = true <-> exists lo up v, In (lo, up, v) l /\ v = up - 1).

Definition rle (x y : real) : Prop := SFleb x y = true.
Definition rge (x y : real) : Prop := SFleb y x = true.
Definition summaryReal (eps : real) (l : list (real * real * real)) (b : bounds real) : Prop :=
  least rle (map snd l) (bmin b) /\ least rge (map snd l) (bmax b) /\
  least rle (map (fun c => fst (fst c)) l) (blower b) /\
  least rge (map (fun c => snd (fst c)) l) (bupper b) /\
  (hadMin b = true <-> exists lo up v, In (lo, up, v) l /\ floatEqual v lo eps eps = Ok true) /\
  (hadMax b = true <-> exists lo up v, In (lo, up, v) l /\ floatEqual v up eps eps = Ok true).

(* no NaN is logged *)
Definition number (x : real) : Prop := x <> S754_nan.
Definition callOk (c : logCall) : Prop :=
  match c with
  | LogReal lo up v => number lo /\ number up /\ number v
  | LogInt x lo up v => x <> TReal
  | NoLog => True
  end.
Definition callType (c : logCall) : option typeIndex :=
  match c with NoLog => None | LogInt x _ _ _ => Some x | LogReal _ _ _ => Some TReal end.
(* all calls for one name have the same type *)
Definition oneType (l : list logCall) : Prop :=
  forall c d s t, In c l -> In d l -> callType c = Some s -> callType d = Some t -> s = t.
(* the inclusive upper bound exists *)
Definition callFits (c : logCall) : Prop := match c with LogInt _ _ up _ => is_i64 (up - 1) | _ => True end.
(* a name has a line when something was logged for it *)
Definition isLogged (l : list logCall) : bool := existsb (fun c => match c with NoLog => false | _ => true end) l.
(* a line (name, bounds) summarises all calls for its name *)
Definition lineOk (eps : real) (ops : list (str * logCall)) (line : str * variant) : Prop :=
  match snd line with
  | VInt b => summaryInt (intCalls (callsOf (fst line) ops)) b /\ realCalls (callsOf (fst line) ops) = []
  | VReal b => summaryReal eps (realCalls (callsOf (fst line) ops)) b /\ intCalls (callsOf (fst line) ops) = []
  | VNone => False
  end.
