(* Model of std::regex_match for the ECMAScript operators used by /repo/src/validate.h:141-143. *)
From Verif Require Import Base SeqModel.

(* A pattern without captures (REGEX_OPTIONS contains nosubs): characters, concatenation,
   alternative and star. RNone only arises while matching. *)
Inductive re : Type :=
| RNone
| REps
| RChr (p : Z -> bool)
| RCat (a b : re)
| RAlt (a b : re)
| RStar (a : re).

Definition ROpt (a : re) : re := RAlt a REps.
Definition RPlus (a : re) : re := RCat a (RStar a).
Definition RLit (c : Z) : re := RChr (fun x => x =? c).

(* std::regex_match: the whole string has to match. The library back-tracks; whether some
   match exists does not depend on the strategy, so the model consumes one character after
   the other (Brzozowski derivative). Stack use of the library is not modelled. *)
Fixpoint nullable (r : re) : bool :=
  match r with
  | RNone => false
  | REps => true
  | RChr _ => false
  | RCat a b => nullable a && nullable b
  | RAlt a b => nullable a || nullable b
  | RStar _ => true
  end.
Fixpoint deriv (r : re) (c : Z) : re :=
  match r with
  | RNone => RNone
  | REps => RNone
  | RChr p => if p c then REps else RNone
  | RCat a b => if nullable a then RAlt (RCat (deriv a c) b) (deriv b c) else RCat (deriv a c) b
  | RAlt a b => RAlt (deriv a c) (deriv b c)
  | RStar a => RCat (deriv a c) (RStar a)
  end.
Fixpoint regex_match (s : list Z) (r : re) : bool :=
  match s with
  | [] => nullable r
  | c :: s' => regex_match s' (deriv r c)
  end.

Definition c_minus : Z := 45.
Definition c_plus : Z := 43.
Definition c_dot : Z := 46.
Definition c_zero : Z := 48.
(* [1-9] *)
Definition isDigit19 (c : Z) : bool := (49 <=? c) && (c <=? 57).
Definition RDigit : re := RChr isDigit.
Definition RDigit19 : re := RChr isDigit19.

(* validate.h:141  0|-?[1-9][0-9]* *)
Definition INTEGER_REGEX : re :=
  RAlt (RLit c_zero) (RCat (ROpt (RLit c_minus)) (RCat RDigit19 (RStar RDigit))).
(* validate.h:142  [+-]?(([0-9]*\.[0-9]+)|([0-9]+\.)|([0-9]+))([eE][+-]?[0-9]+)? *)
Definition RSign : re := ROpt (RChr (fun x => (x =? c_plus) || (x =? c_minus))).
Definition REAL_REGEX : re :=
  RCat RSign
    (RCat (RAlt (RCat (RStar RDigit) (RCat (RLit c_dot) (RPlus RDigit)))
                (RAlt (RCat (RPlus RDigit) (RLit c_dot)) (RPlus RDigit)))
          (ROpt (RCat (RChr (fun x => (x =? 101) || (x =? 69))) (RCat RSign (RPlus RDigit))))).
(* validate.h:143  -?(0|([1-9][0-9]* ))\.?[0-9]* *)
Definition STRICT_REAL_REGEX : re :=
  RCat (ROpt (RLit c_minus))
    (RCat (RAlt (RLit c_zero) (RCat RDigit19 (RStar RDigit)))
          (RCat (ROpt (RLit c_dot)) (RStar RDigit))).
