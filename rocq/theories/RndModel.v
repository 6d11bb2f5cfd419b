(* Randomised programs: the only effect is a call of Random::integer(lo, hi).
   The semantics of a call is established in RandInt*: a value of [lo, hi), each value
   for the same number of engine words. *)
From Verif Require Import Base.
From Coq Require Import QArith.
Open Scope Z_scope.

Inductive rnd (A : Type) : Type :=
| RRet (o : outcome A)
| RDraw (lo hi : Z) (k : Z -> rnd A).
Arguments RRet {A} o.
Arguments RDraw {A} lo hi k.

Fixpoint rbind {A B} (m : rnd A) (f : A -> rnd B) : rnd B :=
  match m with
  | RRet (Ok a) => f a
  | RRet Throw => RRet Throw
  | RRet UB => RRet UB
  | RRet Fuel => RRet Fuel
  | RDraw lo hi k => RDraw lo hi (fun x => rbind (k x) f)
  end.
Notation "'let?' x ':=' e 'in' k" := (rbind e (fun x => k))
  (at level 200, x pattern, e at level 100, k at level 200, right associativity).

Definition ret {A} (a : A) : rnd A := RRet (Ok a).
Definition lift {A} (o : outcome A) : rnd A := RRet o.

(* validate.h:1353-1354  Random::integer(lower, upper) *)
Definition rint (lo hi : Z) : rnd Z :=
  if lo <? hi then RDraw lo hi (fun x => ret x) else RRet Throw.

(* Possible results: P holds for every way the draws can come out. *)
Fixpoint always {A} (m : rnd A) (P : outcome A -> Prop) : Prop :=
  match m with
  | RRet o => P o
  | RDraw lo hi k => forall x, lo <= x < hi -> always (k x) P
  end.

(* Some way the draws can come out gives o. *)
Fixpoint can {A} (m : rnd A) (o : outcome A) : Prop :=
  match m with
  | RRet o' => o' = o
  | RDraw lo hi k => exists x, lo <= x < hi /\ can (k x) o
  end.

(* the result when the draws come out as the given list (for examples and mutants) *)
Fixpoint play {A} (m : rnd A) (xs : list Z) : outcome A :=
  match m, xs with
  | RRet o, _ => o
  | RDraw lo hi k, x :: xs' => if (lo <=? x) && (x <? hi) then play (k x) xs' else Fuel
  | RDraw _ _ _, [] => Fuel
  end.

(* Exact expectation of f when all draws are independent and uniform. *)
Fixpoint zseq (lo : Z) (n : nat) : list Z :=
  match n with O => [] | S n' => lo :: zseq (lo + 1) n' end.
Definition qsum {A} (f : A -> Q) (l : list A) : Q := fold_right (fun x s => (f x + s)%Q) 0%Q l.
Fixpoint expect {A} (m : rnd A) (f : outcome A -> Q) : Q :=
  match m with
  | RRet o => f o
  | RDraw lo hi k =>
      (qsum (fun x => expect (k x) f) (zseq lo (Z.to_nat (hi - lo))) / inject_Z (hi - lo))%Q
  end.
Definition Pr {A} (m : rnd A) (p : outcome A -> bool) : Q :=
  expect m (fun o => if p o then 1%Q else 0%Q).

(* the event "the program returns a" *)
Definition resultIs {A} (dec : forall x y : A, {x = y} + {x <> y}) (a : A) (o : outcome A) : bool :=
  match o with Ok x => if dec x a then true else false | _ => false end.
