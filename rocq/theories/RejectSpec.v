(* Drawing until a result is accepted. *)
From Verif Require Import Base RndModel.
From Coq Require Import QArith.
Open Scope Q_scope.

(* the event that a result with p is returned *)
Definition holds {A} (p : A -> bool) (o : outcome A) : bool := match o with Ok a => p a | _ => false end.
(* 1 + q + ... + q^(k-1) *)
Fixpoint powers (q : Q) (k : nat) : Q := match k with O => 0 | S k => 1 + q * powers q k end.
(* k independent rounds, round i, counted down, by try i: what the first result inside satisfies *)
Fixpoint firstInside {A} (try : nat -> rnd A) (inside p : A -> bool) (k : nat) : Q :=
  match k with
  | O => 0
  | S k => Pr (try k) (holds (fun a => inside a && p a)) + Pr (try k) (holds (fun a => negb (inside a))) * firstInside try inside p k
  end.
