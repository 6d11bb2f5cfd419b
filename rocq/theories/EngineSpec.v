(* What the run of a program on engine words is compared with. *)
From Coq Require Import QArith.
From Verif Require Import Base RndModel.
Open Scope Z_scope.

(* the bounds of all draws are in order and fit their C++ types *)
Fixpoint drawsFit {A} (m : rnd A) : Prop :=
  match m with
  | RRet _ => True
  | RDraw lo hi k => lo < hi /\ ((is_i64 lo /\ is_i64 hi) \/ (lo = 0 /\ hi = two64)) /\
      forall x, lo <= x < hi -> drawsFit (k x)
  end.

(* n independent, uniform words: all lists of n words are equally likely *)
Fixpoint words (n : nat) : rnd (list Z) :=
  match n with
  | O => ret []
  | S n => let? w := rint 0 two64 in let? ws := words n in ret (w :: ws)
  end.

(* the share of the lists of n words on which a run ends, and ends with p *)
Definition share {A} (run : list Z -> option (outcome A * list Z)) (n : nat)
    (p : outcome A -> bool) : Q :=
  Pr (words n) (fun o => match o with
                         | Ok ws => match run ws with Some (o, _) => p o | None => false end
                         | _ => false
                         end).

(* whatever the cached bits are: with more words the share goes up to q *)
Definition sharesTo {A} (run : (list Z -> bool) -> list Z -> option (outcome A * list Z))
    (p : outcome A -> bool) (q : Q) : Prop :=
  forall bits eps, (0 < eps)%Q -> exists N, forall n, (N <= n)%nat ->
    (q - eps <= share (run bits) n p <= q)%Q.
