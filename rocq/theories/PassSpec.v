(* What the passes of a multipass problem should see. *)
From Coq Require Import ZArith List String.
From Verif Require Import Base PassModel.
Import ListNotations.
Open Scope Z_scope.

(* pass k of n further passes, called with the number of the pass and the state the
   previous one has written *)
Fixpoint expected (validator : Z -> option (list Z) -> list Z * option (list Z))
    (n : nat) (k : Z) (state : option (list Z)) : list (Z * option (list Z)) :=
  match n with
  | O => []
  | S n => (k, state) :: expected validator n (k + 1) (Some (fst (validator k state)))
  end.

(* the passes of a run; the judging system may do anything in between, except to touch
   the files of the validator *)
Definition harmless (env : Z -> dir -> dir) : Prop :=
  forall k d, env k d ".pass"%string = d ".pass"%string /\ env k d ".state0"%string = d ".state0"%string /\
    env k d ".state1"%string = d ".state1"%string.

Fixpoint passes (validator : Z -> option (list Z) -> list Z * option (list Z)) (env : Z -> dir -> dir)
    (n : nat) (d : dir) : outcome (list (Z * option (list Z)) * dir) :=
  match n with
  | O => Ok ([], d)
  | S n =>
      let! (pass, prev, d) := runPass validator d in
      let! (l, d) := passes validator env n (env pass d) in
      Ok ((pass, prev) :: l, d)
  end.
