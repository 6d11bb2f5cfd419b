(* What the statements about the engine of rng.h talk about. *)
From Coq Require Import ZArith NArith List.
From Verif Require Import RngModel.
Import ListNotations.
Open Scope Z_scope.

(* a value of type std::uint64_t *)
Definition word (x : Z) : Prop := 0 <= x < 2 ^ 64.

(* a state a Xoshiro256ss object can have *)
Definition valid (s : state) : Prop :=
  match s with St a b c d => word a /\ word b /\ word c /\ word d end.

Definition zero : state := St 0 0 0 0.

(* the state after n calls of operator(); n is a binary number *)
Definition after (n : N) (s : state) : state := N.iter n (fun t => snd (call t)) s.
