(* How a vector behaves when it is sorted with the partition step of archive/javaSortHack.cpp. *)
From Verif Require Import Base HackModel.
From Coq Require Import ZArith List.
Open Scope Z_scope.

(* k partition steps in a row, each in the middle part of the one before: each splits off only the
   pivot and one more value on either side *)
Fixpoint peels (fuel k : nat) (left right : Z) (s : hacked) : Prop :=
  match k with
  | O => True
  | S k => exists s' pivot1 pivot2, dualPivot fuel left right s = Ok (s', left + 2, right - 2, pivot1, pivot2) /\
             peels fuel k (left + 2) (right - 2) s'
  end.
