(* Property C90: what the utilities of validate.h leave undefined. *)
From Verif Require Import Base UtilModel UtilSpec UtilProofs UtilProofs2 UtilProofs3.
From Coq Require Import ZArith List.
Import ListNotations.
Open Scope Z_scope.

(* taking from an empty queue is undefined behaviour, at whatever point of the history it happens *)
Theorem C90_queue_undefined : forall (A : Type) (less : A -> A -> bool) pick ops, ~ enough 0 ops ->
  (tops (fun a b => less b a) pick -> minQueue less pick ops = UB) /\ (tops less pick -> maxQueue less pick ops = UB).
Proof. exact queue_undefined. Qed.
Print Assumptions C90_queue_undefined.
Example C90_ex_queue_undefined : ~ enough 0 [Push 5; Pop; Pop; Push 1] /\ minQueue Z.ltb topAt [Push 5; Pop; Pop; Push 1] = UB /\
  maxQueue Z.ltb topAt [Push 5; Pop; Pop; Push 1] = UB.
Proof. split; [intros []|vm_compute; split; reflexivity]. Qed.

(* why append copies its argument first: emplacing the elements of a non-empty container at its own end is undefined *)
Theorem C90_append_alias : forall (A : Type) (m : list (list A)) i,
  (emplaceFrom m i i = UB <-> nth i m [] <> []) /\ (nth i m [] = [] -> emplaceFrom m i i = Ok m).
Proof. exact emplace_alias. Qed.
Print Assumptions C90_append_alias.
Example C90_ex_append_alias : emplaceFrom [[1; 2]; [3]; []] 1 1 = UB /\ emplaceFrom [[1; 2]; [3]; []] 2 2 = Ok [[1; 2]; [3]; []] /\
  append [[1; 2]; [3]; []] 1 1 = Ok [[1; 2]; [3; 3]; []].
Proof. vm_compute. repeat split; reflexivity. Qed.
