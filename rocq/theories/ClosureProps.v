(* Property C58: the transitive closure as a power. *)
From Verif Require Import Base GenModel GenSpec GenOpsModel GenOpsSpec GenOpsProps ClosureModel ClosureProofs.
From Coq Require Import ZArith List.
Import ListNotations.
Open Scope Z_scope.

(* u -> v iff there is a walk of any length from u to another node v *)
Theorem C58_closure : forall E (dflt : E) g M lo hi, represents true g lo hi M ->
  exists g' M', transitiveClosure dflt true g = Ok g' /\ represents true g' lo hi M' /\
    (forall u v, isEdge M' u v = true <-> u <> v /\ exists n, walk M n u v) /\ (forall u v d, M' u v = Some d -> d = dflt) /\
    (forall u v w, isEdge M' u v = true -> isEdge M' v w = true -> u <> w -> isEdge M' u w = true).
Proof. exact closure_rep. Qed.
Print Assumptions C58_closure.
(* 5 -> 6 -> 7 -> 8 -> 9 *)
Example C58_ex_closure : (let! g := newGraph 5 10 in let! g := addEdges true g [(5, 6, 1); (6, 7, 1); (7, 8, 1); (8, 9, 1)] in let! p := transitiveClosure 0 true g in Ok (map fst (getEdges p))) =
  Ok [(5, 6); (5, 7); (5, 8); (5, 9); (6, 7); (6, 8); (6, 9); (7, 8); (7, 9); (8, 9)].
Proof. vm_compute. reflexivity. Qed.
