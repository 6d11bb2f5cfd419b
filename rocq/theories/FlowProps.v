(* The flow networks ffWorstcase and mcmfWorstcase (graph_gen.h). *)
From Verif Require Import Base RndModel GenModel GenSpec FlowModel FlowSpec FlowProofs5.

(* the largest flow of ffWorstcase(n) from the first to the last node is 2^(n-1) *)
Theorem C70_ffWorstcase : forall n, 1 <= n <= 63 -> exists g M, ffWorstcase n = Ok g /\ represents true g 0 (2 * n) M /\
  maxFlow (2 * n) (capOf M) 0 (2 * n - 1) (2 ^ (n - 1)).
Proof. exact ff_main. Qed.
Print Assumptions C70_ffWorstcase.
Example C70_ffWorstcase_ex : exists g, ffWorstcase 2 = Ok g /\ getEdges g = [(1, 2, 1); (0, 1, 1); (0, 2, 1); (1, 3, 1); (2, 3, 1)].
Proof. eexists. split; vm_compute; reflexivity. Qed.

(* the order of the edges *)
Theorem C70_order : forall n, 1 <= n <= 63 -> exists g, ffWorstcase n = Ok g /\ edgeCount g = 4 * n - 3 /\
  getEdges g = (n - 1, n, 1) :: flat_map (fun p => [(n - 2 - p, n - 1 - p, 2 ^ p); (n - 2 - p, n + p, 2 ^ p); (n - 1 - p, n + 1 + p, 2 ^ p); (n + p, n + 1 + p, 2 ^ p)]) (zseq 0 (Z.to_nat (n - 1))).
Proof. exact ff_edges. Qed.
Print Assumptions C70_order.
Example C70_order_ex : match ffWorstcase 3 with Ok g => getEdges g = [(2, 3, 1); (1, 2, 1); (1, 3, 1); (2, 4, 1); (3, 4, 1); (0, 1, 2); (0, 4, 2); (1, 5, 2); (4, 5, 2)] | _ => False end.
Proof. vm_compute. reflexivity. Qed.

(* the comment promises 2^n *)
Theorem C70_value_refuted : exists n g M, ffWorstcase n = Ok g /\ represents true g 0 (2 * n) M /\ ~ maxFlow (2 * n) (capOf M) 0 (2 * n - 1) (2 ^ n).
Proof. exact ff_refuted. Qed.
Print Assumptions C70_value_refuted.

(* value and cost of the largest flow of mcmfWorstcase(n) *)
Theorem C70_mcmfWorstcase : forall n, 1 <= n <= 60 -> let F := if n =? 1 then 1 else 5 * 2 ^ (n - 2) - 2 in
  exists g M, mcmfWorstcase n = Ok g /\ represents true g 0 (2 * n + 2) M /\ maxFlow (2 * n + 2) (cap2Of M) 0 (2 * n + 1) F /\
    (forall f, isFlow (2 * n + 2) (cap2Of M) 0 (2 * n + 1) f -> outflow (2 * n + 2) f 0 = F ->
      flowCost (2 * n + 2) (cost2Of M) f = F * (2 ^ (n - 1) - 1)).
Proof. exact mcmf_main. Qed.
Print Assumptions C70_mcmfWorstcase.
Example C70_mcmfWorstcase_ex : match mcmfWorstcase 2 with
  | Ok g => getEdges g = [(0, 1, (1, 0)); (0, 2, (3, 0)); (1, 3, (5, 0)); (1, 4, (5, 1)); (2, 3, (5, 1)); (3, 5, (2, 0)); (4, 5, (2, 0))]
  | _ => False end.
Proof. vm_compute. reflexivity. Qed.

Theorem C70_throws : forall n, (~ (1 <= n <= 63) -> ffWorstcase n = Throw) /\ (~ (1 <= n <= 60) -> mcmfWorstcase n = Throw).
Proof. exact flow_throws. Qed.
Print Assumptions C70_throws.
Example C70_throws_ex : ffWorstcase 0 = Throw /\ mcmfWorstcase 61 = Throw.
Proof. vm_compute. split; reflexivity. Qed.
