(* C79: the law of randomGrowingGraph(n, p), given the law of the degrees. *)
From Verif Require Import Base Tac RndModel RndLemmas FloatModel RandIntModel GenModel GenSpec GenMakeModel GenMakeSpec GenRandSpec RealModel GrowSpec GrowProofs.
From Coq Require Import QArith ZArith SpecFloat.
From Verif Require Import FloatSpec RealSpec.
Open Scope Z_scope.

(* P is any set of edges. Node i draws its number of earlier neighbours, and all sets of earlier
   nodes of that size are equally likely; the nodes are independent. *)
Theorem C79_randomGrowingGraph_law : forall E (dflt : E) fuel n p P, 0 <= n <= 2 ^ 63 - 1 -> number p -> (0 <= val p <= 1)%Q ->
  (Pr (randomGrowingGraph E dflt fuel n p) (graphIs (allPairs false n) P) ==
   prodFrom (fun i => let k := backDegree P i in
     Pr (drawDegree fuel p i) (resultIs Z.eq_dec k) *
     (inject_Z (zfact (Z.to_nat k)) * inject_Z (zfact (Z.to_nat (i - k))) / inject_Z (zfact (Z.to_nat i)))) 0 (Z.to_nat n))%Q.
Proof. exact randomGrowingGraph_law. Qed.
Print Assumptions C79_randomGrowingGraph_law.
(* a degree is never larger than the number of earlier nodes *)
Theorem C79_randomGrowingGraph_degree : forall fuel p i, 0 <= i < 2 ^ 63 - 1 -> number p -> (0 <= val p <= 1)%Q ->
  always (drawDegree fuel p i) (orFuel (fun d => 0 <= d <= i)).
Proof. exact drawDegree_range. Qed.
Print Assumptions C79_randomGrowingGraph_degree.
Theorem C79_randomGrowingGraph_exchangeable : forall E (dflt : E) fuel n p P Q, 0 <= n <= 2 ^ 63 - 1 -> number p -> (0 <= val p <= 1)%Q ->
  (forall i, 0 <= i < n -> backDegree P i = backDegree Q i) ->
  (Pr (randomGrowingGraph E dflt fuel n p) (graphIs (allPairs false n) P) == Pr (randomGrowingGraph E dflt fuel n p) (graphIs (allPairs false n) Q))%Q.
Proof. exact randomGrowingGraph_same. Qed.
Print Assumptions C79_randomGrowingGraph_exchangeable.
(* the edge 0-2 alone and the edge 1-2 alone are equally likely *)
Example C79_growing_law_ex :
  let P := fun u v => (u =? 0) && (v =? 2) in let Q := fun u v => (u =? 1) && (v =? 2) in
  map (backDegree P) [0; 1; 2] = [0; 0; 1] /\ map (backDegree Q) [0; 1; 2] = [0; 0; 1] /\ number rone /\
  play (drawDegree 2 rone 2) [0; 1] = Ok 1 /\
  (Pr (randomGrowingGraph unit tt 2 3 rone) (graphIs (allPairs false 3) P) == Pr (randomGrowingGraph unit tt 2 3 rone) (graphIs (allPairs false 3) Q))%Q.
Proof.
  cbv zeta. split; [reflexivity|]. split; [reflexivity|]. split; [split; reflexivity|]. split; [vm_compute; reflexivity|].
  apply C79_randomGrowingGraph_exchangeable; [lia|split; reflexivity|split; vm_compute; discriminate|].
  intros i I. assert (H : i = 0 \/ i = 1 \/ i = 2) by lia. destruct H as [->|[->| ->]]; reflexivity.
Qed.
