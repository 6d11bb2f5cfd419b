(* randomGraph for a degree sequence (graph_gen.h). *)
From Verif Require Import Base RndModel RandSpec GenModel GenSpec DegModel DegSpec DegProofs4.

(* every graphical sequence is served with exactly these degrees; a negative degree counts as 0 *)
Theorem C69_randomGraph : forall E (dflt : E) ds averageFlips, is_i64 (averageFlips * alen ds) -> graphical (map (Z.max 0) ds) ->
  averageFlips <= 0 \/ (exists d, In d ds /\ 0 < d) ->
  always (randomGraphDeg dflt ds averageFlips) (returns (fun g =>
    (exists M, represents false g 0 (alen ds) M /\ realizes (isEdge M) (map (Z.max 0) ds)) /\
    forall k d, nth_error ds k = Some d -> degree g (Z.of_nat k) = Ok (Z.max 0 d))).
Proof. exact randomGraph_main. Qed.
Print Assumptions C69_randomGraph.
Example C69_randomGraph_ex : is_i64 (10 * alen [1; 3; 2; 1; 1; 0]) /\ graphical (map (Z.max 0) [1; 3; 2; 1; 1; 0]) /\ (exists d, In d [1; 3; 2; 1; 1; 0] /\ 0 < d).
Proof. exact ex_graphical. Qed.

(* any other sequence is rejected *)
Theorem C69_throws : forall E (dflt : E) ds averageFlips, ~ graphical (map (Z.max 0) ds) -> randomGraphDeg dflt ds averageFlips = RRet Throw.
Proof. exact randomGraph_rejects. Qed.
Print Assumptions C69_throws.
Example C69_throws_ex : ~ graphical (map (Z.max 0) [3; 3; 1; 1]) /\ ~ graphical (map (Z.max 0) [1; 1; 1]).
Proof. exact ex_notGraphical. Qed.

(* the sequence of a graph without edges is graphical but rejected unless no flips are wanted *)
Theorem C69_noEdges_refuted : exists ds, graphical (map (Z.max 0) ds) /\ forall E (dflt : E), randomGraphDeg dflt ds 10 = RRet Throw.
Proof. exact noEdges_refuted. Qed.
Print Assumptions C69_noEdges_refuted.

(* a negative degree is accepted *)
Theorem C69_negative_refuted : exists ds, (forall G, ~ realizes G ds) /\
  forall E (dflt : E), always (randomGraphDeg dflt ds 10) (returns (fun _ => True)).
Proof. exact negative_refuted. Qed.
Print Assumptions C69_negative_refuted.

(* the flips do not reach every graph with the given degrees *)
Theorem C69_reach_refuted : exists ds G u v, realizes G ds /\ G u v = true /\ forall E (dflt : E) averageFlips,
  always (randomGraphDeg dflt ds averageFlips) (fun o => match o with Ok g => hasEdge g u v = Ok false | _ => True end).
Proof. exact reach_refuted. Qed.
Print Assumptions C69_reach_refuted.
