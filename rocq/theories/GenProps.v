(* Properties of the edge store of graph_gen.h. *)
From Verif Require Import Base GenModel GenSpec GenProofs GenProofs2 GenProofs3.
Open Scope Z_scope.

(* ---- C38 ---- *)
(* a program of calls on a fresh graph gets the answers of a map from pairs to data *)
Theorem C38_program : forall E dir lo hi (cs : list (gcall E)), lo <= hi -> Forall (gcallOk lo hi) cs ->
  exists g l, (let! g := newGraph lo hi in grun dir g cs) = Ok (g, l) /\ ganswers dir (fun _ _ => None) cs l.
Proof. exact store_program. Qed.
Print Assumptions C38_program.
(* a graph that represents a map answers like it, and keeps representing it under updates *)
Theorem C38_new : forall E dir lo hi, lo <= hi ->
  exists g, @newGraph E lo hi = Ok g /\ represents dir g lo hi (fun _ _ => None).
Proof. exact new_rep. Qed.
Print Assumptions C38_new.
Theorem C38_new_throws : forall E lo hi, hi < lo -> @newGraph E lo hi = Throw.
Proof. exact newGraph_throw. Qed.
Print Assumptions C38_new_throws.
Theorem C38_addEdge : forall E dir (g : graph E) M lo hi u v d, represents dir g lo hi M -> lo <= u < hi -> lo <= v < hi -> u <> v ->
  exists g', addEdge dir g u v d = Ok g' /\ represents dir g' lo hi (put dir M u v (Some d)).
Proof. exact add_rep. Qed.
Print Assumptions C38_addEdge.
Theorem C38_eraseEdge : forall E dir (g : graph E) M lo hi u v, represents dir g lo hi M -> lo <= u < hi -> lo <= v < hi ->
  exists g', eraseEdge dir g u v = Ok (g', isEdge M u v) /\ represents dir g' lo hi (put dir M u v None).
Proof. exact erase_rep. Qed.
Print Assumptions C38_eraseEdge.
Theorem C38_observe : forall E dir (g : graph E) M lo hi cs, represents dir g lo hi M -> Forall (gcallOk lo hi) cs ->
  exists g' l, grun dir g cs = Ok (g', l) /\ ganswers dir M cs l.
Proof. exact rep_observe. Qed.
Print Assumptions C38_observe.
(* a node outside the graph, or a loop, throws *)
Theorem C38_throws : forall E dir (g : graph E) M lo hi c, represents dir g lo hi M -> ~ gcallOk lo hi c -> gstep dir g c = Throw.
Proof. exact rep_throws. Qed.
Print Assumptions C38_throws.

Definition exCalls : list (gcall Z) :=
  [CAdd 5 6 10; CAdd 6 7 11; CAdd 8 5 12; CErase 6 5; CHas 5 8; CHas 6 5; CAdd 7 6 13; CFind 6 7; CDegree 5; CNeighbours 7; CCount; CEdges; CErase 5 7].
Example C38_ex_calls : Forall (gcallOk 5 9) exCalls.
Proof. repeat constructor; discriminate. Qed.
Example C38_ex_undirected : (let! g := newGraph 5 9 in let! (g, l) := grun false g exCalls in Ok (adj g, l)) =
  Ok ([[0]; [1]; [1]; [0]]%nat,
      [AUnit; AUnit; AUnit; ABool true; ABool true; ABool false; AUnit; AData (Some 13); AInt 1; ANeighbours [(6, 13)]; AInt 2; AEdges [(8, 5, 12); (6, 7, 13)]; ABool false]).
Proof. vm_compute. reflexivity. Qed.
(* directed: the edge 5 -> 6 is not 6 -> 5, and both 6 -> 7 and 7 -> 6 exist *)
Example C38_ex_directed : (let! g := newGraph 5 9 in let! (g, l) := grun true g exCalls in Ok (adj g, l)) =
  Ok ([[0]; [1]; [3]; [2]]%nat,
      [AUnit; AUnit; AUnit; ABool false; ABool false; ABool false; AUnit; AData (Some 11); AInt 1; ANeighbours [(6, 13)]; AInt 4;
       AEdges [(5, 6, 10); (6, 7, 11); (8, 5, 12); (7, 6, 13)]; ABool false]).
Proof. vm_compute. reflexivity. Qed.
Example C38_ex_throws : ~ gcallOk 5 9 (CAdd 7 7 1) /\ ~ gcallOk (E := Z) 5 9 (CHas 4 5) /\
  (let! g := newGraph 5 9 in gstep false g (CAdd 7 7 1)) = Throw /\ (let! g := newGraph (E := Z) 5 9 in gstep false g (CHas 4 5)) = Throw.
Proof. split; [intros (_ & _ & H); auto|]. split; [intros ((H & _) & _); apply H; reflexivity|]. split; reflexivity. Qed.
