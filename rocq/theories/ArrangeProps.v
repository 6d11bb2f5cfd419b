(* C59 and C83: every order of the edges and of their ends is equally likely; every acyclic orientation is printed by some draws. *)
From Coq Require Import String QArith Permutation.
From Verif Require Import Base RndModel RandSpec RandSeqModel GenModel GenSpec GenOpsModel ArrangeSpec ArrangeProofs ArrangeProofs2 ArrangeProofs3 InputSpec FloatModel InitModel InitSpec GenExModel GenExSpec.
Open Scope Z_scope.

(* permutateEdges: each order of the edges, with each order of the ends of undirected edges, has the same probability *)
Theorem C59_permutateEdges_uniform : forall E dir (dec : forall x y : E, {x = y} + {x <> y}) (g : graph E) M lo hi L (ev : outcome (graph E) -> bool), represents dir g lo hi M ->
  arrangement dir (fun u => u) (getEdges g) L -> (forall o, ev o = true <-> exists g', o = Ok g' /\ getEdges g' = L) ->
  (Pr (permutateEdges dir g) ev == 1 / inject_Z (zfact (length L) * (if dir then 1 else 2 ^ alen L)))%Q.
Proof. exact permutateEdges_law. Qed.
Print Assumptions C59_permutateEdges_uniform.
(* permutate with a given permutation: the same *)
Theorem C59_permutateWith_uniform : forall E dir (dec : forall x y : E, {x = y} + {x <> y}) (g : graph E) M lo hi perm L (ev : outcome (graph E) -> bool), represents dir g lo hi M ->
  Permutation (zseq lo (Z.to_nat (hi - lo))) perm -> is_i64 lo -> is_i64 hi -> hi - lo <= I64_MAX ->
  arrangement dir (fun u => getz perm (u - lo)) (getEdges g) L -> (forall o, ev o = true <-> exists g', o = Ok g' /\ getEdges g' = L) ->
  (Pr (permutateWith dir g perm) ev == 1 / inject_Z (zfact (length L) * (if dir then 1 else 2 ^ alen L)))%Q.
Proof. exact permutateWith_law. Qed.
Print Assumptions C59_permutateWith_uniform.
(* permutate: a list of edges is as likely as there are permutations of the nodes that make it one of the graph *)
Theorem C59_permutate_law : forall E dir (dec : forall x y : E, {x = y} + {x <> y}) (g : graph E) M lo hi L ps (ev : outcome (graph E) -> bool), represents dir g lo hi M ->
  is_i64 lo -> is_i64 hi -> hi - lo <= I64_MAX -> NoDup ps ->
  (forall p, In p ps <-> Permutation (zseq lo (Z.to_nat (hi - lo))) p /\ arrangement dir (fun u => getz p (u - lo)) (getEdges g) L) ->
  (forall o, ev o = true <-> exists g', o = Ok g' /\ getEdges g' = L) ->
  (Pr (permutate dir g) ev == inject_Z (alen ps) / inject_Z (zfact (Z.to_nat (hi - lo)) * (zfact (length (getEdges g)) * (if dir then 1 else 2 ^ alen (getEdges g)))))%Q.
Proof. exact permutate_law. Qed.
Print Assumptions C59_permutate_law.
Theorem C59_permutate_reaches : forall E dir (dec : forall x y : E, {x = y} + {x <> y}) (g : graph E) M lo hi perm L (ev : outcome (graph E) -> bool), represents dir g lo hi M ->
  Permutation (zseq lo (Z.to_nat (hi - lo))) perm -> is_i64 lo -> is_i64 hi -> hi - lo <= I64_MAX ->
  arrangement dir (fun u => getz perm (u - lo)) (getEdges g) L -> (forall o, ev o = true <-> exists g', o = Ok g' /\ getEdges g' = L) ->
  (0 < Pr (permutate dir g) ev)%Q.
Proof. exact permutate_pos. Qed.
Print Assumptions C59_permutate_reaches.

Definition shows (L : list (Z * Z * Z)) (o : outcome (graph Z)) : bool := match o with Ok h => if ldec Z Z.eq_dec (getEdges h) L then true else false | _ => false end.
Definition path (dir : bool) : outcome (graph Z) := let! g := newGraph 1 4 in addEdges dir g [(1, 2, 7); (3, 2, 9)].
Example C59_ex_arrangement : arrangement false (fun u => getz [2; 3; 1] (u - 1)) [(1, 2, 7); (3, 2, 9)] [(1, 3, 9); (3, 2, 7)].
Proof. exists [(3, 2, 9); (1, 2, 7)]. split; [apply perm_swap|]. constructor; [split; [left; split|]; reflexivity|]. constructor; [split; [right; repeat split|]; reflexivity|]. constructor. Qed.
Example C59_ex_law :
  match path false, path true with
  | Ok g, Ok d =>
    Qeq (Pr (permutateEdges false g) (shows [(2, 3, 9); (1, 2, 7)])) (1 # 8) /\ Qeq (Pr (permutateEdges true d) (shows [(3, 2, 9); (1, 2, 7)])) (1 # 2) /\
    Qeq (Pr (permutateWith false g [2; 3; 1]) (shows [(1, 3, 9); (3, 2, 7)])) (1 # 8) /\ Qeq (Pr (permutateWith true d [2; 3; 1]) (shows [(3, 1, 9); (2, 3, 7)])) 0 /\
    Qeq (Pr (permutate true d) (shows [(3, 1, 9); (2, 1, 7)])) (1 # 12) /\ Qeq (Pr (permutate false g) (shows [(1, 3, 9); (3, 2, 7)])) (1 # 48)
  | _, _ => False
  end.
Proof. vm_compute. repeat split; reflexivity. Qed.

(* generator.graph.cpp: every acyclic orientation of every renamed copy of the blueprint, with the arcs in every order, is a possible output *)
Theorem C83_dag_reaches : forall parse args es, ready parse args start -> dagOf 1 blueprint es 19 ->
  (0 < Pr (dagMain parse args) (resultIs (list_eq_dec Z.eq_dec) (graphText 19 es)))%Q.
Proof. exact dag_pos. Qed.
Print Assumptions C83_dag_reaches.
(* an orientation that meets the hypothesis: the blueprint with arcs from smaller to larger numbers, all numbers one larger *)
Example C83_ex_reaches : dagOf 1 blueprint (map (fun e => (Z.min (fst e) (snd e) + 1, Z.max (fst e) (snd e) + 1)) blueprint) 19.
Proof.
  set (es := map _ _). assert (F : Forall (fun e => 1 <= fst e < snd e /\ snd e < 20) es) by (vm_compute; repeat constructor; try discriminate).
  split; [reflexivity|]. split; [|split].
  - unfold GraphSpec.edgesIn. eapply Forall_impl; [|exact F]. unfold GraphSpec.node. intros e. lia.
  - exists (fun u => u + 1). unfold GraphSpec.node. split; [intros; lia|]. split; [intros; lia|]. intros u v U V. unfold adjacent, es. rewrite !in_map_iff. split.
    + assert (X : forall x y, (exists e, (Z.min (fst e) (snd e) + 1, Z.max (fst e) (snd e) + 1) = (x + 1, y + 1) /\ In e blueprint) -> In (x, y) blueprint \/ In (y, x) blueprint).
      { intros x y ([a b] & Q & I). cbn [fst snd] in Q. injection Q as Q1 Q2. assert (C : (a = x /\ b = y) \/ (a = y /\ b = x)) by lia. destruct C as [(-> & ->)|(-> & ->)]; auto. }
      intros [H|H]; apply X in H; tauto.
    + assert (X : forall x y, In (x, y) blueprint -> (exists e, (Z.min (fst e) (snd e) + 1, Z.max (fst e) (snd e) + 1) = (x + 1, y + 1) /\ In e blueprint) \/ (exists e, (Z.min (fst e) (snd e) + 1, Z.max (fst e) (snd e) + 1) = (y + 1, x + 1) /\ In e blueprint)).
      { intros x y I. destruct (Z.le_ge_cases x y) as [L|L]; [left|right]; exists (x, y); (split; [|exact I]); cbn [fst snd]; f_equal; lia. }
      intros [H|H]; apply X in H; tauto.
  - exists (fun u => u). intros a b I. rewrite Forall_forall in F. apply F in I. cbn [fst snd] in I. lia.
Qed.
